(** * T_HipBlas: the GPU backend against the CPU backend (C114). *)
From Coq Require Import Ascii List ZArith Lia Bool.
From Verif Require Import Base Heap Conc M_Addr M_Einsum L_Einsum M_Blas S_Blas L_Blas M_Lapack M_GpuLin Num.
From Verif Require Import M_HipBlas S_HipBlas L_HipBlas L2_HipBlas.
Import ListNotations.
Open Scope Z_scope.

Section Thms.
  Context {O : Ops}.
  Notation T := (car O).
  Implicit Types (host dev : heap T) (junk : Z -> T).

  Definition fresh_state host dev live reg : hstate := mkH host dev live reg None None.

  Lemma apart_iv : forall p n q m, apart (p, n) (q, m) -> 0 < n -> 0 < m -> p <> q /\ (p + n <= q \/ q + m <= p).
  Proof.
    intros p n q m (N & D) Hn Hm. split; [exact N|]. unfold in_block in D. cbn [fst snd] in D, N.
    destruct (Z_le_gt_dec (p + n) q); [auto|]. destruct (Z_le_gt_dec (q + m) p); [auto|]. exfalso.
    apply (D (Z.max p q)); lia.
  Qed.

  Lemma placed2 : forall dev live b1 b2, placed dev live [b1; b2] -> 0 < snd b1 -> 0 < snd b2 ->
    (fst b1 <> fst b2 /\ (fst b1 + snd b1 <= fst b2 \/ fst b2 + snd b2 <= fst b1)) /\
    (forall z, in_block b1 z \/ in_block b2 z -> dev z = None).
  Proof.
    intros dev live [p n] [q m] (P & F & _) Hn Hm. inversion P as [|? ? P1 P2]; subst. inversion P1; subst.
    split; [apply apart_iv; auto|]. intros z [Hz|Hz]; eapply F; eauto; cbn; auto.
  Qed.
  Lemma placed3 : forall dev live b1 b2 b3, placed dev live [b1; b2; b3] -> 0 < snd b1 -> 0 < snd b2 -> 0 < snd b3 ->
    (fst b1 <> fst b2 /\ (fst b1 + snd b1 <= fst b2 \/ fst b2 + snd b2 <= fst b1)) /\
    (fst b1 <> fst b3 /\ (fst b1 + snd b1 <= fst b3 \/ fst b3 + snd b3 <= fst b1)) /\
    (fst b2 <> fst b3 /\ (fst b2 + snd b2 <= fst b3 \/ fst b3 + snd b3 <= fst b2)) /\
    (forall z, in_block b1 z \/ in_block b2 z \/ in_block b3 z -> dev z = None).
  Proof.
    intros dev live b1 b2 b3 (P & F & _) H1 H2 H3. inversion P as [|? ? P1 P2]; subst.
    inversion P1 as [|? ? A12 P1']; subst. inversion P1' as [|? ? A13 _]; subst.
    inversion P2 as [|? ? P3 _]; subst. inversion P3 as [|? ? A23 _]; subst.
    destruct b1 as [p1 n1], b2 as [p2 n2], b3 as [p3 n3]. cbn [fst snd] in *.
    split; [apply apart_iv; auto|]. split; [apply apart_iv; auto|]. split; [apply apart_iv; auto|].
    intros z [Hz|[Hz|Hz]]; eapply F; eauto; cbn; auto.
  Qed.
  Lemma placed4 : forall dev live b1 b2 b3 b4, placed dev live [b1; b2; b3; b4] ->
    0 < snd b1 -> 0 < snd b2 -> 0 < snd b3 -> 0 < snd b4 ->
    (fst b1 <> fst b2 /\ (fst b1 + snd b1 <= fst b2 \/ fst b2 + snd b2 <= fst b1)) /\
    (fst b1 <> fst b3 /\ (fst b1 + snd b1 <= fst b3 \/ fst b3 + snd b3 <= fst b1)) /\
    (fst b1 <> fst b4 /\ (fst b1 + snd b1 <= fst b4 \/ fst b4 + snd b4 <= fst b1)) /\
    (fst b2 <> fst b3 /\ (fst b2 + snd b2 <= fst b3 \/ fst b3 + snd b3 <= fst b2)) /\
    (fst b2 <> fst b4 /\ (fst b2 + snd b2 <= fst b4 \/ fst b4 + snd b4 <= fst b2)) /\
    (fst b3 <> fst b4 /\ (fst b3 + snd b3 <= fst b4 \/ fst b4 + snd b4 <= fst b3)) /\
    (forall z, in_block b1 z \/ in_block b2 z \/ in_block b3 z \/ in_block b4 z -> dev z = None).
  Proof.
    intros dev live b1 b2 b3 b4 (P & F & _) H1 H2 H3 H4. inversion P as [|? ? P1 P2]; subst.
    inversion P1 as [|? ? A12 P1']; subst. inversion P1' as [|? ? A13 P1'']; subst. inversion P1'' as [|? ? A14 _]; subst.
    inversion P2 as [|? ? P3 P4]; subst. inversion P3 as [|? ? A23 P3']; subst. inversion P3' as [|? ? A24 _]; subst.
    inversion P4 as [|? ? P5 _]; subst. inversion P5 as [|? ? A34 _]; subst.
    destruct b1 as [p1 n1], b2 as [p2 n2], b3 as [p3 n3], b4 as [p4 n4]. cbn [fst snd] in *.
    split; [apply apart_iv; auto|]. split; [apply apart_iv; auto|]. split; [apply apart_iv; auto|].
    split; [apply apart_iv; auto|]. split; [apply apart_iv; auto|]. split; [apply apart_iv; auto|].
    intros z [Hz|[Hz|[Hz|Hz]]]; eapply F; eauto; cbn; auto.
  Qed.

  Ltac wi := repeat first [rewrite within_t by lia | rewrite within_f by lia].
  Ltac cov := intros ? ?; wi; eexists; reflexivity.
  Ltac drop := first [apply drop_hd | apply drop_tl; [congruence || lia | drop]].

  Ltac todev d D U :=
    match goal with |- context [hrun never ?k (CToDev ?ds ?sr ?n :: ?l) (mkH ?h ?d0 ?lv ?r ?v ?i)] =>
      let E := fresh "E" in
      destruct (st_todev k ds sr n l h d0 lv r v i) as (d & E & D & U); [| |rewrite E; clear E] end.
  Ltac tohost d D U :=
    match goal with |- context [hrun never ?k (CToHost ?ds ?sr ?n :: ?l) (mkH ?h ?d0 ?lv ?r ?v ?i)] =>
      let E := fresh "E" in
      destruct (st_tohost k ds sr n l h d0 lv r v i) as (d & E & D & U); [| |rewrite E; clear E] end.

  (** ** Level 1 *)

  (** Scaling gives what the CPU backend gives, wherever the blocks are placed
      and whatever they hold before, and all device memory is released. *)
  Theorem C114_scal_partial : forall junk pv ps n alpha x inc host dev live reg,
    0 < n -> 0 < inc -> covers host x (n * inc) -> placed dev live [(pv, n * inc); (ps, 1)] ->
    exists host' s, fscal n alpha x inc host = Ok host' /\
      hrun never 0 (hip_scal junk pv ps n alpha x inc) (fresh_state host dev live reg) = HDone s /\
      same (h_host s) host' /\ same (h_dev s) dev /\ h_live s = live /\ h_reg s = reg.
  Proof.
    intros junk pv ps n alpha x inc host dev live reg Hn Hi CH HP.
    assert (Hs : 0 < n * inc) by nia.
    destruct (placed2 _ _ _ _ HP) as (S12 & F); [exact Hs|cbn; lia|]. cbn [fst snd] in S12.
    assert (Hu : forall i, 0 <= i < n -> exists v, host (x + i * inc) = Some v).
    { intros i Hin. apply CH. nia. }
    pose (u := fun i => match host (x + i * inc) with Some v => v | None => o0 end).
    assert (Eu : forall i, 0 <= i < n -> host (x + i * inc) = Some (u i)).
    { intros i Hin. unfold u. destruct (Hu i Hin) as (v & ->). reflexivity. }
    destruct (fscal_spec n alpha x inc host u Hi Eu) as (host' & E & H1 & H2).
    exists host'. unfold hip_scal, fresh_state. set (sz := n * inc) in *.
    rewrite st_malloc by lia. rewrite st_malloc by lia.
    todev d1 D1 O1; [exact CH|cov|].
    rewrite st_scalars1. 2:{ intros z Hz. rewrite O1 by lia. wi. eauto. }
    assert (Ed : forall i, 0 <= i < n -> upd d1 ps alpha (pv + i * inc) = Some (u i)).
    { intros i Hin. assert (pv <= pv + i * inc < pv + sz) by (unfold sz; nia).
      rewrite upd_other by lia. rewrite D1 by lia. rewrite <- Eu by auto. f_equal. lia. }
    destruct (fscal_spec n alpha pv inc (upd d1 ps alpha) u Hi Ed) as (d2 & E2 & G1 & G2).
    erewrite st_launch. 2:{ unfold rd. rewrite upd_same. cbn [bind]. exact E2. }
    rewrite st_sync.
    assert (Hsplit : forall p z, p <= z < p + sz ->
              {i | 0 <= i < n /\ z = p + i * inc} + {forall q, ~ line q inc n (q + (z - p))}).
    { intros p z Hz. destruct (Z.eq_dec ((z - p) mod inc) 0) as [M|M].
      - left. exists ((z - p) / inc). assert (z - p = inc * ((z - p) / inc)) by (apply Z_div_exact_full_2; lia).
        split; [|lia]. split; [apply Z.div_pos; lia|]. apply Z.div_lt_upper_bound; unfold sz in *; nia.
      - right. intros q (i & _ & Eq). apply M. replace (z - p) with (i * inc) by lia. apply Z_mod_mult. }
    tohost h2 T1 T2.
    { exact CH. }
    { intros z Hz. destruct (Hsplit pv z Hz) as [(i & Hin & ->)|Hno].
      - rewrite G1 by auto. eauto.
      - rewrite G2. 2:{ specialize (Hno pv). replace (pv + (z - pv)) with z in Hno by lia. exact Hno. }
        rewrite upd_other by lia. rewrite D1 by lia. apply CH. lia. }
    erewrite st_free by drop. erewrite st_free by drop.
    eexists. split; [exact E|]. split; [reflexivity|]. cbn [h_host h_dev h_live h_reg].
    split; [|split; [|split; reflexivity]].
    - intros z. destruct (Z_le_gt_dec x z) as [L1|L1]; [destruct (Z_lt_ge_dec z (x + sz)) as [L2|L2]|].
      + rewrite T1 by lia. destruct (Hsplit x z (conj L1 L2)) as [(i & Hin & ->)|Hno].
        * rewrite H1 by auto. replace (pv + (x + i * inc - x)) with (pv + i * inc) by lia. apply G1. auto.
        * rewrite G2 by (apply Hno). rewrite upd_other by lia. rewrite D1 by lia.
          rewrite H2. 2:{ specialize (Hno x). replace (x + (z - x)) with z in Hno by lia. exact Hno. }
          f_equal. lia.
      + rewrite T2 by lia. symmetry. apply H2. intros (i & Hin & ->). assert (i * inc < n * inc) by nia. unfold sz in L2. lia.
      + rewrite T2 by lia. symmetry. apply H2. intros (i & Hin & ->). nia.
    - intros z. destruct (within ps 1 z) eqn:W1.
      { apply within_iff in W1. symmetry. apply F. right. exact W1. }
      destruct (within pv sz z) eqn:W2.
      { apply within_iff in W2. symmetry. apply F. left. exact W2. }
      assert (N1 : ~ (ps <= z < ps + 1)) by (rewrite <- within_iff; congruence).
      assert (N2 : ~ (pv <= z < pv + sz)) by (rewrite <- within_iff; congruence).
      rewrite G2. 2:{ intros (i & Hin & ->). apply N2. unfold sz. nia. }
      rewrite upd_other by lia. rewrite O1 by lia. rewrite W1, W2. reflexivity.
  Qed.
  Lemma line_dec : forall inc n p z, 0 < inc -> p <= z < p + n * inc ->
    (exists i, 0 <= i < n /\ z - p = i * inc) \/ (forall i, z - p <> i * inc).
  Proof.
    intros inc n p z Hi Hz. destruct (Z.eq_dec ((z - p) mod inc) 0) as [M|M].
    - left. exists ((z - p) / inc). assert (z - p = inc * ((z - p) / inc)) by (apply Z_div_exact_full_2; lia).
      split; [|lia]. split; [apply Z.div_pos; lia|]. apply Z.div_lt_upper_bound; nia.
    - right. intros i Eq. apply M. rewrite Eq. apply Z_mod_mult.
  Qed.

  Lemma grid_dec : forall ld c p z, 0 < ld -> p <= z < p + c * ld ->
    exists i j, 0 <= i < ld /\ 0 <= j < c /\ z - p = i + j * ld.
  Proof.
    intros ld c p z Hl Hz. exists ((z - p) mod ld), ((z - p) / ld).
    assert (H := Z_div_mod_eq_full (z - p) ld). assert (B := Z.mod_pos_bound (z - p) ld Hl).
    split; [exact B|]. split; [|lia]. split; [apply Z.div_pos; lia|]. apply Z.div_lt_upper_bound; nia.
  Qed.

  Lemma grid_inj : forall ld i j i' j', 0 <= i < ld -> 0 <= i' < ld -> i + j * ld = i' + j' * ld -> i = i' /\ j = j'.
  Proof. intros ld i j i' j' Hi Hi' E. assert (j = j') by nia. subst. lia. Qed.

  Lemma some_of : forall (h : heap T) z, (exists v, h z = Some v) ->
    h z = Some (match h z with Some v => v | None => o0 end).
  Proof. intros h z (v & ->). reflexivity. Qed.

  (** y := alpha x + y. *)
  Theorem C114_axpy_partial : forall junk px py ps n alpha x incx y incy host dev live reg,
    0 < n -> 0 < incx -> 0 < incy -> covers host x (n * incx) -> covers host y (n * incy) ->
    (forall i j, 0 <= i < n -> 0 <= j < n -> x + i * incx <> y + j * incy) ->
    placed dev live [(px, n * incx); (py, n * incy); (ps, 1)] ->
    exists host' s, faxpy n alpha x incx y incy host = Ok host' /\
      hrun never 0 (hip_axpy junk px py ps n alpha x incx y incy) (fresh_state host dev live reg) = HDone s /\
      same (h_host s) host' /\ same (h_dev s) dev /\ h_live s = live /\ h_reg s = reg.
  Proof.
    intros junk px py ps n alpha x incx y incy host dev live reg Hn Hx Hy CX CY DXY HP.
    assert (Hsx : 0 < n * incx) by nia. assert (Hsy : 0 < n * incy) by nia.
    destruct (placed3 _ _ _ _ _ HP) as (S12 & S13 & S23 & F); [exact Hsx|exact Hsy|cbn; lia|]. cbn [fst snd] in S12, S13, S23.
    pose (u := fun i => match host (x + i * incx) with Some v => v | None => o0 end).
    pose (w := fun i => match host (y + i * incy) with Some v => v | None => o0 end).
    assert (Eu : forall i, 0 <= i < n -> host (x + i * incx) = Some (u i)) by (intros i Hin; apply some_of, CX; nia).
    assert (Ew : forall i, 0 <= i < n -> host (y + i * incy) = Some (w i)) by (intros i Hin; apply some_of, CY; nia).
    destruct (faxpy_spec n alpha x incx y incy host u w Hx Hy Eu Ew DXY) as (host' & E & H1 & H2).
    exists host'. unfold hip_axpy, fresh_state. destruct (oeqb alpha o0) eqn:Ea.
    { eexists. split; [exact E|]. split; [reflexivity|]. cbn [h_host h_dev h_live h_reg].
      split; [|split; [intros z; reflexivity|split; reflexivity]].
      unfold faxpy in E. rewrite Ea, orb_true_r in E. injection E as <-. intros z. reflexivity. }
    set (sx := n * incx) in *. set (sy := n * incy) in *.
    rewrite st_malloc by lia. rewrite st_malloc by lia. rewrite st_malloc by lia.
    todev d1 D1 O1; [exact CX|cov|].
    todev d2 D2 O2; [exact CY|intros z Hz; rewrite O1 by lia; wi; eauto|].
    rewrite st_scalars1. 2:{ intros z Hz. rewrite O2, O1 by lia. wi. eauto. }
    set (dL := upd d2 ps alpha).
    assert (FX : forall z, px <= z < px + sx -> dL z = host (x + (z - px))).
    { intros z Hz. unfold dL. rewrite upd_other by lia. rewrite O2 by lia. apply D1. lia. }
    assert (FY : forall z, py <= z < py + sy -> dL z = host (y + (z - py))).
    { intros z Hz. unfold dL. rewrite upd_other by lia. apply D2. lia. }
    assert (FO : forall z, ~ (px <= z < px + sx) -> ~ (py <= z < py + sy) -> ~ (ps <= z < ps + 1) -> dL z = dev z).
    { intros z N1 N2 N3. unfold dL. rewrite upd_other by lia. rewrite O2, O1 by lia. wi. reflexivity. }
    destruct (faxpy_spec n alpha px incx py incy dL u w Hx Hy) as (d3 & E3 & G1 & G2).
    { intros i Hin. assert (px <= px + i * incx < px + sx) by (unfold sx; nia).
      rewrite FX by lia. rewrite <- Eu by auto. f_equal. lia. }
    { intros i Hin. assert (py <= py + i * incy < py + sy) by (unfold sy; nia).
      rewrite FY by lia. rewrite <- Ew by auto. f_equal. lia. }
    { intros i j Hin Hjn. assert (px <= px + i * incx < px + sx) by (unfold sx; nia).
      assert (py <= py + j * incy < py + sy) by (unfold sy; nia). lia. }
    erewrite st_launch. 2:{ unfold rd, dL. rewrite upd_same. cbn [bind]. exact E3. }
    rewrite st_sync.
    assert (NL : forall p z, (forall i, z - p <> i * incy) -> ~ line p incy n z).
    { intros p z Hno (i & _ & Eq). apply (Hno i). lia. }
    tohost h2 T1 T2.
    { exact CY. }
    { intros z Hz. destruct (line_dec incy n py z Hy Hz) as [(i & Hin & Ez)|Hno].
      - replace z with (py + i * incy) by lia. rewrite G1 by auto. eauto.
      - rewrite G2 by (apply NL; auto). rewrite FY by lia. apply CY. lia. }
    erewrite st_free by drop. erewrite st_free by drop. erewrite st_free by drop.
    eexists. split; [exact E|]. split; [reflexivity|]. cbn [h_host h_dev h_live h_reg].
    split; [|split; [|split; reflexivity]].
    - intros z. destruct (Z_le_gt_dec y z) as [L1|L1]; [destruct (Z_lt_ge_dec z (y + sy)) as [L2|L2]|].
      + rewrite T1 by lia. destruct (line_dec incy n y z Hy (conj L1 L2)) as [(i & Hin & Ez)|Hno].
        * replace z with (y + i * incy) by lia. rewrite H1 by auto.
          replace (py + (y + i * incy - y)) with (py + i * incy) by lia. rewrite G1 by auto. rewrite Ea. reflexivity.
        * rewrite G2. 2:{ apply NL. intros i. replace (py + (z - y) - py) with (z - y) by lia. apply Hno. }
          rewrite FY by lia. rewrite H2 by (apply NL; auto). f_equal. lia.
      + rewrite T2 by lia. symmetry. apply H2. intros (i & Hin & ->). assert (i * incy < n * incy) by nia. unfold sy in L2. lia.
      + rewrite T2 by lia. symmetry. apply H2. intros (i & Hin & ->). nia.
    - intros z. destruct (within ps 1 z) eqn:W1.
      { apply within_iff in W1. symmetry. apply F. right. right. exact W1. }
      destruct (within py sy z) eqn:W2.
      { apply within_iff in W2. symmetry. apply F. right. left. exact W2. }
      destruct (within px sx z) eqn:W3.
      { apply within_iff in W3. symmetry. apply F. left. exact W3. }
      assert (N1 : ~ (ps <= z < ps + 1)) by (rewrite <- within_iff; congruence).
      assert (N2 : ~ (py <= z < py + sy)) by (rewrite <- within_iff; congruence).
      assert (N3 : ~ (px <= z < px + sx)) by (rewrite <- within_iff; congruence).
      rewrite G2. 2:{ intros (i & Hin & ->). apply N2. unfold sy. nia. }
      apply FO; auto.
  Qed.

  (** Dot product of real vectors. *)
  Theorem C114_dot_partial : forall junk px py n x incx y incy host dev live reg,
    0 < n -> 0 < incx -> 0 < incy -> covers host x (n * incx) -> covers host y (n * incy) ->
    placed dev live [(px, n * incx); (py, n * incy)] ->
    exists v s, fdot n x incx y incy host = Ok v /\
      hrun never 0 (hip_dot junk (fun v => v) px py n x incx y incy) (fresh_state host dev live reg) = HDone s /\
      h_val s = Some v /\ same (h_host s) host /\ same (h_dev s) dev /\ h_live s = live /\ h_reg s = reg.
  Proof.
    intros junk px py n x incx y incy host dev live reg Hn Hx Hy CX CY HP.
    assert (Hsx : 0 < n * incx) by nia. assert (Hsy : 0 < n * incy) by nia.
    destruct (placed2 _ _ _ _ HP) as (S12 & F); [exact Hsx|exact Hsy|]. cbn [fst snd] in S12.
    pose (u := fun i => match host (x + i * incx) with Some v => v | None => o0 end).
    pose (w := fun i => match host (y + i * incy) with Some v => v | None => o0 end).
    assert (Eu : forall i, 0 <= i < n -> host (x + i * incx) = Some (u i)) by (intros i Hin; apply some_of, CX; nia).
    assert (Ew : forall i, 0 <= i < n -> host (y + i * incy) = Some (w i)) by (intros i Hin; apply some_of, CY; nia).
    exists (sumv n u w). unfold hip_dot, fresh_state. set (sx := n * incx) in *. set (sy := n * incy) in *.
    rewrite st_malloc by lia. rewrite st_malloc by lia.
    todev d1 D1 O1; [exact CX|cov|].
    todev d2 D2 O2; [exact CY|intros z Hz; rewrite O1 by lia; wi; eauto|].
    erewrite st_value.
    2:{ rewrite hdotc_fdot. apply (fdot_spec n px incx py incy d2 u w); [lia|lia| |].
        - intros i Hin. assert (px <= px + i * incx < px + sx) by (unfold sx; nia).
          rewrite O2, D1 by lia. rewrite <- Eu by auto. f_equal. lia.
        - intros i Hin. assert (py <= py + i * incy < py + sy) by (unfold sy; nia).
          rewrite D2 by lia. rewrite <- Ew by auto. f_equal. lia. }
    erewrite st_free by drop. erewrite st_free by drop.
    eexists. split; [apply fdot_spec; [lia|lia|exact Eu|exact Ew]|]. split; [reflexivity|]. cbn [h_host h_dev h_live h_reg h_val].
    split; [reflexivity|]. split; [intros z; reflexivity|]. split; [|split; reflexivity].
    intros z. destruct (within py sy z) eqn:W2.
    { apply within_iff in W2. symmetry. apply F. right. exact W2. }
    destruct (within px sx z) eqn:W3.
    { apply within_iff in W3. symmetry. apply F. left. exact W3. }
    assert (N2 : ~ (py <= z < py + sy)) by (rewrite <- within_iff; congruence).
    assert (N3 : ~ (px <= z < px + sx)) by (rewrite <- within_iff; congruence).
    rewrite O2, O1 by lia. wi. reflexivity.
  Qed.

  Lemma hdotc_spec : forall conj n x incx y incy (h : heap T) u v, 0 <= incx -> 0 <= incy ->
    (forall i, 0 <= i < n -> h (x + i * incx) = Some (u i)) ->
    (forall i, 0 <= i < n -> h (y + i * incy) = Some (v i)) ->
    hdotc conj n x incx y incy h = Ok (sumv n (fun l => conj (u l)) v).
  Proof.
    intros conj n x incx y incy h u v Hx Hy Hu Hv. unfold hdotc.
    destruct (Z.leb_spec n 0).
    - unfold sumv. rewrite zrange_nonpos by lia. auto.
    - assert (G : forall l s, (forall i, In i l -> 0 <= i < n) ->
        run (pfold l (fun s i => PRd (fvec x n incx i) (fun u => PRd (fvec y n incy i)
                     (fun v => PRet (oadd s (omul (conj u) v))))) s) h
        = Ok (fold_left (fun s i => oadd s (omul (conj (u i)) (v i))) l s, h)).
      { induction l as [|i l IH]; intros s Hl; [reflexivity|]. cbn [pfold run pbind fold_left].
        rewrite !fvec_nonneg by auto. rewrite Hu, Hv by (apply Hl; left; auto). cbn [pbind].
        apply IH. intros j Hj. apply Hl. right. auto. }
      rewrite G by (intros i Hin; now apply zrange_in). reflexivity.
  Qed.

  (** Dot product with any function applied to the elements of x (for complex
      numbers the conjugate): what is returned. *)
  Theorem C114_dotc : forall junk (conj : T -> T) px py n x incx y incy (u w : Z -> T) host dev live reg,
    0 < n -> 0 < incx -> 0 < incy -> covers host x (n * incx) -> covers host y (n * incy) ->
    (forall i, 0 <= i < n -> host (x + i * incx) = Some (u i)) ->
    (forall i, 0 <= i < n -> host (y + i * incy) = Some (w i)) ->
    placed dev live [(px, n * incx); (py, n * incy)] ->
    exists s,
      hrun never 0 (hip_dot junk conj px py n x incx y incy) (fresh_state host dev live reg) = HDone s /\
      h_val s = Some (fold_left (fun s i => oadd s (omul (conj (u i)) (w i))) (zrange n) o0) /\
      same (h_host s) host /\ same (h_dev s) dev /\ h_live s = live /\ h_reg s = reg.
  Proof.
    intros junk conj px py n x incx y incy u w host dev live reg Hn Hx Hy CX CY Eu Ew HP.
    assert (Hsx : 0 < n * incx) by nia. assert (Hsy : 0 < n * incy) by nia.
    destruct (placed2 _ _ _ _ HP) as (S12 & F); [exact Hsx|exact Hsy|]. cbn [fst snd] in S12.
    unfold hip_dot, fresh_state. set (sx := n * incx) in *. set (sy := n * incy) in *.
    rewrite st_malloc by lia. rewrite st_malloc by lia.
    todev d1 D1 O1; [exact CX|cov|].
    todev d2 D2 O2; [exact CY|intros z Hz; rewrite O1 by lia; wi; eauto|].
    erewrite st_value.
    2:{ apply (hdotc_spec conj n px incx py incy d2 u w); [lia|lia| |].
        - intros i Hin. assert (px <= px + i * incx < px + sx) by (unfold sx; nia).
          rewrite O2, D1 by lia. rewrite <- Eu by auto. f_equal. lia.
        - intros i Hin. assert (py <= py + i * incy < py + sy) by (unfold sy; nia).
          rewrite D2 by lia. rewrite <- Ew by auto. f_equal. lia. }
    erewrite st_free by drop. erewrite st_free by drop.
    eexists. split; [reflexivity|]. cbn [h_host h_dev h_live h_reg h_val].
    split; [reflexivity|]. split; [intros z; reflexivity|]. split; [|split; reflexivity].
    intros z. destruct (within py sy z) eqn:W2.
    { apply within_iff in W2. symmetry. apply F. right. exact W2. }
    destruct (within px sx z) eqn:W3.
    { apply within_iff in W3. symmetry. apply F. left. exact W3. }
    assert (N2 : ~ (py <= z < py + sy)) by (rewrite <- within_iff; congruence).
    assert (N3 : ~ (px <= z < px + sx)) by (rewrite <- within_iff; congruence).
    rewrite O2, O1 by lia. wi. reflexivity.
  Qed.

  (** ** Matrices

      The matrix routines do what the CPU backend does for the transposed
      matrices, with the sizes below. *)

  Lemma updv_beta0 : forall alpha beta s v v', oeqb beta o0 = true -> @updv O alpha beta s v = updv alpha beta s v'.
  Proof. intros. unfold updv. rewrite H. reflexivity. Qed.

  Lemma gemm_gpu : forall junk pa pb pc ps ta tb m n k alpha a lda b ldb beta c ldc host dev live reg,
    0 < m -> 0 < n -> 0 < k -> set_char ta = true -> set_char tb = true ->
    (if hip_trans ta then k else m) <= lda -> (if hip_trans tb then n else k) <= ldb -> m <= ldc ->
    (hip_trans ta = true -> m <= k) -> (hip_trans tb = true -> k <= n) -> n <= m ->
    (oeqb beta o0 = false \/ ldc <> k \/ (ldc = m /\ n = m)) ->
    covers host a (k * lda) -> covers host b (ldb * n) -> covers host c (m * ldc) ->
    (forall i j i' l, 0 <= i < m -> 0 <= j < n -> 0 <= i' < m -> 0 <= l < k ->
       c + i + j * ldc <> fop (hip_trans ta) a lda i' l) ->
    (forall i j l j', 0 <= i < m -> 0 <= j < n -> 0 <= l < k -> 0 <= j' < n ->
       c + i + j * ldc <> fop (hip_trans tb) b ldb l j') ->
    placed dev live [(pa, k * lda); (pb, ldb * n); (pc, m * ldc); (ps, 2)] ->
    exists host' s,
      vgemm (hip_trans tb) (hip_trans ta) n m k alpha b ldb a lda beta c ldc host = Ok host' /\
      hrun never 0 (hip_gemm junk pa pb pc ps ta tb m n k alpha a lda b ldb beta c ldc) (fresh_state host dev live reg) = HDone s /\
      same (h_host s) host' /\ same (h_dev s) dev /\ h_live s = live /\ h_reg s = reg.
  Proof.
    intros junk pa pb pc ps ta tb m n k alpha a lda b ldb beta c ldc host dev live reg
      Hm Hn Hk Ta Tb La Lb Lc Sa Sb Sc Hbeta CA CB CC DA DB HP.
    assert (La0 : 0 < lda) by (destruct (hip_trans ta); lia). assert (Lb0 : 0 < ldb) by (destruct (hip_trans tb); lia).
    assert (Hsa : 0 < k * lda) by nia. assert (Hsb : 0 < ldb * n) by nia. assert (Hsc : 0 < m * ldc) by nia.
    assert (B4 := placed_blocks4 _ _ _ _ _ _ _ _ _ _ HP).
    assert (F : forall z, inn pa (k * lda) z \/ inn pb (ldb * n) z \/ inn pc (m * ldc) z \/ inn ps 2 z -> dev z = None).
    { destruct HP as (_ & F & _). intros z [Z|[Z|[Z|Z]]];
        [eapply (F (_, _)); [|exact Z]; cbn; auto|eapply (F (_, _)); [|exact Z]; cbn; auto
        |eapply (F (_, _)); [|exact Z]; cbn; auto|eapply (F (_, _)); [|exact Z]; cbn; auto 6]. }
    clear HP.
    set (tA := hip_trans ta) in *. set (tB := hip_trans tb) in *.
    (* offsets of the elements *)
    assert (BA : forall p i l, 0 <= i < m -> 0 <= l < k -> p <= fop tA p lda i l < p + k * lda).
    { intros p i l Hi Hl. unfold fop. destruct tA; [specialize (Sa eq_refl)|]; nia. }
    assert (BB : forall p l j, 0 <= l < k -> 0 <= j < n -> p <= fop tB p ldb l j < p + ldb * n).
    { intros p l j Hl Hj. unfold fop. destruct tB; [specialize (Sb eq_refl)|]; nia. }
    assert (BC : forall p i j, 0 <= i < m -> 0 <= j < n -> p <= p + i + j * ldc < p + m * ldc) by (intros; nia).
    assert (RA : forall p q i l, p + (fop tA q lda i l - q) = fop tA p lda i l) by (intros; unfold fop; destruct tA; lia).
    assert (RB : forall p q l j, p + (fop tB q ldb l j - q) = fop tB p ldb l j) by (intros; unfold fop; destruct tB; lia).
    pose (u := fun i l => match host (fop tA a lda i l) with Some v => v | None => o0 end).
    pose (v := fun l j => match host (fop tB b ldb l j) with Some v => v | None => o0 end).
    pose (w := fun i j => match host (c + i + j * ldc) with Some v => v | None => o0 end).
    assert (Eu : forall i l, 0 <= i < m -> 0 <= l < k -> host (fop tA a lda i l) = Some (u i l))
      by (intros i l Hi Hl; apply some_of, CA; apply BA; auto).
    assert (Ev : forall l j, 0 <= l < k -> 0 <= j < n -> host (fop tB b ldb l j) = Some (v l j))
      by (intros l j Hl Hj; apply some_of, CB; apply BB; auto).
    assert (Ew : forall i j, 0 <= i < m -> 0 <= j < n -> host (c + i + j * ldc) = Some (w i j))
      by (intros i j Hi Hj; apply some_of, CC; apply BC; auto).
    destruct (fgemm_cells tA tB m n k alpha a lda b ldb beta c ldc host u v w Hm Hn Hk La Lb Lc Eu Ev Ew DA DB)
      as (host' & E & H1 & H2).
    assert (EV : vgemm tB tA n m k alpha b ldb a lda beta c ldc host = Ok host').
    { unfold vgemm. destruct (Z.eqb_spec n 0); [lia|]. destruct (Z.eqb_spec m 0); [lia|]. destruct (Z.eqb_spec k 0); [lia|].
      cbn [orb]. exact E. }
    exists host'. unfold hip_gemm, fresh_state. rewrite Ta, Tb. cbv zeta. fold tA. fold tB.
    set (sa := k * lda) in *. set (sb := ldb * n) in *. set (sc := m * ldc) in *. cbn [app].
    destruct (setup4 junk host dev live reg pa sa pb sb pc sc ps 2 a b) as (d2 & -> & A2 & B2 & C2 & S2 & O2);
      [lia|lia|lia|lia|exact CA|exact CB|exact B4|].
    rewrite st_scalars2 by exact S2.
    set (d3 := upd (upd d2 ps alpha) (ps + 1) beta).
    assert (X3 : forall z, ~ inn ps 2 z -> d3 z = d2 z).
    { intros z Hz. unfold inn in Hz. unfold d3. rewrite !upd_other by lia. reflexivity. }
    match goal with |- context [hrun never 7 (_ ++ ?R)] => set (rest := R) end.
    destruct (copy3 (negb (oeqb beta o0) || negb (ldc =? k)) host d3
      ((ps, 2) :: (pc, sc) :: (pb, sb) :: (pa, sa) :: live) reg pc sc c rest CC) as (dL & kk & -> & FC0 & KC & FN).
    { intros z Hz. rewrite X3 by (exact (proj2 (b34 _ _ _ _ _ _ _ _ B4) z Hz)). apply C2. exact Hz. }
    unfold rest. clear rest.
    assert (FC : forall z, inn pc sc z -> dL z = host (c + (z - pc)) \/ (oeqb beta o0 = true /\ ldc = m /\ n = m)).
    { intros z Hz. destruct (negb (oeqb beta o0) || negb (ldc =? k)) eqn:Ec.
      - left. apply FC0; auto.
      - right. apply orb_false_iff in Ec as (Ec1 & Ec2). apply negb_false_iff in Ec1, Ec2. apply Z.eqb_eq in Ec2.
        destruct Hbeta as [X|[X|X]]; [congruence|contradiction|auto]. }
    assert (FA : forall z, inn pa sa z -> dL z = host (a + (z - pa))).
    { intros z Hz. rewrite FN by (exact (proj2 (b13 _ _ _ _ _ _ _ _ B4) z Hz)).
      rewrite X3 by (exact (proj2 (b14 _ _ _ _ _ _ _ _ B4) z Hz)). apply A2. exact Hz. }
    assert (FB : forall z, inn pb sb z -> dL z = host (b + (z - pb))).
    { intros z Hz. rewrite FN by (exact (proj2 (b23 _ _ _ _ _ _ _ _ B4) z Hz)).
      rewrite X3 by (exact (proj2 (b24 _ _ _ _ _ _ _ _ B4) z Hz)). apply B2. exact Hz. }
    assert (FS : dL ps = Some alpha /\ dL (ps + 1) = Some beta).
    { assert (I0 : ~ inn pc sc ps). { intros X. apply (proj2 (b34 _ _ _ _ _ _ _ _ B4) ps X). unfold inn. lia. }
      assert (I1 : ~ inn pc sc (ps + 1)). { intros X. apply (proj2 (b34 _ _ _ _ _ _ _ _ B4) (ps + 1) X). unfold inn. lia. }
      rewrite !FN by assumption. unfold d3. rewrite upd_same. rewrite upd_other by lia. rewrite upd_same. auto. }
    assert (FO : forall z, ~ inn pa sa z -> ~ inn pb sb z -> ~ inn pc sc z -> ~ inn ps 2 z -> dL z = dev z).
    { intros z N1 N2 N3 N4. rewrite FN, X3, O2 by assumption. reflexivity. }
    clear A2 B2 C2 S2 O2 X3 FN FC0 CA CB.
    pose (w' := fun i j => match dL (pc + i + j * ldc) with Some v => v | None => o0 end).
    destruct (fgemm_cells tA tB m n k alpha pa lda pb ldb beta pc ldc dL u v w' Hm Hn Hk La Lb Lc) as (d5 & E5 & G1 & G2).
    { intros i l Hi Hl. rewrite FA by (apply BA; auto). rewrite RA. apply Eu; auto. }
    { intros l j Hl Hj. rewrite FB by (apply BB; auto). rewrite RB. apply Ev; auto. }
    { intros i j Hi Hj. apply some_of, KC. apply BC; auto. }
    { intros i j i' l Hi Hj Hi' Hl X. apply (proj2 (b13 _ _ _ _ _ _ _ _ B4) (fop tA pa lda i' l) (BA pa i' l Hi' Hl)).
      rewrite <- X. exact (BC pc i j Hi Hj). }
    { intros i j l j' Hi Hj Hl Hj' X. apply (proj2 (b23 _ _ _ _ _ _ _ _ B4) (fop tB pb ldb l j') (BB pb l j' Hl Hj')).
      rewrite <- X. exact (BC pc i j Hi Hj). }
    erewrite st_launch. 2:{ unfold rd. rewrite (proj1 FS), (proj2 FS). cbn [bind]. exact E5. }
    rewrite st_sync.
    assert (EW : forall i j, 0 <= i < m -> 0 <= j < n -> d5 (pc + i + j * ldc) = host' (c + i + j * ldc)).
    { intros i j Hi Hj. rewrite G1, H1 by auto. f_equal.
      destruct (FC (pc + i + j * ldc) (BC pc i j Hi Hj)) as [X|(X & _)].
      - replace (w' i j) with (w i j); auto. unfold w, w'. rewrite X. replace (c + (pc + i + j * ldc - pc)) with (c + i + j * ldc) by lia. reflexivity.
      - apply updv_beta0. exact X. }
    (* copy back *)
    assert (CE : forall o, 0 <= o < sc -> d5 (pc + o) = host' (c + o) /\ exists x, d5 (pc + o) = Some x).
    { clear F FA FB FO. intros o Ho.
      destruct (grid_dec ldc m 0 o) as (i & j & Hi & Hj & Eo); [lia|fold sc; lia|]. rewrite Z.sub_0_r in Eo.
      destruct (Z_lt_ge_dec i m) as [Li|Li]; [destruct (Z_lt_ge_dec j n) as [Lj|Lj]|].
      - rewrite Eo, !Z.add_assoc. split; [apply EW; lia|]. rewrite G1 by lia. eauto.
      - assert (NC : forall p i' j', 0 <= i' < m -> 0 <= j' < n -> p + o <> p + i' + j' * ldc).
        { intros p i' j' Hi' Hj' Eq. destruct (grid_inj ldc i j i' j'); lia. }
        assert (X : d5 (pc + o) = dL (pc + o)) by (apply G2; apply NC).
        rewrite X. split; [|apply KC; lia]. destruct (FC (pc + o)) as [Y|(_ & _ & Y)]; [unfold inn; lia| |lia].
        rewrite Y. rewrite H2 by (apply NC). f_equal. lia.
      - assert (NC : forall p i' j', 0 <= i' < m -> 0 <= j' < n -> p + o <> p + i' + j' * ldc).
        { intros p i' j' Hi' Hj' Eq. destruct (grid_inj ldc i j i' j'); lia. }
        assert (X : d5 (pc + o) = dL (pc + o)) by (apply G2; apply NC).
        rewrite X. split; [|apply KC; lia]. destruct (FC (pc + o)) as [Y|(_ & Y & _)]; [unfold inn; lia| |lia].
        rewrite Y. rewrite H2 by (apply NC). f_equal. lia. }
    match goal with |- context [hrun never ?q _ _] =>
      destruct (finish4 q host d5 dev live reg pa sa pb sb pc sc ps 2 c None None B4 F) as (h2 & d6 & -> & D6 & T1 & T2) end.
    { intros z N1 N2 N3 N4. rewrite G2. 2:{ intros i j Hi Hj ->. apply N3. exact (BC pc i j Hi Hj). } apply FO; assumption. }
    { exact CC. }
    { intros z Hz. replace z with (pc + (z - pc)) by lia. apply CE. lia. }
    eexists. split; [exact EV|]. split; [reflexivity|]. cbn [h_host h_dev h_live h_reg].
    split; [|split; [exact D6|split; reflexivity]].
    intros z. destruct (inn_dec c sc z) as [I|I].
    - unfold inn in I. replace z with (c + (z - c)) by lia. rewrite T1 by lia. apply CE. lia.
    - rewrite T2 by exact I. symmetry. apply H2. intros i j Hi Hj ->. apply I. exact (BC c i j Hi Hj).
  Qed.

  Lemma gemv_gpu : forall junk pa px py ps ta m n alpha a lda x incx beta y incy host dev live reg,
    0 < m -> 0 < n -> set_char ta = true -> hip_trans ta = true \/ m = n -> m <= lda -> 0 < incx -> 0 < incy ->
    covers host a (n * lda) -> covers host x (m * incx) -> covers host y (n * incy) ->
    (forall i j l, 0 <= i < n -> 0 <= j < n -> 0 <= l < m -> y + i * incy <> a + l + j * lda) ->
    (forall i l, 0 <= i < n -> 0 <= l < m -> y + i * incy <> x + l * incx) ->
    placed dev live [(pa, n * lda); (px, m * incx); (py, n * incy); (ps, 2)] ->
    exists host' s,
      vgemv (negb (hip_trans ta)) n m alpha a lda x incx beta y incy host = Ok host' /\
      hrun never 0 (hip_gemv junk pa px py ps ta m n alpha a lda x incx beta y incy) (fresh_state host dev live reg) = HDone s /\
      same (h_host s) host' /\ same (h_dev s) dev /\ h_live s = live /\ h_reg s = reg.
  Proof.
    intros junk pa px py ps ta m n alpha a lda x incx beta y incy host dev live reg
      Hm Hn Ta Hsq La Hx Hy CA CX CY DA DX HP.
    assert (Hsa : 0 < n * lda) by nia. assert (Hsx : 0 < m * incx) by nia. assert (Hsy : 0 < n * incy) by nia.
    assert (B4 := placed_blocks4 _ _ _ _ _ _ _ _ _ _ HP).
    assert (F : forall z, inn pa (n * lda) z \/ inn px (m * incx) z \/ inn py (n * incy) z \/ inn ps 2 z -> dev z = None).
    { destruct HP as (_ & F & _). intros z [Z|[Z|[Z|Z]]];
        [eapply (F (_, _)); [|exact Z]; cbn; auto|eapply (F (_, _)); [|exact Z]; cbn; auto
        |eapply (F (_, _)); [|exact Z]; cbn; auto|eapply (F (_, _)); [|exact Z]; cbn; auto 6]. }
    clear HP. set (tA := hip_trans ta) in *.
    assert (Nx : (if tA then m else n) = m) by (destruct tA; [auto|destruct Hsq; [discriminate|auto]]).
    assert (Ny : (if tA then n else m) = n) by (destruct tA; [auto|destruct Hsq; [discriminate|auto]]).
    assert (BA : forall p i l, 0 <= i < n -> 0 <= l < m -> inn p (n * lda) (fop tA p lda i l)).
    { intros p i l Hi Hl. unfold fop, inn. destruct tA; [nia|]. destruct Hsq as [X|X]; [discriminate|]. subst m. nia. }
    assert (BX : forall p l, 0 <= l < m -> inn p (m * incx) (p + l * incx)) by (intros; unfold inn; nia).
    assert (BY : forall p i, 0 <= i < n -> inn p (n * incy) (p + i * incy)) by (intros; unfold inn; nia).
    assert (RA : forall p q i l, p + (fop tA q lda i l - q) = fop tA p lda i l) by (intros; unfold fop; destruct tA; lia).
    pose (u := fun i l => match host (fop tA a lda i l) with Some v => v | None => o0 end).
    pose (v := fun l => match host (x + l * incx) with Some v => v | None => o0 end).
    pose (w := fun i => match host (y + i * incy) with Some v => v | None => o0 end).
    assert (Eu : forall i l, 0 <= i < n -> 0 <= l < m -> host (fop tA a lda i l) = Some (u i l))
      by (intros i l Hi Hl; apply some_of, CA; apply BA; auto).
    assert (Ev : forall l, 0 <= l < m -> host (x + l * incx) = Some (v l))
      by (intros l Hl; apply some_of, CX; apply BX; auto).
    assert (Ew : forall i, 0 <= i < n -> host (y + i * incy) = Some (w i))
      by (intros i Hi; apply some_of, CY; apply BY; auto).
    assert (DA' : forall i i' l, 0 <= i < n -> 0 <= i' < n -> 0 <= l < m -> y + i * incy <> fop tA a lda i' l).
    { intros i i' l Hi Hi' Hl. unfold fop. destruct tA; [apply DA; auto|]. destruct Hsq as [X|X]; [discriminate|]. subst m. apply DA; auto. }
    assert (GC := fgemv_cells tA m n alpha a lda x incx beta y incy host u v w Hm Hn La Hx Hy).
    cbv zeta in GC. rewrite Nx, Ny in GC. destruct (GC Eu Ev Ew DA' DX) as (host' & E & H1 & H2). clear GC.
    assert (EV : vgemv (negb tA) n m alpha a lda x incx beta y incy host = Ok host').
    { unfold vgemv. destruct (Z.eqb_spec n 0); [lia|]. destruct (Z.eqb_spec m 0); [lia|].
      cbn [orb]. rewrite negb_involutive. exact E. }
    exists host'. unfold hip_gemv, fresh_state. rewrite Ta. cbv zeta. fold tA.
    set (sa := n * lda) in *. set (sx := m * incx) in *. set (sy := n * incy) in *. cbn [app].
    destruct (setup4 junk host dev live reg pa sa px sx py sy ps 2 a x) as (d2 & -> & A2 & B2 & C2 & S2 & O2);
      [lia|lia|lia|lia|exact CA|exact CX|exact B4|].
    rewrite st_scalars2 by exact S2.
    set (d3 := upd (upd d2 ps alpha) (ps + 1) beta).
    assert (X3 : forall z, ~ inn ps 2 z -> d3 z = d2 z).
    { intros z Hz. unfold inn in Hz. unfold d3. rewrite !upd_other by lia. reflexivity. }
    match goal with |- context [hrun never 7 (_ ++ ?R)] => set (rest := R) end.
    destruct (copy3 (negb (oeqb beta o0) || negb (incy =? 1)) host d3
      ((ps, 2) :: (py, sy) :: (px, sx) :: (pa, sa) :: live) reg py sy y rest CY) as (dL & kk & -> & FC0 & KC & FN).
    { intros z Hz. rewrite X3 by (exact (proj2 (b34 _ _ _ _ _ _ _ _ B4) z Hz)). apply C2. exact Hz. }
    unfold rest. clear rest.
    assert (FC : forall z, inn py sy z -> dL z = host (y + (z - py)) \/ (oeqb beta o0 = true /\ incy = 1)).
    { intros z Hz. destruct (negb (oeqb beta o0) || negb (incy =? 1)) eqn:Ec.
      - left. apply FC0; auto.
      - right. apply orb_false_iff in Ec as (Ec1 & Ec2). apply negb_false_iff in Ec1, Ec2. apply Z.eqb_eq in Ec2. auto. }
    assert (FA : forall z, inn pa sa z -> dL z = host (a + (z - pa))).
    { intros z Hz. rewrite FN by (exact (proj2 (b13 _ _ _ _ _ _ _ _ B4) z Hz)).
      rewrite X3 by (exact (proj2 (b14 _ _ _ _ _ _ _ _ B4) z Hz)). apply A2. exact Hz. }
    assert (FB : forall z, inn px sx z -> dL z = host (x + (z - px))).
    { intros z Hz. rewrite FN by (exact (proj2 (b23 _ _ _ _ _ _ _ _ B4) z Hz)).
      rewrite X3 by (exact (proj2 (b24 _ _ _ _ _ _ _ _ B4) z Hz)). apply B2. exact Hz. }
    assert (FS : dL ps = Some alpha /\ dL (ps + 1) = Some beta).
    { assert (I0 : ~ inn py sy ps). { intros X. apply (proj2 (b34 _ _ _ _ _ _ _ _ B4) ps X). unfold inn. lia. }
      assert (I1 : ~ inn py sy (ps + 1)). { intros X. apply (proj2 (b34 _ _ _ _ _ _ _ _ B4) (ps + 1) X). unfold inn. lia. }
      rewrite !FN by assumption. unfold d3. rewrite upd_same. rewrite upd_other by lia. rewrite upd_same. auto. }
    assert (FO : forall z, ~ inn pa sa z -> ~ inn px sx z -> ~ inn py sy z -> ~ inn ps 2 z -> dL z = dev z).
    { intros z N1 N2 N3 N4. rewrite FN, X3, O2 by assumption. reflexivity. }
    clear A2 B2 C2 S2 O2 X3 FN FC0 CA CX.
    pose (w' := fun i => match dL (py + i * incy) with Some v => v | None => o0 end).
    assert (GC := fgemv_cells tA m n alpha pa lda px incx beta py incy dL u v w' Hm Hn La Hx Hy).
    cbv zeta in GC. rewrite Nx, Ny in GC. destruct GC as (d5 & E5 & G1 & G2).
    { intros i l Hi Hl. rewrite FA by (apply BA; auto). rewrite RA. apply Eu; auto. }
    { intros l Hl. rewrite FB by (apply BX; auto). rewrite <- Ev by auto. f_equal. lia. }
    { intros i Hi. apply some_of, KC. apply BY; auto. }
    { intros i i' l Hi Hi' Hl X. apply (proj2 (b13 _ _ _ _ _ _ _ _ B4) (fop tA pa lda i' l) (BA pa i' l Hi' Hl)).
      rewrite <- X. exact (BY py i Hi). }
    { intros i l Hi Hl X. apply (proj2 (b23 _ _ _ _ _ _ _ _ B4) (px + l * incx) (BX px l Hl)).
      rewrite <- X. exact (BY py i Hi). }
    erewrite st_launch. 2:{ unfold rd. rewrite (proj1 FS), (proj2 FS). cbn [bind]. exact E5. }
    assert (EW : forall i, 0 <= i < n -> d5 (py + i * incy) = host' (y + i * incy)).
    { intros i Hi. rewrite G1, H1 by auto. f_equal.
      destruct (FC (py + i * incy) (BY py i Hi)) as [X|(X & _)].
      - replace (w' i) with (w i); auto. unfold w, w'. rewrite X. replace (y + (py + i * incy - py)) with (y + i * incy) by lia. reflexivity.
      - apply updv_beta0. exact X. }
    assert (CE : forall o, 0 <= o < sy -> d5 (py + o) = host' (y + o) /\ exists z, d5 (py + o) = Some z).
    { clear F FA FB FO. intros o Ho.
      destruct (Z.eq_dec (o mod incy) 0) as [M|M].
      - assert (Eo : o = (o / incy) * incy) by (assert (X := Z_div_exact_full_2 o incy ltac:(lia) M); lia).
        assert (Hi : 0 <= o / incy < n). { split; [apply Z.div_pos; lia|]. apply Z.div_lt_upper_bound; unfold sy in *; nia. }
        set (i := o / incy) in *. clearbody i. subst o. split; [apply EW; auto|]. rewrite G1 by auto. eauto.
      - assert (NC : forall p i, 0 <= i < n -> p + o <> p + i * incy).
        { intros p i Hi Eq. apply M. replace o with (i * incy) by lia. apply Z_mod_mult. }
        assert (X : d5 (py + o) = dL (py + o)) by (apply G2; intros i; apply NC).
        rewrite X. split; [|apply KC; lia]. destruct (FC (py + o)) as [Y|(_ & Y)]; [unfold inn; lia| |].
        + rewrite Y. rewrite H2 by (intros i; apply NC). f_equal. lia.
        + exfalso. apply M. rewrite Y. apply Z.mod_1_r. }
    match goal with |- context [hrun never ?q _ _] =>
      destruct (finish4 q host d5 dev live reg pa sa px sx py sy ps 2 y None None B4 F) as (h2 & d6 & -> & D6 & T1 & T2) end.
    { intros z N1 N2 N3 N4. rewrite G2. 2:{ intros i Hi ->. apply N3. exact (BY py i Hi). } apply FO; assumption. }
    { exact CY. }
    { intros z Hz. replace z with (py + (z - py)) by lia. apply CE. lia. }
    eexists. split; [exact EV|]. split; [reflexivity|]. cbn [h_host h_dev h_live h_reg].
    split; [|split; [exact D6|split; reflexivity]].
    intros z. destruct (inn_dec y sy z) as [I|I].
    - unfold inn in I. replace z with (y + (z - y)) by lia. rewrite T1 by lia. apply CE. lia.
    - rewrite T2 by exact I. symmetry. apply H2. intros i Hi ->. apply I. exact (BY y i Hi).
  Qed.

  Lemma asks_hip : forall c, asks_transpose c = hip_trans c.
  Proof. intros c. unfold asks_transpose, hip_trans. cbn [existsb]. rewrite orb_false_r, !orb_assoc. reflexivity. Qed.
  Lemma set_nz : forall c, c <> Ascii.zero -> set_char c = true.
  Proof. intros c H. unfold set_char. apply negb_true_iff, Ascii.eqb_neq. exact H. Qed.

  Theorem C114_gemm_partial : forall junk pa pb pc ps ta tb m n k alpha a lda b ldb beta c ldc host dev live reg,
    0 < m -> 0 < n -> 0 < k -> ta <> Ascii.zero -> tb <> Ascii.zero ->
    (if asks_transpose ta then k else m) <= lda -> (if asks_transpose tb then n else k) <= ldb -> m <= ldc ->
    (asks_transpose ta = true -> m <= k) -> (asks_transpose tb = true -> k <= n) -> n <= m ->
    (oeqb beta o0 = false \/ ldc <> k \/ (ldc = m /\ n = m)) ->
    covers host a (k * lda) -> covers host b (ldb * n) -> covers host c (m * ldc) ->
    (forall i j i' l, 0 <= i < m -> 0 <= j < n -> 0 <= i' < m -> 0 <= l < k ->
       c + i + j * ldc <> fop (asks_transpose ta) a lda i' l) ->
    (forall i j l j', 0 <= i < m -> 0 <= j < n -> 0 <= l < k -> 0 <= j' < n ->
       c + i + j * ldc <> fop (asks_transpose tb) b ldb l j') ->
    placed dev live [(pa, k * lda); (pb, ldb * n); (pc, m * ldc); (ps, 2)] ->
    exists host' s,
      vgemm (asks_transpose tb) (asks_transpose ta) n m k alpha b ldb a lda beta c ldc host = Ok host' /\
      hrun never 0 (hip_gemm junk pa pb pc ps ta tb m n k alpha a lda b ldb beta c ldc) (fresh_state host dev live reg) = HDone s /\
      same (h_host s) host' /\ same (h_dev s) dev /\ h_live s = live /\ h_reg s = reg.
  Proof.
    intros *. rewrite !asks_hip. intros ? ? ? Ha Hb. apply gemm_gpu; auto using set_nz.
  Qed.

  (** A matrix times a vector.  [transa] selects the transpose, or the matrix is
      square; the CPU backend on the transposed matrix. *)
  Theorem C114_gemv_partial : forall junk pa px py ps ta m n alpha a lda x incx beta y incy host dev live reg,
    0 < m -> 0 < n -> ta <> Ascii.zero -> asks_transpose ta = true \/ m = n -> m <= lda -> 0 < incx -> 0 < incy ->
    covers host a (n * lda) -> covers host x (m * incx) -> covers host y (n * incy) ->
    (forall i j l, 0 <= i < n -> 0 <= j < n -> 0 <= l < m -> y + i * incy <> a + l + j * lda) ->
    (forall i l, 0 <= i < n -> 0 <= l < m -> y + i * incy <> x + l * incx) ->
    placed dev live [(pa, n * lda); (px, m * incx); (py, n * incy); (ps, 2)] ->
    exists host' s,
      vgemv (negb (asks_transpose ta)) n m alpha a lda x incx beta y incy host = Ok host' /\
      hrun never 0 (hip_gemv junk pa px py ps ta m n alpha a lda x incx beta y incy) (fresh_state host dev live reg) = HDone s /\
      same (h_host s) host' /\ same (h_dev s) dev /\ h_live s = live /\ h_reg s = reg.
  Proof.
    intros *. rewrite !asks_hip. intros ? ? Ha. apply gemv_gpu; auto using set_nz.
  Qed.

  (** The outer product.  For real numbers ([conj] the identity) and at most as
      many columns as rows; the CPU backend on the transposed matrix. *)
  Theorem C114_ger_partial : forall junk px py pa ps m n alpha x incx y incy a lda host dev live reg,
    0 < m -> 0 < n -> n <= m -> m <= lda -> 0 < incx -> 0 < incy ->
    covers host x (m * incx) -> covers host y (n * incy) -> covers host a (m * lda) ->
    (forall i j i', 0 <= i < m -> 0 <= j < n -> 0 <= i' < m -> a + i + j * lda <> x + i' * incx) ->
    (forall i j j', 0 <= i < m -> 0 <= j < n -> 0 <= j' < n -> a + i + j * lda <> y + j' * incy) ->
    placed dev live [(px, m * incx); (py, n * incy); (pa, m * lda); (ps, 1)] ->
    exists host' s,
      vger n m alpha y incy x incx a lda host = Ok host' /\
      hrun never 0 (hip_ger junk (fun v => v) px py pa ps m n alpha x incx y incy a lda) (fresh_state host dev live reg) = HDone s /\
      same (h_host s) host' /\ same (h_dev s) dev /\ h_live s = live /\ h_reg s = reg.
  Proof.
    intros junk px py pa ps m n alpha x incx y incy a lda host dev live reg
      Hm Hn Hnm La Hx Hy CX CY CA DX DY HP.
    assert (Hsa : 0 < m * lda) by nia. assert (Hsx : 0 < m * incx) by nia. assert (Hsy : 0 < n * incy) by nia.
    assert (B4 := placed_blocks4 _ _ _ _ _ _ _ _ _ _ HP).
    assert (F : forall z, inn px (m * incx) z \/ inn py (n * incy) z \/ inn pa (m * lda) z \/ inn ps 1 z -> dev z = None).
    { destruct HP as (_ & F & _). intros z [Z|[Z|[Z|Z]]];
        [eapply (F (_, _)); [|exact Z]; cbn; auto|eapply (F (_, _)); [|exact Z]; cbn; auto
        |eapply (F (_, _)); [|exact Z]; cbn; auto|eapply (F (_, _)); [|exact Z]; cbn; auto 6]. }
    clear HP.
    assert (GV : forall h, vger n m alpha y incy x incx a lda h = fger m n alpha x incx y incy a lda h).
    { intros h. unfold vger. match goal with |- (if ?g then _ else _) = _ => replace g with false end; [reflexivity|].
      symmetry. rewrite !orb_false_iff. repeat split; try (apply Z.ltb_ge; lia); try (apply Z.eqb_neq; lia). }
    rewrite GV.
    unfold hip_ger, fresh_state. cbv zeta. destruct (oeqb alpha o0) eqn:Hal.
    { exists host, (mkH host dev live reg None None).
      split; [|split; [reflexivity|]; split; [intros z; reflexivity|]; split; [intros z; reflexivity|]; auto].
      unfold fger. rewrite Hal. match goal with |- (if ?g then _ else _) = _ => replace g with false end.
      2:{ symmetry. rewrite !orb_false_iff. repeat split; try (apply Z.ltb_ge; lia); try (apply Z.eqb_neq; lia). }
      reflexivity. }
    assert (BA : forall p i j, 0 <= i < m -> 0 <= j < n -> inn p (m * lda) (p + i + j * lda)) by (intros; unfold inn; nia).
    assert (BX : forall p i, 0 <= i < m -> inn p (m * incx) (p + i * incx)) by (intros; unfold inn; nia).
    assert (BY : forall p j, 0 <= j < n -> inn p (n * incy) (p + j * incy)) by (intros; unfold inn; nia).
    pose (u := fun i => match host (x + i * incx) with Some v => v | None => o0 end).
    pose (v := fun j => match host (y + j * incy) with Some v => v | None => o0 end).
    pose (w := fun i j => match host (a + i + j * lda) with Some v => v | None => o0 end).
    assert (Eu : forall i, 0 <= i < m -> host (x + i * incx) = Some (u i))
      by (intros i Hi; apply some_of, CX; apply BX; auto).
    assert (Ev : forall j, 0 <= j < n -> host (y + j * incy) = Some (v j))
      by (intros j Hj; apply some_of, CY; apply BY; auto).
    assert (Ew : forall i j, 0 <= i < m -> 0 <= j < n -> host (a + i + j * lda) = Some (w i j))
      by (intros i j Hi Hj; apply some_of, CA; apply BA; auto).
    destruct (hger_cells (fun v => v) m n alpha x incx y incy a lda host u v w Hm Hn La Hx Hy Hal Eu Ev Ew DX DY)
      as (host' & E & H1 & H2). rewrite hger_fger in E.
    exists host'.
    set (sa := m * lda) in *. set (sx := m * incx) in *. set (sy := n * incy) in *.
    destruct (setup4 junk host dev live reg px sx py sy pa sa ps 1 x y) as (d2 & -> & A2 & B2 & C2 & S2 & O2);
      [lia|lia|lia|lia|exact CX|exact CY|exact B4|].
    todev d3 X3 Y3; [exact CA|exact C2|].
    assert (I0 : ~ inn pa sa ps). { intros X. apply (proj2 (b34 _ _ _ _ _ _ _ _ B4) ps X). unfold inn. lia. }
    rewrite st_scalars1. 2:{ intros z Hz. assert (z = ps) by lia. subst z. rewrite Y3 by exact I0. apply S2. unfold inn. lia. }
    set (dL := upd d3 ps alpha).
    assert (X4 : forall z, ~ inn ps 1 z -> dL z = d3 z).
    { intros z Hz. unfold inn in Hz. unfold dL. rewrite !upd_other by lia. reflexivity. }
    assert (FX : forall z, inn px sx z -> dL z = host (x + (z - px))).
    { intros z Hz. rewrite X4 by (exact (proj2 (b14 _ _ _ _ _ _ _ _ B4) z Hz)).
      rewrite Y3 by (exact (proj2 (b13 _ _ _ _ _ _ _ _ B4) z Hz)). apply A2. exact Hz. }
    assert (FY : forall z, inn py sy z -> dL z = host (y + (z - py))).
    { intros z Hz. rewrite X4 by (exact (proj2 (b24 _ _ _ _ _ _ _ _ B4) z Hz)).
      rewrite Y3 by (exact (proj2 (b23 _ _ _ _ _ _ _ _ B4) z Hz)). apply B2. exact Hz. }
    assert (FA : forall z, inn pa sa z -> dL z = host (a + (z - pa))).
    { intros z Hz. rewrite X4 by (exact (proj2 (b34 _ _ _ _ _ _ _ _ B4) z Hz)). apply X3. exact Hz. }
    assert (FS : dL ps = Some alpha) by (unfold dL; apply upd_same).
    assert (FO : forall z, ~ inn px sx z -> ~ inn py sy z -> ~ inn pa sa z -> ~ inn ps 1 z -> dL z = dev z).
    { intros z N1 N2 N3 N4. rewrite X4, Y3, O2 by assumption. reflexivity. }
    clearbody dL. clear A2 B2 C2 S2 O2 X3 Y3 X4 d2 d3.
    destruct (hger_cells (fun v => v) m n alpha px incx py incy pa lda dL u v w Hm Hn La Hx Hy Hal) as (d5 & E5 & G1 & G2).
    { intros i Hi. rewrite FX by (apply BX; auto). rewrite <- Eu by auto. f_equal. lia. }
    { intros j Hj. rewrite FY by (apply BY; auto). rewrite <- Ev by auto. f_equal. lia. }
    { intros i j Hi Hj. rewrite FA by (apply BA; auto). rewrite <- Ew by auto. f_equal. lia. }
    { intros i j i' Hi Hj Hi' X. apply (proj2 (b13 _ _ _ _ _ _ _ _ B4) (px + i' * incx) (BX px i' Hi')).
      rewrite <- X. exact (BA pa i j Hi Hj). }
    { intros i j j' Hi Hj Hj' X. apply (proj2 (b23 _ _ _ _ _ _ _ _ B4) (py + j' * incy) (BY py j' Hj')).
      rewrite <- X. exact (BA pa i j Hi Hj). }
    erewrite st_launch. 2:{ unfold rd. rewrite FS. cbn [bind]. exact E5. }
    rewrite st_sync.
    assert (CE : forall o, 0 <= o < sa -> d5 (pa + o) = host' (a + o) /\ exists z, d5 (pa + o) = Some z).
    { clear F FX FY FO. intros o Ho.
      destruct (grid_dec lda m 0 o) as (i & j & Hi & Hj & Eo); [lia|fold sa; lia|]. rewrite Z.sub_0_r in Eo.
      destruct (Z_lt_ge_dec i m) as [Li|Li]; [destruct (Z_lt_ge_dec j n) as [Lj|Lj]|].
      - rewrite Eo, !Z.add_assoc. rewrite G1, H1 by lia. eauto.
      - assert (NC : forall p i' j', 0 <= i' < m -> 0 <= j' < n -> p + o <> p + i' + j' * lda).
        { intros p i' j' Hi' Hj' Eq. destruct (grid_inj lda i j i' j'); lia. }
        rewrite G2, H2 by (apply NC). rewrite FA by (unfold inn; lia). replace (a + (pa + o - pa)) with (a + o) by lia.
        split; [reflexivity|]. apply CA. fold sa. lia.
      - assert (NC : forall p i' j', 0 <= i' < m -> 0 <= j' < n -> p + o <> p + i' + j' * lda).
        { intros p i' j' Hi' Hj' Eq. destruct (grid_inj lda i j i' j'); lia. }
        rewrite G2, H2 by (apply NC). rewrite FA by (unfold inn; lia). replace (a + (pa + o - pa)) with (a + o) by lia.
        split; [reflexivity|]. apply CA. fold sa. lia. }
    match goal with |- context [hrun never ?q _ _] =>
      destruct (finish4 q host d5 dev live reg px sx py sy pa sa ps 1 a None None B4 F) as (h2 & d6 & -> & D6 & T1 & T2) end.
    { intros z N1 N2 N3 N4. rewrite G2. 2:{ intros i j Hi Hj ->. apply N3. exact (BA pa i j Hi Hj). } apply FO; assumption. }
    { exact CA. }
    { intros z Hz. replace z with (pa + (z - pa)) by lia. apply CE. lia. }
    eexists. split; [exact E|]. split; [reflexivity|]. cbn [h_host h_dev h_live h_reg].
    split; [|split; [exact D6|split; reflexivity]].
    intros z. destruct (inn_dec a sa z) as [I|I].
    - unfold inn in I. replace z with (a + (z - a)) by lia. rewrite T1 by lia. apply CE. lia.
    - rewrite T2 by exact I. symmetry. apply H2. intros i j Hi Hj ->. apply I. exact (BA a i j Hi Hj).
  Qed.

  (** ** Calls that fail *)

  Definition copies_back (c : @hcall O) : bool := match c with CToHost _ _ _ => true | _ => false end.
  Lemma step_host : forall c (s s' : @hstate O), copies_back c = false -> hstep c s = Ok s' -> h_host s' = h_host s.
  Proof.
    intros c s s' Hc E. destruct c; cbn [hstep copies_back] in *; try discriminate.
    - destruct (n <? 0); [discriminate|]. injection E as <-. reflexivity.
    - destruct (hcopy _ _ _ _ _); try discriminate. injection E as <-. reflexivity.
    - destruct (forM _ _ _); try discriminate. injection E as <-. reflexivity.
    - destruct (drop_block _ _) as [[? ?]|]; [|discriminate]. injection E as <-. reflexivity.
    - injection E as <-. reflexivity.
    - destruct (f _); try discriminate. injection E as <-. reflexivity.
    - destruct (f _); try discriminate. injection E as <-. reflexivity.
    - destruct (f _); try discriminate. injection E as <-. reflexivity.
    - injection E as <-. reflexivity.
    - destruct (drop_ptr _ _); [|discriminate]. injection E as <-. reflexivity.
  Qed.
  Lemma run_host : forall l k (s s1 : @hstate O), existsb copies_back l = false ->
    hrun never k l s = HDone s1 -> h_host s1 = h_host s.
  Proof.
    induction l as [|c l IH]; intros k s s1 Hl E; cbn [hrun never existsb] in *.
    - injection E as <-. reflexivity.
    - apply orb_false_iff in Hl as (Hc & Hl). destruct (hstep c s) as [s'| |] eqn:Es; try discriminate.
      rewrite (IH _ _ _ Hl E). exact (step_host c s s' Hc Es).
  Qed.
  Fixpoint once (l : list (@hcall O)) : bool :=
    match l with [] => true | c :: r => if copies_back c then negb (existsb copies_back r) else once r end.
  Lemma run_fails : forall l fail k k' (s s1 : @hstate O), once l = true -> hrun never k l s = HDone s1 ->
    hrun fail k' l s = HDone s1 \/
    exists s', hrun fail k' l s = HThrow s' /\ (h_host s' = h_host s \/ h_host s' = h_host s1).
  Proof.
    induction l as [|c l IH]; intros fail k k' s s1 Ho E; cbn [hrun never once] in *.
    - auto.
    - destruct (fail k'). { right. exists s. auto. }
      destruct (hstep c s) as [s'| |] eqn:Es; try discriminate.
      destruct (copies_back c) eqn:Hc.
      + apply negb_true_iff in Ho. assert (Hh := run_host l _ _ _ Ho E).
        assert (Ho' : once l = true).
        { clear - Ho. induction l as [|c l IH]; [reflexivity|]. cbn [existsb once] in *.
          apply orb_false_iff in Ho as (H1 & H2). rewrite H1. auto. }
        destruct (IH fail _ (S k') s' s1 Ho' E) as [X|(s2 & X & [Y|Y])]; [auto|right; exists s2; split; [exact X|right; congruence]
          |right; exists s2; auto].
      + assert (Hh := step_host c s s' Hc Es).
        destruct (IH fail _ (S k') s' s1 Ho E) as [X|(s2 & X & [Y|Y])]; [auto|right; exists s2; split; [exact X|left; congruence]
          |right; exists s2; auto].
  Qed.

  (** Whichever calls of the runtime fail: the routine gives its result, or
      throws with host memory as it was before or as it is after the routine. *)
  Theorem C114_fails : forall (junk : Z -> T) conj p1 p2 p3 p4 ta tb m n k alpha beta a lda b ldb c ldc calls fail (s s1 : @hstate O),
    In calls [ hip_scal junk p1 p2 n alpha a lda; hip_axpy junk p1 p2 p3 n alpha a lda b ldb;
               hip_dot junk conj p1 p2 n a lda b ldb;
               hip_gemv junk p1 p2 p3 p4 ta m n alpha a lda b ldb beta c ldc;
               hip_ger junk conj p1 p2 p3 p4 m n alpha a lda b ldb c ldc;
               hip_gemm junk p1 p2 p3 p4 ta tb m n k alpha a lda b ldb beta c ldc ] ->
    hrun never 0 calls s = HDone s1 ->
    hrun fail 0 calls s = HDone s1 \/
    exists s', hrun fail 0 calls s = HThrow s' /\ (h_host s' = h_host s \/ h_host s' = h_host s1).
  Proof.
    intros junk conj p1 p2 p3 p4 ta tb m n k alpha beta a lda b ldb c ldc calls fail s s1 HI E.
    apply run_fails with (k := 0%nat); [|exact E].
    destruct HI as [<-|[<-|[<-|[<-|[<-|[<-|[]]]]]]]; unfold hip_scal, hip_axpy, hip_dot, hip_gemv, hip_ger, hip_gemm;
      cbv zeta; try reflexivity.
    - destruct (oeqb alpha o0); reflexivity.
    - destruct (negb (oeqb beta o0) || negb (ldc =? 1)); reflexivity.
    - destruct (oeqb alpha o0); reflexivity.
    - destruct (negb (oeqb beta o0) || negb (ldc =? k)); reflexivity.
  Qed.
End Thms.

(** ** Concrete cases *)

Local Notation hz := (fun z : Z => Some z : option Z).
Local Notation dz := (fun _ : Z => @None Z).
Lemma placed_z : forall bs, ForallOrdPairs (fun b c => fst b + snd b < fst c /\ 0 < snd b) bs -> placed dz [] bs.
Proof.
  intros bs H. split; [|split; [reflexivity|cbn; auto]].
  induction H as [|b l Hb _ IH]; constructor; auto. apply Forall_forall. intros c Hc.
  rewrite Forall_forall in Hb. specialize (Hb c Hc). unfold apart, in_block. split; [lia|]. intros z. lia.
Qed.
Ltac pz := apply placed_z; repeat constructor; cbn; lia.
Ltac cz := intros ? ?; eauto.

Example C114_scal_case : exists host' s,
  fscal (O := ZOps) 3 5 100 2 hz = Ok host' /\
  hrun never 0 (hip_scal (O := ZOps) (fun _ => 77) 10 20 3 5 100 2) (fresh_state (O := ZOps) hz dz [] []) = HDone s /\
  same (h_host s) host' /\ same (h_dev s) dz /\ h_live s = [] /\ h_reg s = [].
Proof. apply (C114_scal_partial (O := ZOps)); [lia|lia|cz|pz]. Qed.
Example C114_axpy_case : exists host' s,
  faxpy (O := ZOps) 3 5 100 2 200 1 hz = Ok host' /\
  hrun never 0 (hip_axpy (O := ZOps) (fun _ => 77) 10 20 30 3 5 100 2 200 1) (fresh_state (O := ZOps) hz dz [] []) = HDone s /\
  same (h_host s) host' /\ same (h_dev s) dz /\ h_live s = [] /\ h_reg s = [].
Proof. apply (C114_axpy_partial (O := ZOps)); [lia|lia|lia|cz|cz|lia|pz]. Qed.
Example C114_dot_case : exists v s,
  fdot (O := ZOps) 3 100 2 200 1 hz = Ok v /\
  hrun never 0 (hip_dot (O := ZOps) (fun _ => 77) (fun v => v) 10 20 3 100 2 200 1) (fresh_state (O := ZOps) hz dz [] []) = HDone s /\
  h_val s = Some v /\ same (h_host s) hz /\ same (h_dev s) dz /\ h_live s = [] /\ h_reg s = [].
Proof. apply (C114_dot_partial (O := ZOps)); [lia|lia|lia|cz|cz|pz]. Qed.
Example C114_gemv_case : exists host' s,
  vgemv (O := ZOps) false 2 3 5 100 4 200 2 0 300 1 hz = Ok host' /\
  hrun never 0 (hip_gemv (O := ZOps) (fun _ => 77) 10 30 50 60 "T" 3 2 5 100 4 200 2 0 300 1) (fresh_state (O := ZOps) hz dz [] []) = HDone s /\
  same (h_host s) host' /\ same (h_dev s) dz /\ h_live s = [] /\ h_reg s = [].
Proof.
  apply (C114_gemv_partial (O := ZOps) (fun _ => 77) 10 30 50 60 "T" 3 2 5 100 4 200 2 0 300 1 hz dz [] []);
    [lia|lia|discriminate|left; reflexivity|lia|lia|lia|cz|cz|cz|lia|lia|pz].
Qed.
Example C114_ger_case : exists host' s,
  vger (O := ZOps) 2 3 5 300 1 200 2 100 4 hz = Ok host' /\
  hrun never 0 (hip_ger (O := ZOps) (fun _ => 77) (fun v => v) 10 30 50 80 3 2 5 200 2 300 1 100 4) (fresh_state (O := ZOps) hz dz [] []) = HDone s /\
  same (h_host s) host' /\ same (h_dev s) dz /\ h_live s = [] /\ h_reg s = [].
Proof.
  apply (C114_ger_partial (O := ZOps)); [lia|lia|lia|lia|lia|lia|cz|cz|cz|lia|lia|pz].
Qed.
Example C114_gemm_case : exists host' s,
  vgemm (O := ZOps) false true 2 3 4 5 200 4 100 5 7 300 6 hz = Ok host' /\
  hrun never 0 (hip_gemm (O := ZOps) (fun _ => 77) 10 40 60 90 "T" "N" 3 2 4 5 100 5 200 4 7 300 6) (fresh_state (O := ZOps) hz dz [] []) = HDone s /\
  same (h_host s) host' /\ same (h_dev s) dz /\ h_live s = [] /\ h_reg s = [].
Proof.
  apply (C114_gemm_partial (O := ZOps) (fun _ => 77) 10 40 60 90 "T" "N" 3 2 4 5 100 5 200 4 7 300 6 hz dz [] []);
    [lia|lia|lia|discriminate|discriminate|cbn; lia|cbn; lia|lia|lia|discriminate|lia|left; reflexivity|cz|cz|cz| | |pz];
    intros; unfold fop; cbn; lia.
Qed.
Example C114_fails_case : exists s',
  hrun (fun k => Nat.eqb k 5) 0 (hip_scal (O := ZOps) (fun _ => 77) 10 20 3 5 100 2) (fresh_state (O := ZOps) hz dz [] []) = HThrow s' /\
  h_host s' = hz.
Proof. eexists. split; [vm_compute; reflexivity|reflexivity]. Qed.

(** ** What does not hold *)

Definition hcells {O : Ops} (r : @hout O) (zs : list Z) : option (list (option (car O))) :=
  match r with HDone s => Some (map (h_host s) zs) | _ => None end.
Definition rcells {O : Ops} (r : res (heap (car O))) (zs : list Z) : option (list (option (car O))) :=
  match r with Ok h => Some (map h zs) | _ => None end.
(** Memory with the list [l] from [a] on. *)
Definition listm {T} (a : Z) (l : list T) : heap T := fun z => if a <=? z then nth_error l (Z.to_nat (z - a)) else None.

(** The same call as to the CPU backend gives B A instead of A B: with
    A = (0 1 2 3) and B = (4 5 6 7) by rows. *)
Theorem C114_order_refuted :
  let host := listm 0 [0; 1; 2; 3; 4; 5; 6; 7; 0; 0; 0; 0] in
  rcells (O := ZOps) (vgemm (O := ZOps) false false 2 2 2 1 0 2 4 2 0 8 2 host) [8; 9; 10; 11] = Some [Some 6; Some 7; Some 26; Some 31] /\
  hcells (O := ZOps) (hrun never 0 (hip_gemm (O := ZOps) (fun _ => 77) 100 200 300 400 "N" "N" 2 2 2 1 0 2 4 2 0 8 2) (fresh_state (O := ZOps) host dz [] []))
    [8; 9; 10; 11] = Some [Some 10; Some 19; Some 14; Some 27].
Proof. split; vm_compute; reflexivity. Qed.

(** A product with more columns than rows, or with a shape that the sizes of
    the blocks do not fit, is undefined; so is the product of a matrix that is
    not square and a vector. *)
Theorem C114_shape_refuted :
  (exists host', vgemm (O := ZOps) false false 1 2 1 1 0 1 4 2 0 8 2 hz = Ok host') /\
  hrun never 0 (hip_gemm (O := ZOps) (fun _ => 77) 100 200 300 400 "N" "N" 1 2 1 1 0 1 4 2 0 8 2) (fresh_state (O := ZOps) hz dz [] []) = HUndef /\
  (exists host', vgemv (O := ZOps) false 2 1 1 0 2 4 1 0 8 1 hz = Ok host') /\
  hrun never 0 (hip_gemv (O := ZOps) (fun _ => 77) 100 200 300 400 "N" 2 1 1 0 2 4 1 0 8 1) (fresh_state (O := ZOps) hz dz [] []) = HUndef /\
  (exists host', vger (O := ZOps) 1 2 1 0 1 4 1 8 2 hz = Ok host') /\
  hrun never 0 (hip_ger (O := ZOps) (fun _ => 77) (fun v => v) 100 200 300 400 1 2 1 0 1 4 1 8 2) (fresh_state (O := ZOps) hz dz [] []) = HUndef.
Proof.
  split; [eexists; vm_compute; reflexivity|]. split; [vm_compute; reflexivity|].
  split; [eexists; vm_compute; reflexivity|]. split; [vm_compute; reflexivity|].
  split; [eexists; vm_compute; reflexivity|]. vm_compute; reflexivity.
Qed.

(** With beta = 0, the cells between the columns of C can be overwritten by
    whatever the device block held. *)
Theorem C114_gap_refuted :
  rcells (O := ZOps) (vgemm (O := ZOps) false false 1 1 2 1 4 2 0 1 0 8 2 hz) [9] = Some [Some 9] /\
  hcells (O := ZOps) (hrun never 0 (hip_gemm (O := ZOps) (fun _ => 77) 100 200 300 400 "N" "N" 1 1 2 1 0 1 4 2 0 8 2) (fresh_state (O := ZOps) hz dz [] [])) [9]
    = Some [Some 77].
Proof. split; vm_compute; reflexivity. Qed.

(** A vector with increment 2 is read past its last element. *)
Theorem C114_increment_refuted :
  let host := listm 0 [1; 2; 3] in
  (exists host', fscal (O := ZOps) 2 5 0 2 host = Ok host') /\
  hrun never 0 (hip_scal (O := ZOps) (fun _ => 77) 100 200 2 5 0 2) (fresh_state (O := ZOps) host dz [] []) = HUndef.
Proof. split; [eexists; vm_compute; reflexivity|vm_compute; reflexivity]. Qed.

(** Complex numbers: the scalar product and the outer product conjugate one
    operand, unlike the CPU backend. *)
Theorem C114_complex_refuted :
  let C := CxOps ZOps in
  let host : heap (car C) := listm 0 [(0, 1); (0, 1); (0, 0)] in
  fdot (O := C) 1 0 1 1 1 host = Ok (-1, 0) /\
  match hrun never 0 (hip_dot (O := C) (fun _ => (7, 7)) (cconj (O := ZOps)) 100 200 1 0 1 1 1) (fresh_state (O := C) host (fun _ => None) [] []) with
  | HDone s => h_val s = Some (1, 0) | _ => False end /\
  rcells (O := C) (vger (O := C) 1 1 (1, 0) 0 1 1 1 2 1 host) [2] = Some [Some (-1, 0)] /\
  hcells (O := C) (hrun never 0 (hip_ger (O := C) (fun _ => (7, 7)) (cconj (O := ZOps)) 100 200 300 400 1 1 (1, 0) 0 1 1 1 2 1)
                     (fresh_state (O := C) host (fun _ => None) [] [])) [2] = Some [Some (1, 0)].
Proof. cbv zeta. split; [vm_compute; reflexivity|]. split; [vm_compute; reflexivity|]. split; vm_compute; reflexivity. Qed.

(** A routine that throws keeps the device memory it has allocated. *)
Theorem C114_leak_refuted :
  match hrun (fun k => Nat.eqb k 2) 0 (hip_scal (O := ZOps) (fun _ => 77) 100 200 2 5 0 2) (fresh_state (O := ZOps) hz dz [] []) with
  | HThrow s => h_live s = [(200, 1); (100, 4)] | _ => False end.
Proof. vm_compute. reflexivity. Qed.

Print Assumptions C114_scal_partial.
Print Assumptions C114_axpy_partial.
Print Assumptions C114_dot_partial.
Print Assumptions C114_dotc.
Print Assumptions C114_gemm_partial.
Print Assumptions C114_gemv_partial.
Print Assumptions C114_ger_partial.
Print Assumptions C114_fails.
Print Assumptions C114_order_refuted.
Print Assumptions C114_shape_refuted.
Print Assumptions C114_gap_refuted.
Print Assumptions C114_increment_refuted.
Print Assumptions C114_complex_refuted.
Print Assumptions C114_leak_refuted.
