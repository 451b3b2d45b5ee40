(** * T_HipSolver: the solvers of the GPU backend against the CPU backend (C115). *)
From Coq Require Import Ascii List ZArith Lia Bool.
From Verif Require Import Base Heap Conc M_Addr M_Einsum M_Blas M_Lapack L_Lapack M_GpuLin Num.
From Verif Require Import M_HipBlas S_HipBlas L_HipBlas L2_HipBlas S_HipSolver L_HipSolver.
Import ListNotations.
Open Scope Z_scope.

Section Thms.
  Context {O : Ops}.
  Notation T := (car O).
  Implicit Types (host dev : heap T) (junk : Z -> T).

  Ltac todev d D U :=
    match goal with |- context [hrun never ?k (CToDev ?ds ?sr ?n :: ?l) (mkH ?h ?d0 ?lv ?r ?v ?i)] =>
      let E := fresh "E" in
      destruct (st_todev k ds sr n l h d0 lv r v i) as (d & E & D & U); [| |rewrite E; clear E] end.
  Ltac tohost d D U :=
    match goal with |- context [hrun never ?k (CToHost ?ds ?sr ?n :: ?l) (mkH ?h ?d0 ?lv ?r ?v ?i)] =>
      let E := fresh "E" in
      destruct (st_tohost k ds sr n l h d0 lv r v i) as (d & E & D & U); [| |rewrite E; clear E] end.
  Ltac drop := first [apply drop_hd | apply drop_tl; [congruence | drop]].

  Lemma st_solve' : forall k f l h d x d' lv r v i, f d = Ok (x, d') ->
    hrun never k (CSolve f :: l) (mkH h d lv r v i) = hrun never (S k) l (mkH (O := O) h d' lv r v (Some x)).
  Proof. exact (@st_solve O). Qed.

  (** Linear equations: the solution, the factors and [info] of the CPU
      backend, and the runtime as it was before. *)
  Theorem C115_gesv_partial : forall junk (nvidia : bool) (L : @lapack O) pa pb pi px info n r a lda b ldb host dev live reg v i,
    numeric L -> 0 < n -> 0 <= r <= n -> n <= lda -> n <= ldb ->
    covers host a (n * lda) -> covers host b (n * ldb) ->
    (forall z, in_block (a, n * lda) z -> ~ in_block (b, n * ldb) z) ->
    placed dev live [(pa, n * lda); (pb, n * ldb); (pi, n); (px, n * ldb)] ->
    exists out host' s,
      vgesv L n r a lda b ldb host = Ok (out, host') /\
      hrun never 0 (hip_gesv junk nvidia L pa pb pi px info n r a lda b ldb) (mkH host dev live reg v i) = HDone s /\
      h_info s = Some out /\ same (h_host s) host' /\ same (h_dev s) dev /\ h_live s = live /\ h_reg s = reg.
  Proof.
    intros junk nvidia L pa pb pi px info n r a lda b ldb host dev live reg v i HL Hn Hr La Lb CA CB DH HP.
    assert (B4 := placed_blocks4 _ _ _ _ _ _ _ _ _ _ HP). destruct B4 as [B12 B13 B14 B23 B24 B34].
    set (sa := n * lda) in *. set (sb := n * ldb) in *.
    assert (Hsa : 0 < sa) by (unfold sa; nia). assert (Hsb : 0 < sb) by (unfold sb; nia).
    assert (F : forall z, inn pa sa z \/ inn pb sb z \/ inn pi n z \/ inn px sb z -> dev z = None).
    { destruct HP as (_ & F & _). intros z [Z|[Z|[Z|Z]]];
        [eapply (F (_, _)); [|exact Z]; cbn; auto|eapply (F (_, _)); [|exact Z]; cbn; auto
        |eapply (F (_, _)); [|exact Z]; cbn; auto|eapply (F (_, _)); [|exact Z]; cbn; auto 6]. }
    clear HP. unfold hip_gesv. cbv zeta. fold sa. fold sb. cbn [app].
    rewrite st_malloc by lia. rewrite st_malloc by lia. rewrite st_malloc by lia. rewrite st_reg.
    set (d0 := fun z => if within pi n z then _ else _).
    assert (K : forall z, inn pa sa z \/ inn pb sb z \/ inn pi n z -> exists x, d0 z = Some x).
    { intros z [Z|[Z|Z]]; unfold d0.
      - rewrite (wt pa sa z Z). destruct (within pi n z), (within pb sb z); eauto.
      - rewrite (wt pb sb z Z). destruct (within pi n z); eauto.
      - rewrite (wt pi n z Z). eauto. }
    assert (O0 : forall z, ~ inn pa sa z -> ~ inn pb sb z -> ~ inn pi n z -> d0 z = dev z).
    { intros z N1 N2 N3. unfold d0. rewrite !wf by assumption. reflexivity. }
    clearbody d0.
    todev d1 D1 O1; [exact CA|intros z Hz; apply K; auto|].
    todev d2 D2 O2; [exact CB|intros z Hz; rewrite O1 by (intros X; exact (proj2 B12 z X Hz)); apply K; auto|].
    assert (IA : img d2 pa host a sa).
    { apply img_copy; [exact CA|]. intros z Hz. rewrite O2 by (exact (proj2 B12 z Hz)). apply D1. exact Hz. }
    assert (IB : img d2 pb host b sb) by (apply img_copy; [exact CB|exact D2]).
    assert (OD : forall z, ~ inn pa sa z -> ~ inn pb sb z -> ~ inn pi n z -> d2 z = dev z).
    { intros z N1 N2 N3. rewrite O2, O1 by assumption. apply O0; assumption. }
    clear D1 D2 O1 O2 K O0 d0 d1.
    assert (Rs : r * ldb <= sb) by (unfold sb; nia).
    destruct nvidia.
    - cbn [app]. rewrite st_malloc by lia.
      set (d3 := fun z => if within px sb z then _ else _).
      todev d4 D4 O4; [exact CB|intros z Hz; unfold d3; rewrite wt by exact Hz; eauto|].
      assert (Q4 : forall z, ~ inn px sb z -> d4 z = d2 z).
      { intros z Hz. rewrite O4 by exact Hz. unfold d3. rewrite wf by exact Hz. reflexivity. }
      assert (IA4 : img d4 pa host a sa).
      { eapply img_keep; [exact IA| |auto]. intros z Hz. apply Q4. exact (proj2 B14 z Hz). }
      assert (IB4 : img d4 pb host b sb).
      { eapply img_keep; [exact IB| |auto]. intros z Hz. apply Q4. exact (proj2 B24 z Hz). }
      assert (IX4 : img d4 px host b sb) by (apply img_copy; [exact CB|exact D4]).
      destruct (gesv_img L n r pa lda pb ldb px a b d4 host sa sb HL) as (out & d5 & host' & E5 & EV & I5 & J5 & N5 & M5);
        [lia|lia|lia|lia|unfold sa; lia|exact Rs|exact IA4|exact IB4|exact IX4|exact (proj2 B14)|exact DH|].
      exists out, host'.
      erewrite st_solve' by exact E5. rewrite st_sync.
      tohost h6 T6 U6; [exact CB|exact (img_covers_d _ _ _ _ _ J5)|].
      erewrite st_free by drop.
      tohost h7 T7 U7.
      { intros z Hz. rewrite U6 by (exact (DH z Hz)). apply CA. exact Hz. }
      { intros z Hz. rewrite wf by (exact (proj2 B14 z Hz)). exact (img_covers_d _ _ _ _ _ I5 z Hz). }
      assert (N12 := proj1 B12). assert (N13 := proj1 B13). assert (N23 := proj1 B23).
      erewrite st_free by drop. erewrite st_free by drop. erewrite st_free by drop.
      erewrite st_unreg by apply dptr_hd. cbn [hrun].
      eexists. split; [exact EV|]. split; [reflexivity|]. cbn [h_host h_dev h_live h_reg h_info].
      split; [reflexivity|]. split; [|split; [|split; reflexivity]].
      + intros z. destruct (inn_dec a sa z) as [I|I].
        { rewrite T7 by exact I. unfold inn in I.
          rewrite wf. 2:{ apply (proj2 B14). unfold inn. lia. }
          destruct (I5 (z - a)) as (E & _); [lia|]. rewrite E. f_equal. lia. }
        rewrite U7 by exact I. destruct (inn_dec b sb z) as [I'|I'].
        { rewrite T6 by exact I'. unfold inn in I'. destruct (J5 (z - b)) as (E & _); [lia|]. rewrite E. f_equal. lia. }
        rewrite U6 by exact I'. symmetry. apply M5; assumption.
      + intros z. destruct (inn_dec pi n z) as [I|I3]. { rewrite F by tauto. rewrite (wt pi) by exact I. auto. }
        rewrite (wf pi) by exact I3. destruct (inn_dec pb sb z) as [I|I2]. { rewrite F by tauto. rewrite (wt pb) by exact I. auto. }
        rewrite (wf pb) by exact I2. destruct (inn_dec pa sa z) as [I|I1]. { rewrite F by tauto. rewrite (wt pa) by exact I. auto. }
        rewrite (wf pa) by exact I1. destruct (inn_dec px sb z) as [I|I4]. { rewrite F by tauto. rewrite (wt px) by exact I. auto. }
        rewrite (wf px) by exact I4. rewrite N5, Q4 by assumption. apply OD; assumption.
    - cbn [app].
      destruct (gesv_img L n r pa lda pb ldb pb a b d2 host sa sb HL) as (out & d5 & host' & E5 & EV & I5 & J5 & N5 & M5);
        [lia|lia|lia|lia|unfold sa; lia|exact Rs|exact IA|exact IB|exact IB|exact (proj2 B12)|exact DH|].
      exists out, host'.
      erewrite st_solve' by exact E5. rewrite st_sync.
      tohost h6 T6 U6; [exact CB|exact (img_covers_d _ _ _ _ _ J5)|].
      tohost h7 T7 U7.
      { intros z Hz. rewrite U6 by (exact (DH z Hz)). apply CA. exact Hz. }
      { exact (img_covers_d _ _ _ _ _ I5). }
      assert (N12 := proj1 B12). assert (N13 := proj1 B13). assert (N23 := proj1 B23).
      erewrite st_free by drop. erewrite st_free by drop. erewrite st_free by drop.
      erewrite st_unreg by apply dptr_hd. cbn [hrun].
      eexists. split; [exact EV|]. split; [reflexivity|]. cbn [h_host h_dev h_live h_reg h_info].
      split; [reflexivity|]. split; [|split; [|split; reflexivity]].
      + intros z. destruct (inn_dec a sa z) as [I|I].
        { rewrite T7 by exact I. unfold inn in I. destruct (I5 (z - a)) as (E & _); [lia|]. rewrite E. f_equal. lia. }
        rewrite U7 by exact I. destruct (inn_dec b sb z) as [I'|I'].
        { rewrite T6 by exact I'. unfold inn in I'. destruct (J5 (z - b)) as (E & _); [lia|]. rewrite E. f_equal. lia. }
        rewrite U6 by exact I'. symmetry. apply M5; assumption.
      + intros z. destruct (inn_dec pi n z) as [I|I3]. { rewrite F by tauto. rewrite (wt pi) by exact I. auto. }
        rewrite (wf pi) by exact I3. destruct (inn_dec pb sb z) as [I|I2]. { rewrite F by tauto. rewrite (wt pb) by exact I. auto. }
        rewrite (wf pb) by exact I2. destruct (inn_dec pa sa z) as [I|I1]. { rewrite F by tauto. rewrite (wt pa) by exact I. auto. }
        rewrite (wf pa) by exact I1. rewrite N5 by assumption. apply OD; assumption.
  Qed.

  (** Eigenvalues and eigenvectors: the results of the CPU backend; the two
      device blocks are never released. *)
  Theorem C115_syev_partial : forall junk (L : @lapack O) pa pw info work known n a lda w host dev live reg v i,
    numeric L -> 0 < n -> n <= lda -> covers host a (n * lda) -> covers host w n ->
    (forall z, in_block (a, n * lda) z -> ~ in_block (w, n) z) ->
    placed dev live [(pa, n * lda); (pw, n)] ->
    exists out host' s,
      vsyev L n a lda w host = Ok (out, host') /\
      hrun never 0 (hip_syev junk L pa pw info work known n a lda w) (mkH host dev live reg v i) = HDone s /\
      h_info s = Some out /\ same (h_host s) host' /\ h_reg s = reg /\
      h_live s = (pw, n) :: (pa, n * lda) :: live /\
      (forall z, ~ in_block (pa, n * lda) z -> ~ in_block (pw, n) z -> h_dev s z = dev z).
  Proof.
    intros junk L pa pw info work known n a lda w host dev live reg v i HL Hn La CA CW DH HP.
    assert (B12 : far pa (n * lda) pw n).
    { destruct HP as (P & _ & _). inversion P as [|? ? P1 _]; subst. inversion P1; subst. now apply far_apart. }
    clear HP. set (sa := n * lda) in *. assert (Hsa : 0 < sa) by (unfold sa; nia).
    unfold hip_syev. cbv zeta. fold sa.
    set (rg := match work with Some p => if known then [] else [p] | None => [] end).
    assert (R1 : exists k1, forall l, hrun never 0 (map CRegister rg ++ l) (mkH host dev live reg v i)
                   = hrun never k1 l (mkH host dev live (rg ++ reg) v i)).
    { unfold rg. destruct work as [p|]; [destruct known|]; cbn [map app]; eexists; intros l; try reflexivity. }
    destruct R1 as (k1 & R1). rewrite R1. clear R1. cbn [app].
    rewrite st_malloc by lia. rewrite st_malloc by lia.
    set (d0 := fun z => if within pw n z then _ else _).
    assert (K : forall z, inn pa sa z \/ inn pw n z -> exists x, d0 z = Some x).
    { intros z [Z|Z]; unfold d0.
      - rewrite (wt pa sa z Z). destruct (within pw n z); eauto.
      - rewrite (wt pw n z Z). eauto. }
    assert (O0 : forall z, ~ inn pa sa z -> ~ inn pw n z -> d0 z = dev z).
    { intros z N1 N2. unfold d0. rewrite !wf by assumption. reflexivity. }
    clearbody d0.
    todev d1 D1 O1; [exact CA|intros z Hz; apply K; auto|].
    rewrite st_reg.
    assert (IA : img d1 pa host a sa) by (apply img_copy; [exact CA|exact D1]).
    destruct (syev_img L n pa lda pw a w d1 host sa HL) as (out & d5 & host' & E5 & EV & I5 & J5 & N5 & M5);
      [lia|lia|unfold sa; lia|exact IA| |exact CW|exact (proj2 B12)|exact DH|].
    { intros z Hz. rewrite O1 by (intros X; exact (proj2 B12 z X Hz)). apply K. auto. }
    exists out, host'.
    erewrite st_solve' by exact E5. rewrite st_sync.
    tohost h6 T6 U6; [exact CA|exact (img_covers_d _ _ _ _ _ I5)|].
    tohost h7 T7 U7.
    { intros z Hz. rewrite U6 by (intros X; exact (DH z X Hz)). apply CW. exact Hz. }
    { exact (img_covers_d _ _ _ _ _ J5). }
    match goal with |- context [hrun never ?k2 (_ ++ [CUnregister info]) ?st] =>
      assert (R2 : exists s, hrun never k2 (map CUnregister rg ++ [CUnregister info]) st = HDone s /\
                s = mkH h7 d5 ((pw, n) :: (pa, sa) :: live) reg v (Some out)) end.
    { eexists. split; [|reflexivity]. unfold rg. destruct work as [p|]; [destruct known|]; cbn [map app].
      - erewrite st_unreg by apply dptr_hd. reflexivity.
      - cbn [hrun hstep never h_reg drop_ptr]. destruct (Z.eqb_spec info p) as [->|N].
        + cbn [hrun hstep never h_reg drop_ptr]. rewrite Z.eqb_refl. reflexivity.
        + rewrite Z.eqb_refl. cbn [hrun hstep never h_reg drop_ptr]. rewrite Z.eqb_refl. reflexivity.
      - erewrite st_unreg by apply dptr_hd. reflexivity. }
    destruct R2 as (s & R2 & ->). rewrite R2.
    eexists. split; [exact EV|]. split; [reflexivity|]. cbn [h_host h_dev h_live h_reg h_info].
    split; [reflexivity|]. split; [|split; [reflexivity|split; [reflexivity|]]].
    - intros z. destruct (inn_dec w n z) as [I|I].
      { rewrite T7 by exact I. unfold inn in I. destruct (J5 (z - w)) as (E & _); [lia|]. rewrite E. f_equal. lia. }
      rewrite U7 by exact I. destruct (inn_dec a sa z) as [I'|I'].
      { rewrite T6 by exact I'. unfold inn in I'. destruct (I5 (z - a)) as (E & _); [lia|]. rewrite E. f_equal. lia. }
      rewrite U6 by exact I'. symmetry. apply M5; assumption.
    - intros z N1 N2. rewrite N5 by assumption. rewrite O1 by exact N1. apply O0; assumption.
  Qed.

  (** The LU decomposition computes what the CPU backend computes, and then
      throws: for no matrix does it return. *)
  Theorem C115_getrf_throws : forall junk (nvidia : bool) (L : @lapack O) pa pi pk info_var info lwork m n a lda host dev live reg v i,
    numeric L -> 0 < n <= m -> m <= lda -> 0 <= lwork -> covers host a (m * lda) ->
    info <> info_var -> ~ In info reg ->
    placed dev live [(pa, m * lda); (pi, n); (pk, lwork)] ->
    exists out piv host' s,
      vgetrf L m n a lda host = Ok (out, piv, host') /\
      hrun never 0 (hip_getrf junk nvidia L pa pi pk info_var info lwork m n a lda) (mkH host dev live reg v i) = HThrow s /\
      same (h_host s) host' /\ h_live s = live /\ h_reg s = info_var :: reg.
  Proof.
    intros junk nvidia L pa pi pk info_var info lwork m n a lda host dev live reg v i HL Hnm La Hw CA Ni Nr HP.
    assert (B12 : far pa (m * lda) pi n /\ far pa (m * lda) pk lwork /\ far pi n pk lwork).
    { destruct HP as (P & _ & _). inversion P as [|? ? P1 P2]; subst. inversion P1 as [|? ? A1 P1']; subst.
      inversion P1' as [|? ? A2 _]; subst. inversion P2 as [|? ? P3 _]; subst. inversion P3 as [|? ? A3 _]; subst.
      split; [now apply far_apart|]. split; now apply far_apart. }
    destruct B12 as (B12 & B13 & B23). clear HP.
    set (sa := m * lda) in *. assert (Hsa : 0 < sa) by (unfold sa; nia).
    assert (Rs : n * lda <= sa) by (unfold sa; nia).
    unfold hip_getrf. cbv zeta. fold sa. cbn [app].
    rewrite st_malloc by lia. rewrite st_malloc by lia. rewrite st_reg.
    todev d1 D1 O1; [exact CA|intros z Hz; rewrite (wt pa) by exact Hz; destruct (within pi n z); eauto|].
    assert (IA : img d1 pa host a sa) by (apply img_copy; [exact CA|exact D1]).
    assert (DP : drop_ptr info (info_var :: reg) = None).
    { cbn. destruct (Z.eqb_spec info_var info); [congruence|].
      assert (G : drop_ptr info reg = None); [|rewrite G; reflexivity].
      revert Nr. clear. induction reg as [|q r IH]; intros N; [reflexivity|]. cbn.
      destruct (Z.eqb_spec q info) as [->|]; [exfalso; apply N; now left|]. rewrite IH; [reflexivity|]. intros X. apply N. now right. }
    assert (N12 := proj1 B12). assert (N13 := proj1 B13). assert (N23 := proj1 B23).
    destruct nvidia; cbn [app].
    - destruct (getrf_img L m n pa lda a d1 host sa HL) as (out & piv & d5 & host' & E5 & EV & I5 & N5 & M5);
        [lia|lia|lia|exact Rs|exact IA|].
      exists out, piv, host'.
      erewrite st_solve'. 2:{ rewrite E5. reflexivity. } rewrite st_sync.
      tohost h7 T7 U7; [exact CA|exact (img_covers_d _ _ _ _ _ I5)|].
      erewrite st_free by drop. erewrite st_free by drop.
      cbn [hrun hstep never h_reg]. rewrite DP. eexists. split; [exact EV|]. split; [reflexivity|].
      cbn [h_host h_live h_reg]. split; [|split; reflexivity].
      intros z. destruct (inn_dec a sa z) as [I|I].
      { rewrite T7 by exact I. unfold inn in I. destruct (I5 (z - a)) as (E & _); [lia|]. rewrite E. f_equal. lia. }
      rewrite U7 by exact I. symmetry. apply M5. exact I.
    - rewrite st_malloc by lia.
      set (d3 := fun z => if within pk lwork z then _ else _).
      assert (IA3 : img d3 pa host a sa).
      { eapply img_keep; [exact IA| |auto]. intros z Hz. unfold d3. rewrite wf by (exact (proj2 B13 z Hz)). reflexivity. }
      destruct (getrf_img L m n pa lda a d3 host sa HL) as (out & piv & d5 & host' & E5 & EV & I5 & N5 & M5);
        [lia|lia|lia|exact Rs|exact IA3|].
      exists out, piv, host'.
      erewrite st_solve'. 2:{ rewrite E5. reflexivity. } rewrite st_sync.
      erewrite st_free by drop.
      tohost h7 T7 U7; [exact CA| |].
      { intros z Hz. rewrite wf by (exact (proj2 B13 z Hz)). exact (img_covers_d _ _ _ _ _ I5 z Hz). }
      erewrite st_free by drop. erewrite st_free by drop.
      cbn [hrun hstep never h_reg]. rewrite DP. eexists. split; [exact EV|]. split; [reflexivity|].
      cbn [h_host h_live h_reg]. split; [|split; reflexivity].
      intros z. destruct (inn_dec a sa z) as [I|I].
      { rewrite T7 by exact I. unfold inn in I. rewrite wf. 2:{ apply (proj2 B13). unfold inn. lia. }
        destruct (I5 (z - a)) as (E & _); [lia|]. rewrite E. f_equal. lia. }
      rewrite U7 by exact I. symmetry. apply M5. exact I.
  Qed.

  Lemma drop_sub : forall p q l l', drop_ptr p l = Some l' -> In q l' -> In q l.
  Proof.
    induction l as [|x l IH]; cbn; intros l' E Hq; [discriminate|]. destruct (x =? p).
    - injection E as ->. auto.
    - destruct (drop_ptr p l) as [l1|]; [|discriminate]. injection E as <-. destruct Hq as [->|Hq]; [auto|right; eapply IH; eauto].
  Qed.
  Lemma step_reg : forall c (s s' : @hstate O) q, hstep c s = Ok s' -> In q (h_reg s') ->
    In q (h_reg s) \/ c = CRegister q.
  Proof.
    intros c s s' q E Hq. destruct c; cbn [hstep] in E.
    - destruct (n <? 0); [discriminate|]. injection E as <-. auto.
    - destruct (hcopy _ _ _ _ _); try discriminate. injection E as <-. auto.
    - destruct (forM _ _ _); try discriminate. injection E as <-. auto.
    - destruct (hcopy _ _ _ _ _); try discriminate. injection E as <-. auto.
    - destruct (drop_block _ _) as [[? ?]|]; [|discriminate]. injection E as <-. auto.
    - injection E as <-. auto.
    - destruct (f _); try discriminate. injection E as <-. auto.
    - destruct (f _); try discriminate. injection E as <-. auto.
    - destruct (f _); try discriminate. injection E as <-. auto.
    - injection E as <-. destruct Hq as [->|Hq]; auto.
    - destruct (drop_ptr p _) eqn:Ed; [|discriminate]. injection E as <-. left. eapply drop_sub; eauto.
  Qed.
  Lemma drop_some : forall p l l', drop_ptr p l = Some l' -> In p l.
  Proof.
    induction l as [|x l IH]; cbn; intros l' E; [discriminate|]. destruct (Z.eqb_spec x p); [auto|].
    destruct (drop_ptr p l) as [l1|]; [|discriminate]. right. eapply IH; reflexivity.
  Qed.
  (** A list of calls that ends by giving up a pointer it has not registered. *)
  Lemma run_never : forall l fail k info (s : @hstate O), ~ In info (h_reg s) -> ~ In (CRegister info) l ->
    forall s', hrun fail k (l ++ [CUnregister info]) s <> HDone s'.
  Proof.
    induction l as [|c l IH]; intros fail k info s Hs Hl s' E; cbn [app hrun] in E; destruct (fail k); try discriminate.
    - destruct (hstep (CUnregister info) s) as [s1| |] eqn:E1; try discriminate. cbn [hstep] in E1.
      destruct (drop_ptr info (h_reg s)) eqn:Ed; [|discriminate]. apply Hs. eapply drop_some; eauto.
    - destruct (hstep c s) as [s1| |] eqn:E1; try discriminate. eapply (IH fail (S k) info s1); [| |exact E].
      + intros Hi. destruct (step_reg _ _ _ _ E1 Hi) as [X|X]; [auto|]. apply Hl. left. exact X.
      + intros X. apply Hl. now right.
  Qed.

  (** ... whatever its arguments are, and whichever calls fail. *)
  Theorem C115_getrf_never_returns : forall junk (nvidia : bool) (L : @lapack O) pa pi pk info_var info lwork m n a lda fail (s s' : @hstate O),
    info <> info_var -> ~ In info (h_reg s) ->
    hrun fail 0 (hip_getrf junk nvidia L pa pi pk info_var info lwork m n a lda) s <> HDone s'.
  Proof.
    intros junk nvidia L pa pi pk info_var info lwork m n a lda fail s s' Ni Nr.
    unfold hip_getrf. cbv zeta.
    match goal with |- hrun _ _ ?l _ <> _ => assert (G : l = removelast l ++ [CUnregister info]) end.
    { destruct nvidia; reflexivity. }
    rewrite G. apply run_never; [exact Nr|]. intros X.
    destruct nvidia; cbn [app removelast In] in X; repeat (destruct X as [X|X]; [try discriminate; try (injection X; congruence)|]); exact X.
  Qed.
End Thms.

(** ** Concrete cases *)

Local Notation hz := (fun z : Z => Some z : option Z).
Local Notation dz := (fun _ : Z => @None Z).
(** Some library: its results are not the decompositions, but depend on the
    numbers it is given. *)
Definition Lz : @lapack ZOps :=
  mkLapack (O := ZOps) (fun m n A => (3, (fun i j => A i j + 1), [])) (fun n A p => (0, A)) (fun n r A B => (5, (fun i j => A i j * 2), (fun i j => A 1 1 + B i j)))
    (fun n A => (7, (fun i j => A i j * 3), (fun i => A 0 i))) (fun m n A => (0, A, (fun i => 0), A, A))
    (fun m n A => (0, A, (fun i => 0), A, A, (fun i => 0))) (fun m n A => (0, A, (fun i => 0))) (fun m n k A t => (0, A))
    (fun n A => (0, A, (fun i => 0), (fun i => 0), A)) (fun m n A B C => (0, C, 1)) (fun n A => (0, A, (fun i => 0), A, A)).
Lemma Lz_numeric : numeric Lz.
Proof.
  split; [|split].
  - intros n A B H. cbn. split; [reflexivity|]. split; [intros i j; cbn; now rewrite H|]. intros k. cbn. now rewrite H.
  - intros n r A A' B B' H H'. cbn. split; [reflexivity|]. split; intros i j; cbn; rewrite ?H, ?H'; reflexivity.
  - intros m n A B H. cbn. split; [reflexivity|]. split; [intros i j; cbn; now rewrite H|reflexivity].
Qed.
Lemma placed_zs : forall bs, ForallOrdPairs (fun b c => fst b + snd b < fst c /\ 0 < snd b) bs -> placed dz [] bs.
Proof.
  intros bs H. split; [|split; [reflexivity|cbn; auto]].
  induction H as [|b l Hb _ IH]; constructor; auto. apply Forall_forall. intros c Hc.
  rewrite Forall_forall in Hb. specialize (Hb c Hc). unfold apart, in_block. split; [lia|]. intros z. lia.
Qed.
Ltac pz := apply placed_zs; repeat constructor; cbn; lia.
Ltac cz := intros ? ?; eauto.

Example C115_gesv_case : forall nvidia, exists out host' s,
  vgesv (O := ZOps) Lz 3 2 100 4 200 3 hz = Ok (out, host') /\
  hrun never 0 (hip_gesv (O := ZOps) (fun _ => 77) nvidia Lz 10 30 50 60 900 3 2 100 4 200 3) (mkH (O := ZOps) hz dz [] [8] None None) = HDone s /\
  h_info s = Some out /\ same (h_host s) host' /\ same (h_dev s) dz /\ h_live s = [] /\ h_reg s = [8].
Proof.
  intros nvidia. apply (C115_gesv_partial (O := ZOps)); [exact Lz_numeric|lia|lia|lia|lia|cz|cz|unfold in_block; cbn; lia|pz].
Qed.
Example C115_syev_case : exists out host' s,
  vsyev (O := ZOps) Lz 3 100 4 200 hz = Ok (out, host') /\
  hrun never 0 (hip_syev (O := ZOps) (fun _ => 77) Lz 10 30 900 (Some 901) false 3 100 4 200) (mkH (O := ZOps) hz dz [] [8] None None) = HDone s /\
  h_info s = Some out /\ same (h_host s) host' /\ h_reg s = [8] /\ h_live s = [(30, 3); (10, 12)] /\
  (forall z, ~ in_block (10, 12) z -> ~ in_block (30, 3) z -> h_dev s z = None).
Proof.
  apply (C115_syev_partial (O := ZOps) (fun _ => 77) Lz 10 30 900 (Some 901) false 3 100 4 200 hz dz [] [8] None None);
    [exact Lz_numeric|lia|lia|cz|cz|unfold in_block; cbn; lia|pz].
Qed.
Example C115_getrf_case : forall nvidia, exists out piv host' s,
  vgetrf (O := ZOps) Lz 3 2 100 4 hz = Ok (out, piv, host') /\
  hrun never 0 (hip_getrf (O := ZOps) (fun _ => 77) nvidia Lz 10 30 50 900 901 6 3 2 100 4) (mkH (O := ZOps) hz dz [] [8] None None) = HThrow s /\
  same (h_host s) host' /\ h_live s = [] /\ h_reg s = [900; 8].
Proof.
  intros nvidia. apply (C115_getrf_throws (O := ZOps)); [exact Lz_numeric|lia|lia|lia|cz|lia|cbn; lia|pz].
Qed.

(** ** What does not hold *)

(** More right-hand sides than unknowns do not fit the device block, and with
    fewer the host array is read past its end. *)
Theorem C115_rhs_refuted :
  (exists r, vgesv (O := ZOps) Lz 1 2 0 1 4 1 hz = Ok r) /\
  hrun never 0 (hip_gesv (O := ZOps) (fun _ => 77) false Lz 100 200 300 400 900 1 2 0 1 4 1) (mkH (O := ZOps) hz dz [] [] None None) = HUndef /\
  let host := fun z : Z => if (0 <=? z) && (z <? 6) then Some z else None in
  (exists r, vgesv (O := ZOps) Lz 2 1 0 2 4 2 host = Ok r) /\
  hrun never 0 (hip_gesv (O := ZOps) (fun _ => 77) false Lz 100 200 300 400 900 2 1 0 2 4 2) (mkH (O := ZOps) host dz [] [] None None) = HUndef.
Proof.
  split; [eexists; vm_compute; reflexivity|]. split; [vm_compute; reflexivity|]. cbv zeta.
  split; [eexists; vm_compute; reflexivity|]. vm_compute. reflexivity.
Qed.

(** The two device blocks of the eigenvalue solver are never released. *)
Theorem C115_syev_leak_refuted :
  match hrun never 0 (hip_syev (O := ZOps) (fun _ => 77) Lz 100 200 900 None false 2 0 2 4) (mkH (O := ZOps) hz dz [] [] None None) with
  | HDone s => h_live s = [(200, 2); (100, 4)] | _ => False end.
Proof. vm_compute. reflexivity. Qed.

(** If the second copy back of [gesv] fails, the solution is in place and the
    factors are not. *)
Theorem C115_half_refuted :
  match vgesv (O := ZOps) Lz 2 1 0 2 4 2 hz, hrun (fun k => Nat.eqb k 9) 0 (hip_gesv (O := ZOps) (fun _ => 77) false Lz 100 200 300 400 900 2 1 0 2 4 2)
          (mkH (O := ZOps) hz dz [] [] None None) with
  | Ok (_, host'), HThrow s => h_host s 5 = host' 5 /\ host' 5 <> Some 5 /\ h_host s 3 = Some 3 /\ host' 3 <> Some 3
  | _, _ => False end.
Proof. vm_compute. split; [reflexivity|]. split; [discriminate|]. split; [reflexivity|discriminate]. Qed.

Print Assumptions C115_gesv_partial.
Print Assumptions C115_syev_partial.
Print Assumptions C115_getrf_throws.
Print Assumptions C115_getrf_never_returns.
Print Assumptions C115_rhs_refuted.
Print Assumptions C115_syev_leak_refuted.
Print Assumptions C115_half_refuted.
