(** * L_Paths: each einsum algorithm computes the Einstein sum. *)
From Coq Require Import List ZArith Lia Bool Permutation Ring.
From Verif Require Import Base Heap Conc M_Addr L_Addr M_Elt L_Elt M_Einsum S_Einsum L_Einsum
  S_Blas M_Blas L_Blas T_Blas M_Dispatch S_Dispatch L_Dispatch.
Import ListNotations.
Open Scope Z_scope.

Lemma hadamard_false : forall L : list nat, negb (Nat.eqb (length L) (length (unique L))) = false -> NoDup L.
Proof. intros L H. apply hadamard_NoDup. now apply negb_false_iff in H. Qed.

Lemma same_ordering_eq : forall X Y P Q ps qs, is_same_ordering ps qs = true ->
  Forall2 (at_pos X) P ps -> Forall2 (at_pos Y) Q qs -> P = Q /\ P <> [].
Proof.
  intros X Y P Q ps qs H HP HQ. unfold is_same_ordering in H. destruct ps as [|p ps]; [discriminate|].
  destruct qs as [|q qs]; [discriminate|].
  destruct (list_eq_dec Nat.eq_dec (map fst (p :: ps)) (map fst (q :: qs))) as [E|]; [|discriminate].
  rewrite (at_pos_fst _ _ _ HP), (at_pos_fst _ _ _ HQ) in E. split; auto. inversion HP; subst. discriminate.
Qed.

Lemma disj_cells : forall d d', disj d d' <-> (forall z, cell d z -> cell d' z -> False).
Proof.
  intros d d'. split.
  - intros H z (i & Hi & E1) (j & Hj & E2). apply (H i j Hi Hj). congruence.
  - intros H i j Hi Hj E. apply (H (addr d i)); [exists i|exists j]; auto.
Qed.

Section Paths.
  Context {O : Ops}.
  Notation T := (car O).

  (** Views of an operand made of two groups. *)
  Lemma pair_sview : forall ext X d P Q (t : bool), d.(ddims) = map ext X -> X = (if t then P ++ Q else Q ++ P) ->
    pos_ext ext X ->
    sview d (if t then [vol ext P; vol ext Q] else [vol ext Q; vol ext P])
            (if t then [vol ext Q; 1] else [vol ext P; 1])
    = Ok (if t then mview ext d P Q else mview ext d Q P).
  Proof.
    intros ext X d P Q t Hd EX Hp.
    assert (0 <= vol ext P /\ 0 <= vol ext Q).
    { split; apply vol_nonneg; intros l Hl; apply Hp; rewrite EX; destruct t; apply in_or_app; auto. }
    destruct t; apply sview_ok; repeat constructor; tauto.
  Qed.

  Section Gemm.
    Variables (e : ein) (ext : nat -> Z) (A B C : desc) (a b c : list Z -> T) (cp ab : T) (h : heap T).
    Hypothesis Hlab : labels_ok e.
    Hypothesis NA : NoDup (eA e).
    Hypothesis NB : NoDup (eB e).
    Hypothesis NC : NoDup (eC e).
    Hypothesis Hbroad : forall l, In l (eC e) -> In l (eA e) \/ In l (eB e).
    Hypothesis Hbatch : forall l, In l (eA e) -> In l (eB e) -> ~ In l (eC e).
    Hypothesis Hext : forall l, In l (eC e ++ eA e ++ eB e) -> 0 <= ext l.
    Hypothesis HdA : ddims A = map ext (eA e).
    Hypothesis HdB : ddims B = map ext (eB e).
    Hypothesis HdC : ddims C = map ext (eC e).
    Hypothesis RA : rowmaj A.
    Hypothesis RB : rowmaj B.
    Hypothesis RC : rowmaj C.
    Hypothesis HA : holds h A a.
    Hypothesis HB : holds h B b.
    Hypothesis HC : holds h C c.
    Hypothesis DA : disj C A.
    Hypothesis DB : disj C B.

    Let L := link_unique e.
    Let TA := intersect (C_unique e) (eA e).
    Let TB := intersect (C_unique e) (eB e).

    Lemma in_TA : forall l, In l TA <-> In l (eC e) /\ In l (eA e).
    Proof. intros l. unfold TA, C_unique. rewrite in_intersect, in_unique. tauto. Qed.
    Lemma in_TB : forall l, In l TB <-> In l (eC e) /\ In l (eB e).
    Proof. intros l. unfold TB, C_unique. rewrite in_intersect, in_unique. tauto. Qed.
    Lemma in_L : forall l, In l L <-> In l (eA e) /\ In l (eB e) /\ ~ In l (eC e).
    Proof. intros l. unfold L, link_unique. rewrite in_unique. apply in_links. Qed.

    Lemma intersect_id : forall X Y : list nat, (forall l, In l X -> In l Y) -> intersect X Y = X.
    Proof.
      induction X as [|x X IH]; intros Y H; simpl; auto.
      assert (E : has_type x Y = true) by (apply has_type_In; apply H; simpl; auto). rewrite E. f_equal.
      apply IH. intros l Hl. apply H. simpl; auto.
    Qed.

    Lemma pos_LA : Forall2 (at_pos (eA e)) L (link_position_in_A e).
    Proof.
      assert (H := ftwp_spec (link_unique e) (eA e) NA). rewrite intersect_id in H; auto.
      intros l Hl. apply in_L in Hl. tauto.
    Qed.
    Lemma pos_LB : Forall2 (at_pos (eB e)) L (link_position_in_B e).
    Proof.
      assert (H := ftwp_spec (link_unique e) (eB e) NB). rewrite intersect_id in H; auto.
      intros l Hl. apply in_L in Hl. tauto.
    Qed.
    Lemma pos_TA : Forall2 (at_pos (eA e)) TA (target_position_in_A e).
    Proof. apply ftwp_spec. auto. Qed.
    Lemma pos_TB : Forall2 (at_pos (eB e)) TB (target_position_in_B e).
    Proof. apply ftwp_spec. auto. Qed.
    Lemma pos_CA : Forall2 (at_pos (eC e)) (intersect (eA e) (eC e)) (A_target_position_in_C e).
    Proof. apply ftwp_spec. auto. Qed.
    Lemma pos_CB : Forall2 (at_pos (eC e)) (intersect (eB e) (eC e)) (B_target_position_in_C e).
    Proof. apply ftwp_spec. auto. Qed.

    Lemma posA : pos_ext ext (eA e).
    Proof. intros l Hl. apply Hext. apply in_or_app. right. apply in_or_app. auto. Qed.
    Lemma posB : pos_ext ext (eB e).
    Proof. intros l Hl. apply Hext. apply in_or_app. right. apply in_or_app. auto. Qed.
    Lemma posC : pos_ext ext (eC e).
    Proof. intros l Hl. apply Hext. apply in_or_app. auto. Qed.
    Lemma posL : pos_ext ext L.
    Proof. intros l Hl. apply posA. apply in_L in Hl. tauto. Qed.

    Lemma la_gemm_ifs : forall (tC tA tB : bool) tAv tBv tCv,
      (if negb tC && negb tA && negb tB then la_gemm false false ab tAv tBv cp tCv h
       else if negb tC && negb tA then la_gemm false true ab tAv tBv cp tCv h
       else if negb tC && negb tB then la_gemm true false ab tAv tBv cp tCv h
       else if negb tC then la_gemm true true ab tAv tBv cp tCv h
       else if negb tA && negb tB then la_gemm true true ab tBv tAv cp tCv h
       else if negb tA && tB then la_gemm false true ab tBv tAv cp tCv h
       else if tA && negb tB then la_gemm true false ab tBv tAv cp tCv h
       else la_gemm false false ab tBv tAv cp tCv h) =
      (if tC then la_gemm (negb tB) (negb tA) ab tBv tAv cp tCv h else la_gemm tA tB ab tAv tBv cp tCv h).
    Proof. intros [] [] [] *; reflexivity. Qed.

    (** Values entering the sums, as functions of the flattened link index. *)
    Definition linkA_first := Nat.eqb (first_pos (link_position_in_A e)) 0.
    Definition linkB_first := Nat.eqb (first_pos (link_position_in_B e)) 0.
    Definition targetA_first := Nat.eqb (first_pos (A_target_position_in_C e)) 0.
    Definition ua (env : nat -> Z) (p : Z) : T :=
      a (if linkA_first then st ext L p ++ map env TA else map env TA ++ st ext L p).
    Definition ub (env : nat -> Z) (p : Z) : T :=
      b (if linkB_first then st ext L p ++ map env TB else map env TB ++ st ext L p).
    Definition gemm_s (env : nat -> Z) : T :=
      if targetA_first then sumv (vol ext L) (ub env) (ua env) else sumv (vol ext L) (ua env) (ub env).

    Lemma la_gemm_k0 : forall (tA tB : bool) X Y Z0, (if tA then tdim X 0 else tdim X 1) = 0 ->
      la_gemm tA tB ab X Y cp Z0 h = Ok h.
    Proof. intros tA tB X Y Z0 E. unfold la_gemm, vgemm. rewrite E, orb_true_r. reflexivity. Qed.

    Lemma sumv_ext : forall k u u' v v', (forall p, 0 <= p < k -> u p = u' p /\ v p = v' p) ->
      sumv k u v = @sumv O k u' v'.
    Proof.
      intros k u u' v v' H. unfold sumv.
      assert (G : forall l acc, (forall p, In p l -> 0 <= p < k) ->
        fold_left (fun s l => oadd s (omul (u l) (v l))) l acc = fold_left (fun s l => oadd s (omul (u' l) (v' l))) l acc).
      { induction l as [|p l IH]; intros acc Hl; simpl; auto. destruct (H p) as (-> & ->); [apply Hl; simpl; auto|].
        apply IH. intros q Hq. apply Hl. simpl. auto. }
      apply G. intros p Hp. apply zrange_in. auto.
    Qed.

    Lemma gemm_nolaw : is_gemm_possible e = true -> L <> [] ->
      (exists h', einsum_gemm e cp ab C A B h = Ok h' /\
        (0 < vol ext L -> forall env, env_ok ext env (eC e) ->
           h' (addr C (map env (eC e))) = Some (updv ab cp (opsum ab (gemm_s env)) (c (map env (eC e))))) /\
        (vol ext L = 0 -> h' = h) /\
        (forall z, ~ cell C z -> h' z = h z)) /\
      eA e = (if linkA_first then L ++ TA else TA ++ L) /\ eB e = (if linkB_first then L ++ TB else TB ++ L).
    Proof.
      intros HG HL0. unfold is_gemm_possible in HG. rewrite !andb_true_iff in HG.
      destruct HG as (((((((((((((_ & _) & G3) & G4) & G5) & G6) & G7) & G8) & G9) & G10) & G11) & _) & _) & _).
      destruct (same_ordering_eq _ _ _ _ _ _ G10 pos_TA pos_CA) as (ETA & NTA).
      destruct (same_ordering_eq _ _ _ _ _ _ G11 pos_TB pos_CB) as (ETB & NTB).
      assert (PCA := pos_CA). rewrite <- ETA in PCA. assert (PCB := pos_CB). rewrite <- ETB in PCB.
      destruct (groups ext (eA e) A L TA _ _ NA pos_LA pos_TA) as (EA & SA1 & SA0); auto.
      { intros l Hl. rewrite in_L, in_TA. destruct (in_dec Nat.eq_dec l (eC e)); auto.
        left. destruct (Hlab l); tauto. }
      { intros l H1 H2. apply in_L in H1. apply in_TA in H2. tauto. }
      destruct (groups ext (eB e) B L TB _ _ NB pos_LB pos_TB) as (EB & SB0 & SB1); auto.
      { intros l Hl. rewrite in_L, in_TB. destruct (in_dec Nat.eq_dec l (eC e)); auto.
        left. destruct (Hlab l); tauto. }
      { intros l H1 H2. apply in_L in H1. apply in_TB in H2. tauto. }
      destruct (groups ext (eC e) C TA TB _ _ NC PCA PCB) as (EC & SC0 & SC1); auto.
      { intros l Hl. rewrite in_TA, in_TB. destruct (Hbroad l Hl); auto. }
      { intros l H1 H2. apply in_TA in H1. apply in_TB in H2. apply (Hbatch l); tauto. }
      unfold einsum_gemm.
      rewrite SA0, SA1, SB0, SB1, SC0, SC1.
      rewrite (product_dims_spec ext _ C _ _ HdC PCA), (product_dims_spec ext _ C _ _ HdC PCB).
      rewrite (product_dims_spec ext _ A _ _ HdA pos_LA), (product_dims_spec ext _ B _ _ HdB pos_LB).
      fold (vol ext TA) (vol ext TB) (vol ext L).
      set (tA := Nat.eqb (first_pos (link_position_in_A e)) 0) in *.
      set (tB := Nat.eqb (first_pos (link_position_in_B e)) 0) in *.
      set (tC := Nat.eqb (first_pos (A_target_position_in_C e)) 0) in *.
      assert (VA : sview A (if tA then [vol ext L; vol ext TA] else [vol ext TA; vol ext L])
                   (if tA then [if tA then vol ext TA else 1; if tA then 1 else vol ext L]
                    else [if tA then 1 else vol ext L; if tA then vol ext TA else 1])
                  = Ok (if tA then mview ext A L TA else mview ext A TA L)).
      { rewrite <- (pair_sview ext (eA e) A L TA tA HdA EA posA). destruct tA; reflexivity. }
      assert (VB : sview B (if negb tB then [vol ext TB; vol ext L] else [vol ext L; vol ext TB])
                   (if negb tB then [if tB then 1 else vol ext L; if tB then vol ext TB else 1]
                    else [if tB then vol ext TB else 1; if tB then 1 else vol ext L])
                  = Ok (if tB then mview ext B L TB else mview ext B TB L)).
      { rewrite <- (pair_sview ext (eB e) B L TB tB HdB EB posB). destruct tB; reflexivity. }
      assert (VC : sview C (if negb tC then [vol ext TB; vol ext TA] else [vol ext TA; vol ext TB])
                   (if negb tC then [if tC then 1 else vol ext TA; if tC then vol ext TB else 1]
                    else [if tC then vol ext TB else 1; if tC then 1 else vol ext TA])
                  = Ok (if tC then mview ext C TA TB else mview ext C TB TA)).
      { rewrite <- (pair_sview ext (eC e) C TA TB tC HdC EC posC). destruct tC; reflexivity. }
      split; [|split; auto].
      rewrite VC.
      match goal with |- exists h', (bind ?X _) = _ /\ _ => replace X with (Ok (if tA then mview ext A L TA else mview ext A TA L)) end.
      cbn [bind].
      match goal with |- exists h', (bind ?X _) = _ /\ _ => replace X with (Ok (if tB then mview ext B L TB else mview ext B TB L)) end.
      cbn [bind]. rewrite la_gemm_ifs. clear VA VB VC.
      (* the three matrices *)
      set (vA := if tA then mview ext A L TA else mview ext A TA L).
      set (vB := if tB then mview ext B L TB else mview ext B TB L).
      set (vC := if tC then mview ext C TA TB else mview ext C TB TA).
      set (fa := if tA then mfun ext a L TA o0 else mfun ext a TA L o0).
      set (fb := if tB then mfun ext b L TB o0 else mfun ext b TB L o0).
      set (fc := if tC then mfun ext c TA TB o0 else mfun ext c TB TA o0).
      assert (PA := posA). assert (PB := posB). assert (PC := posC).
      assert (hA : holds h vA fa).
      { unfold vA, fa. clearbody tA. destruct tA; apply mview_holds; auto; rewrite <- EA; auto. }
      assert (hB : holds h vB fb).
      { unfold vB, fb. clearbody tB. destruct tB; apply mview_holds; auto; rewrite <- EB; auto. }
      assert (hC : holds h vC fc).
      { unfold vC, fc. clearbody tC. destruct tC; apply mview_holds; auto; rewrite <- EC; auto. }
      assert (cA : forall z, cell vA z <-> cell A z).
      { intros z. unfold vA. clearbody tA. destruct tA; apply mview_cell; auto; rewrite <- EA; auto. }
      assert (cB : forall z, cell vB z <-> cell B z).
      { intros z. unfold vB. clearbody tB. destruct tB; apply mview_cell; auto; rewrite <- EB; auto. }
      assert (cC : forall z, cell vC z <-> cell C z).
      { intros z. unfold vC. clearbody tC. destruct tC; apply mview_cell; auto; rewrite <- EC; auto. }
      assert (dA : disj vC vA) by (apply disj_cells; intros z H1 H2; apply cC in H1; apply cA in H2; apply (proj1 (disj_cells _ _) DA z); auto).
      assert (dB : disj vC vB) by (apply disj_cells; intros z H1 H2; apply cC in H1; apply cB in H2; apply (proj1 (disj_cells _ _) DB z); auto).
      assert (vTA : 0 <= vol ext TA) by (apply vol_nonneg; intros l Hl; apply PA; apply in_TA in Hl; tauto).
      assert (vTB : 0 <= vol ext TB) by (apply vol_nonneg; intros l Hl; apply PB; apply in_TB in Hl; tauto).
      assert (vL : 0 <= vol ext L) by (apply vol_nonneg; apply posL).
      assert (NL : NoDup L) by apply unique_NoDup.
      assert (okTA : forall env, env_ok ext env (eC e) -> env_ok ext env TA)
        by (intros env He l Hl; apply He; apply in_TA in Hl; tauto).
      assert (okTB : forall env, env_ok ext env (eC e) -> env_ok ext env TB)
        by (intros env He l Hl; apply He; apply in_TB in Hl; tauto).
      assert (XC : forall env, env_ok ext env (eC e) ->
         addr C (map env (eC e)) = addr vC (if tC then [fl ext TA env; fl ext TB env] else [fl ext TB env; fl ext TA env]) /\
         c (map env (eC e)) = fc (if tC then [fl ext TA env; fl ext TB env] else [fl ext TB env; fl ext TA env])).
      { intros env He. unfold vC, fc. rewrite EC in He |- *. clearbody tC. destruct tC; split.
        1,3: symmetry; apply mview_env; auto; rewrite <- EC; auto.
        all: simpl; rewrite !st_fl by (rewrite <- EC in He; auto); rewrite map_app; auto. }
      assert (Vua : forall env p, env_ok ext env (eC e) -> 0 <= p < vol ext L -> fa (opi tA (fl ext TA env) p) = ua env p).
      { intros env p He Hp. unfold ua, linkA_first. fold tA. unfold fa, opi. clearbody tA.
        destruct tA; simpl; rewrite !st_fl by auto; reflexivity. }
      assert (Vub : forall env p, env_ok ext env (eC e) -> 0 <= p < vol ext L -> fb (opi (negb tB) p (fl ext TB env)) = ub env p).
      { intros env p He Hp. unfold ub, linkB_first. fold tB. unfold fb, opi. clearbody tB.
        destruct tB; simpl; rewrite !st_fl by auto; reflexivity. }
      assert (kA : (if tA then tdim vA 0 else tdim vA 1) = vol ext L).
      { unfold vA, tdim, mview. clearbody tA. destruct tA; reflexivity. }
      assert (kB : (if tB then tdim vB 0 else tdim vB 1) = vol ext L).
      { unfold vB, tdim, mview. clearbody tB. destruct tB; reflexivity. }
      unfold gemm_s, targetA_first. fold tC. clearbody tA tB tC.
      destruct (Z.eq_dec (vol ext L) 0) as [E0|E0].
      { exists h. split; [|split; [intros; lia|split; auto]].
        destruct tC; simpl negb; cbv iota; apply la_gemm_k0; [congruence|].
        rewrite negb_involutive. congruence. }
      destruct tC; simpl negb; cbv iota.
      - destruct (la_gemm_nolaw tA (negb tB) ab cp vA vB vC (vol ext TA) (vol ext TB) (vol ext L)
          (if tA then vol ext TA else vol ext L) (if tB then vol ext TB else vol ext L) (vol ext TB)
          fa fb fc h) as (h' & E & H1 & H2); auto; try lia.
        { unfold vA. destruct tA; apply mview_mat. }
        { unfold vB. destruct tB; apply mview_mat. }
        { unfold vC. apply mview_mat. }
        exists h'. split; auto. split; [|split; [lia|]].
        + intros _ env He. destruct (XC env He) as (-> & ->).
          rewrite H1 by (apply fl_range; auto).
          rewrite (sumv_ext _ _ (ub env) _ (ua env)); [reflexivity|]. intros p Hp. auto.
        + intros z Hz. apply H2. rewrite cC. auto.
      - destruct (la_gemm_nolaw (negb (negb tB)) (negb tA) ab cp vB vA vC (vol ext TB) (vol ext TA) (vol ext L)
          (if tB then vol ext TB else vol ext L) (if tA then vol ext TA else vol ext L) (vol ext TA)
          fb fa fc h) as (h' & E & H1 & H2); auto; try lia.
        { unfold vB. destruct tB; apply mview_mat. }
        { unfold vA. destruct tA; apply mview_mat. }
        { unfold vC. apply mview_mat. }
        exists h'. split; auto. split; [|split; [lia|]].
        + intros _ env He. destruct (XC env He) as (-> & ->).
          rewrite H1 by (apply fl_range; auto).
          rewrite (sumv_ext _ _ (ua env) _ (ub env)); [reflexivity|]. intros p Hp.
          rewrite <- Vua, <- Vub by auto. unfold opi. destruct tA, tB; auto.
        + intros z Hz. apply H2. rewrite cC. auto.
    Qed.

    Lemma map_upds_A : forall env, eA e = (if linkA_first then L ++ TA else TA ++ L) ->
      forall ix, inb ix (map ext L) ->
      a (map (upds L ix env) (eA e)) = a (if linkA_first then ix ++ map env TA else map env TA ++ ix).
    Proof.
      intros env EA ix Hix. f_equal. assert (HL := inb_length _ _ Hix). rewrite map_length in HL.
      assert (NL : NoDup L) by apply unique_NoDup.
      rewrite EA. destruct linkA_first; rewrite map_app, upds_map, map_upds_other; auto;
      intros l Hl Hl'; apply in_TA in Hl; apply in_L in Hl'; tauto.
    Qed.
    Lemma map_upds_B : forall env, eB e = (if linkB_first then L ++ TB else TB ++ L) ->
      forall ix, inb ix (map ext L) ->
      b (map (upds L ix env) (eB e)) = b (if linkB_first then ix ++ map env TB else map env TB ++ ix).
    Proof.
      intros env EB ix Hix. f_equal. assert (HL := inb_length _ _ Hix). rewrite map_length in HL.
      assert (NL : NoDup L) by apply unique_NoDup.
      rewrite EB. destruct linkB_first; rewrite map_app, upds_map, map_upds_other; auto;
      intros l Hl Hl'; apply in_TB in Hl; apply in_L in Hl'; tauto.
    Qed.

    Lemma zsum_zero : forall (O' : Ops) (f : Z -> car O'), zsum 0 f = o0.
    Proof. reflexivity. Qed.

    Lemma gemm_ok : is_ring O -> is_gemm_possible e = true -> L <> [] -> (0 < vol ext L \/ cp = o1) ->
      exists h', einsum_gemm e cp ab C A B h = Ok h' /\
        (forall env, env_ok ext env (eC e) ->
           h' (addr C (map env (eC e))) =
           Some (oadd (omul cp (c (map env (eC e)))) (omul ab (einstein L (eA e) (eB e) ext a b env)))) /\
        (forall z, ~ cell C z -> h' z = h z).
    Proof.
      intros HR HG HL0 Hk. destruct (gemm_nolaw HG HL0) as ((h' & E & H1 & H2 & H3) & EA & EB).
      exists h'. split; auto. split; auto. intros env He. assert (R := ir_rt O HR).
      assert (ES : einstein L (eA e) (eB e) ext a b env = gemm_s env).
      { rewrite (einstein_flat HR ext L (eA e) (eB e) a b env _ _ posL (map_upds_A env EA) (map_upds_B env EB)).
        unfold gemm_s. rewrite !(sumv_zsum HR). destruct targetA_first; auto.
        apply zsum_ext. intros p Hp. apply (omul_comm HR). }
      assert (vL := vol_nonneg ext L posL). destruct (Z.eq_dec (vol ext L) 0) as [E0|E0].
      - destruct Hk as [Hk|Hk]; [lia|]. rewrite H2 by auto.
        rewrite (HC (map env (eC e))) by (rewrite HdC; apply inb_map_env; auto). f_equal.
        rewrite ES. unfold gemm_s. rewrite !(sumv_zsum HR), E0, !zsum_zero. rewrite Hk.
        destruct targetA_first; rewrite (omul_0_r HR), (Rmul_1_l R), (Radd_comm R), (Radd_0_l R); auto.
      - rewrite H1 by (auto; lia). rewrite (updv_ring HR). f_equal. rewrite ES.
        unfold opsum. destruct (oeqb ab o0) eqn:Ea; [|apply (Radd_comm R)].
        apply (ir_eqb O HR) in Ea. rewrite Ea, !(omul_0_l HR). apply (Radd_comm R).
    Qed.

    Lemma unique_id_NoDup : forall X : list nat, NoDup X -> unique X = X.
    Proof. intros X H. apply unique_id. auto. Qed.

    Definition gemv_s (env : nat -> Z) : T := sumv (vol ext L) (ua env) (fun p => b (st ext L p)).

    Lemma gemv_nolaw : is_gemv_possible e = true ->
      (exists h', einsum_gemv e cp ab C A B h = Ok h' /\
        (0 < vol ext L -> forall env, env_ok ext env (eC e) ->
           h' (addr C (map env (eC e))) = Some (updv ab cp (opsum ab (gemv_s env)) (c (map env (eC e))))) /\
        (vol ext L = 0 -> h' = h) /\
        (forall z, ~ cell C z -> h' z = h z)) /\
      eA e = (if linkA_first then L ++ TA else TA ++ L) /\ eB e = L.
    Proof.
      intros HG.
      assert (HN : is_gemv_normal_possible e = true).
      { unfold is_gemv_possible in HG. apply orb_true_iff in HG as [HG|HG]; auto. exfalso.
        unfold is_gemv_swap_possible in HG. rewrite !andb_true_iff in HG.
        destruct HG as (((((((((_ & _) & _) & _) & G5) & _) & G7) & _) & _) & _).
        apply Nat.eqb_eq in G7. unfold is_same_ordering in G5. destruct (A_target_position_in_C e); [|discriminate].
        destruct (target_position_in_A e); discriminate. }
      unfold einsum_gemv. rewrite HN. unfold is_gemv_normal_possible in HN. rewrite !andb_true_iff in HN.
      destruct HN as (((((((((G1 & G2) & G3) & G4) & G5) & _) & G7) & _) & _) & _).
      destruct (same_ordering_eq _ _ _ _ _ _ G5 pos_TA pos_CA) as (ETA & NTA).
      destruct (same_ordering_eq _ _ _ _ _ _ G4 pos_LA pos_LB) as (_ & HL0).
      assert (PCA := pos_CA). rewrite <- ETA in PCA.
      apply Nat.eqb_eq in G7. assert (HBC := pos_CB).
      destruct (B_target_position_in_C e) as [|]; [|discriminate]. inversion HBC as [HBC0|]; subst. symmetry in HBC0.
      assert (BnC : forall l, In l (eB e) -> In l (eC e) -> False).
      { intros l H1 H2. assert (Hi : In l (intersect (eB e) (eC e))) by (rewrite in_intersect; auto).
        rewrite HBC0 in Hi. contradiction. }
      assert (EC : eC e = TA).
      { unfold TA, C_unique. rewrite unique_id_NoDup by auto. symmetry. apply intersect_id.
        intros l Hl. destruct (Hbroad l Hl); auto. exfalso. eapply BnC; eauto. }
      assert (BL : forall l, In l (eB e) -> In l L).
      { intros l Hl. apply in_L. destruct (Hlab l); auto; [exfalso; eapply BnC; eauto|].
        repeat split; auto; try tauto. intros H1. eapply BnC; eauto. }
      assert (EB : eB e = L).
      { destruct (contig_block _ _ _ pos_LB G2 HL0) as (pre & post & E & _).
        assert (ND := NB). rewrite E in ND.
        assert (pre = []).
        { destruct pre as [|x pre]; auto. exfalso. simpl in ND. apply NoDup_cons_iff in ND as (ND & _). apply ND.
          apply in_or_app. right. apply in_or_app. left. apply BL. rewrite E. simpl. auto. }
        subst pre. simpl in *. assert (post = []).
        { destruct post as [|x post]; auto. exfalso. apply NoDup_remove_2 in ND. apply ND. apply in_or_app. left.
          apply BL. rewrite E. apply in_or_app. simpl. auto. }
        subst post. rewrite app_nil_r in E. auto. }
      destruct (groups ext (eA e) A L TA _ _ NA pos_LA pos_TA) as (EA & SA1 & SA0); auto.
      { intros l Hl. rewrite in_L, in_TA. destruct (in_dec Nat.eq_dec l (eC e)); auto.
        left. destruct (Hlab l); tauto. }
      { intros l H1 H2. apply in_L in H1. apply in_TA in H2. tauto. }
      unfold einsum_gemv_normal.
      rewrite SA0, SA1.
      rewrite (last_stride_blk ext (eB e) B L _ [] [] pos_LB HL0 NB) by (auto; rewrite app_nil_r; auto).
      rewrite (last_stride_blk ext (eC e) C TA _ [] [] PCA NTA NC) by (auto; rewrite app_nil_r; auto).
      rewrite (product_dims_spec ext _ C _ _ HdC PCA).
      rewrite (product_dims_spec ext _ A _ _ HdA pos_LA), (product_dims_spec ext _ B _ _ HdB pos_LB).
      fold (vol ext TA) (vol ext L). change (vol ext []) with 1.
      set (tA := Nat.eqb (first_pos (link_position_in_A e)) 0) in *.
      assert (PA := posA). assert (PB := posB). assert (PC := posC). assert (PL := posL).
      assert (PT : pos_ext ext TA) by (rewrite <- EC; auto).
      assert (vTA := vol_nonneg ext TA PT). assert (vL := vol_nonneg ext L PL).
      assert (VA : sview A (if tA then [vol ext L; vol ext TA] else [vol ext TA; vol ext L])
                   (if tA then [if tA then vol ext TA else 1; if tA then 1 else vol ext L]
                    else [if tA then 1 else vol ext L; if tA then vol ext TA else 1])
                  = Ok (if tA then mview ext A L TA else mview ext A TA L)).
      { rewrite <- (pair_sview ext (eA e) A L TA tA HdA EA posA). destruct tA; reflexivity. }
      rewrite VA. cbn [bind]. rewrite !sview_ok by (repeat constructor; auto). cbn [bind].
      fold (vview ext B L) (vview ext C TA).
      set (vA := if tA then mview ext A L TA else mview ext A TA L).
      set (fa := if tA then mfun ext a L TA o0 else mfun ext a TA L o0).
      assert (hA : holds h vA fa).
      { unfold vA, fa. clearbody tA. destruct tA; apply mview_holds; auto; rewrite <- EA; auto. }
      assert (HdB' : ddims B = map ext L) by (rewrite <- EB; auto).
      assert (HdC' : ddims C = map ext TA) by (rewrite <- EC; auto).
      assert (hB : holds h (vview ext B L) (vfun ext b L o0)) by (apply vview_holds; auto).
      assert (hC : holds h (vview ext C TA) (vfun ext c TA o0)) by (apply vview_holds; auto).
      assert (cA : forall z, cell vA z <-> cell A z).
      { intros z. unfold vA. clearbody tA. destruct tA; apply mview_cell; auto; rewrite <- EA; auto. }
      assert (cB : forall z, cell (vview ext B L) z <-> cell B z) by (intros; apply vview_cell; auto).
      assert (cC : forall z, cell (vview ext C TA) z <-> cell C z) by (intros; apply vview_cell; auto).
      split; [|split; auto].
      assert (Vua : forall env p, env_ok ext env (eC e) -> 0 <= p < vol ext L -> fa (opi tA (fl ext TA env) p) = ua env p).
      { intros env p He Hp. unfold ua, linkA_first. fold tA. unfold fa, opi. rewrite EC in He. clearbody tA.
        destruct tA; simpl; rewrite !st_fl by auto; reflexivity. }
      assert (dvA : tdim vA 0 = (if tA then vol ext L else vol ext TA) /\ tdim vA 1 = (if tA then vol ext TA else vol ext L)).
      { unfold vA, tdim, mview. clearbody tA. destruct tA; auto. }
      destruct dvA as (d0 & d1).
      assert (MA : mat vA (if tA then vol ext L else vol ext TA) (if tA then vol ext TA else vol ext L) (if tA then vol ext TA else vol ext L)).
      { unfold vA. clearbody tA. destruct tA; apply mview_mat. }
      destruct (Z.eq_dec (vol ext L) 0) as [E0|E0].
      { exists h. split; [|split; [intros; lia|split; auto]]. unfold la_gemv, vgemv. rewrite d0, d1, E0.
        clear. destruct tA; rewrite ?Z.eqb_refl, ?orb_true_r; reflexivity. }
      destruct (Z.eq_dec (vol ext TA) 0) as [E1|E1].
      { exists h. split; [|split; [|split; auto]].
        - unfold la_gemv, vgemv. rewrite d0, d1, E1.
          clear. destruct tA; rewrite ?Z.eqb_refl, ?orb_true_r; reflexivity.
        - intros _ env He. exfalso. rewrite EC in He. assert (Er := fl_range ext TA env He). lia. }
      destruct (la_gemv_nolaw tA ab cp vA (vview ext B L) (vview ext C TA)
          (if tA then vol ext L else vol ext TA) (if tA then vol ext TA else vol ext L)
          (if tA then vol ext TA else vol ext L) 1 1 fa (vfun ext b L o0) (vfun ext c TA o0) h)
        as (h' & E & H1 & H2); auto.
      { destruct tA; lia. }
      { destruct tA; lia. }
      { destruct tA; apply vview_vect. }
      { destruct tA; apply vview_vect. }
      { apply disj_cells; intros z Z1 Z2; apply cC in Z1; apply cA in Z2; apply (proj1 (disj_cells _ _) DA z); auto. }
      { apply disj_cells; intros z Z1 Z2; apply cC in Z1; apply cB in Z2; apply (proj1 (disj_cells _ _) DB z); auto. }
      exists h'. split; auto. split; [|split; [lia|]].
      - intros _ env He. assert (He' : env_ok ext env TA) by (rewrite <- EC; auto).
        assert (Er := fl_range ext TA env He').
        assert (Ead : addr C (map env (eC e)) = addr (vview ext C TA) [fl ext TA env]).
        { rewrite EC. symmetry. apply vview_env; auto. }
        rewrite Ead, H1 by (destruct tA; auto). f_equal.
        assert (Ec : vfun ext c TA o0 [fl ext TA env] = c (map env (eC e))).
        { simpl. rewrite st_fl by auto. rewrite EC. reflexivity. }
        rewrite Ec. unfold gemv_s. f_equal. f_equal.
        assert (Ek : (if tA then (if tA then vol ext L else vol ext TA) else (if tA then vol ext TA else vol ext L)) = vol ext L)
          by (clear; destruct tA; auto).
        rewrite Ek. apply sumv_ext. intros p Hp. split; auto.
      - intros z Hz. apply H2. rewrite cC. auto.
    Qed.

    Lemma gemv_ok : is_ring O -> is_gemv_possible e = true -> (0 < vol ext L \/ cp = o1) ->
      exists h', einsum_gemv e cp ab C A B h = Ok h' /\
        (forall env, env_ok ext env (eC e) ->
           h' (addr C (map env (eC e))) =
           Some (oadd (omul cp (c (map env (eC e)))) (omul ab (einstein L (eA e) (eB e) ext a b env)))) /\
        (forall z, ~ cell C z -> h' z = h z).
    Proof.
      intros HR HG Hk. destruct (gemv_nolaw HG) as ((h' & E & H1 & H2 & H3) & EA & EB).
      exists h'. split; auto. split; auto. intros env He. assert (R := ir_rt O HR).
      assert (ES : einstein L (eA e) (eB e) ext a b env = gemv_s env).
      { rewrite (einstein_flat HR ext L (eA e) (eB e) a b env _ (fun ix => b ix) posL (map_upds_A env EA)).
        - unfold gemv_s. rewrite (sumv_zsum HR). auto.
        - intros ix Hix. f_equal. assert (HL := inb_length _ _ Hix). rewrite map_length in HL.
          rewrite EB. apply upds_map; auto. apply unique_NoDup. }
      assert (vL := vol_nonneg ext L posL). destruct (Z.eq_dec (vol ext L) 0) as [E0|E0].
      - destruct Hk as [Hk|Hk]; [lia|]. rewrite H2 by auto.
        rewrite (HC (map env (eC e))) by (rewrite HdC; apply inb_map_env; auto). f_equal.
        rewrite ES. unfold gemv_s. rewrite (sumv_zsum HR), E0, zsum_zero. rewrite Hk.
        rewrite (omul_0_r HR), (Rmul_1_l R), (Radd_comm R), (Radd_0_l R); auto.
      - rewrite H1 by (auto; lia). rewrite (updv_ring HR). f_equal. rewrite ES.
        unfold opsum. destruct (oeqb ab o0) eqn:Ea; [|apply (Radd_comm R)].
        apply (ir_eqb O HR) in Ea. rewrite Ea, !(omul_0_l HR). apply (Radd_comm R).
    Qed.
  End Gemm.

  (** ** Outer product *)
  Section Ring.
  Hypothesis HR : is_ring O.
  Add Ring PRing : (ir_rt O HR).
  Lemma outer_view : forall ext C P Q, rowmaj C -> ddims C = map ext (P ++ Q) -> pos_ext ext (P ++ Q) ->
    P <> [] -> Q <> [] -> view_ctor C [vol ext P; vol ext Q] None None = Ok (mview ext C P Q).
  Proof.
    intros ext C P Q RC Hd Hp HP HQ. unfold view_ctor.
    assert (0 <= vol ext P) by (apply vol_nonneg; intros l Hl; apply Hp, in_or_app; auto).
    assert (0 <= vol ext Q) by (apply vol_nonneg; intros l Hl; apply Hp, in_or_app; auto).
    rewrite count_m1_nonneg by (repeat constructor; auto). cbn [Nat.ltb Nat.leb Nat.eqb andb].
    rewrite dotp_repeat0, Z.add_0_r. rewrite RC, Hd. rewrite map_length, app_length. cbn [length].
    destruct (Nat.eqb_spec 2 (length P + length Q)) as [E|E].
    - destruct P as [|p [|]]; simpl in E; try congruence; destruct Q as [|q [|]]; simpl in E; try congruence; try lia.
      unfold mview, vol. cbn [app map]. rewrite !rms_cons, rms_nil. simpl zprod. rewrite !Z.mul_1_r. reflexivity.
    - rewrite map_app, zprod_app. unfold vol. simpl.
      destruct (Z.eqb_spec (zprod (map ext P) * (zprod (map ext Q) * 1)) (zprod (map ext P) * zprod (map ext Q))); [|lia].
      unfold mview, vol. rewrite !rms_cons. simpl. rewrite Z.mul_1_r. reflexivity.
  Qed.

  Lemma outer_core : forall ext P Q C X Y (x y c : list Z -> T) (cp ab : T) (h : heap T),
    rowmaj C -> ddims C = map ext (P ++ Q) -> pos_ext ext (P ++ Q) -> P <> [] -> Q <> [] ->
    rowmaj X -> ddims X = map ext P -> rowmaj Y -> ddims Y = map ext Q ->
    holds h C c -> holds h X x -> holds h Y y -> disj C X -> disj C Y ->
    exists h1, (if oeqb cp o1 then Ok h else la_scale cp C h) = Ok h1 /\
      (forall z, ~ cell C z -> h1 z = h z) /\
      (0 < vol ext Q -> exists h', la_ger ab (vview ext X P) (vview ext Y Q) (mview ext C P Q) h1 = Ok h' /\
        (forall env, env_ok ext env (P ++ Q) -> h' (addr C (map env (P ++ Q))) =
           Some (oadd (omul cp (c (map env (P ++ Q)))) (omul ab (omul (x (map env P)) (y (map env Q)))))) /\
        (forall z, ~ cell C z -> h' z = h z)) /\
      (vol ext Q = 0 -> la_ger ab (vview ext X P) (vview ext Y Q) (mview ext C P Q) h1 = Throw).
  Proof.
    intros ext P Q C X Y x y c cp ab h RC HdC Hp HP HQ RX HdX RY HdY HC HX HY DX DY.
    assert (PP : pos_ext ext P) by (intros l Hl; apply Hp, in_or_app; auto).
    assert (PQ : pos_ext ext Q) by (intros l Hl; apply Hp, in_or_app; auto).
    assert (vP := vol_nonneg ext P PP). assert (vQ := vol_nonneg ext Q PQ).
    assert (H1 : exists h1, (if oeqb cp o1 then Ok h else la_scale cp C h) = Ok h1 /\
        holds h1 C (fun idx => omul cp (c idx)) /\ (forall z, ~ cell C z -> h1 z = h z)).
    { destruct (oeqb cp o1) eqn:E1.
      - apply (ir_eqb O HR) in E1. subst cp. exists h. repeat split; auto.
        intros idx Hi. rewrite HC by auto. f_equal. ring.
      - apply C21_scale_partial; auto.
        + rewrite HdC. destruct P; simpl; congruence.
        + rewrite HdC. apply pos_ext_nonneg. auto.
        + apply contiguous_rowmaj. auto. }
    destruct H1 as (h1 & E1 & HC1 & F1). exists h1. split; auto. split; auto.
    assert (HX1 : holds h1 X x).
    { intros idx Hi. rewrite F1; auto. intros (i & Hi' & E). apply (DX i idx); auto. }
    assert (HY1 : holds h1 Y y).
    { intros idx Hi. rewrite F1; auto. intros (i & Hi' & E). apply (DY i idx); auto. }
    assert (cX : forall z, cell (vview ext X P) z <-> cell X z) by (intros; apply vview_cell; auto).
    assert (cY : forall z, cell (vview ext Y Q) z <-> cell Y z) by (intros; apply vview_cell; auto).
    assert (cC : forall z, cell (mview ext C P Q) z <-> cell C z) by (intros; apply mview_cell; auto).
    split.
    - intros Hv.
      destruct (C20_ger O HR ab (vview ext X P) (vview ext Y Q) (mview ext C P Q) (vol ext P) (vol ext Q) (vol ext Q) 1 1
        (mfun ext (fun idx => omul cp (c idx)) P Q o0) (vfun ext x P o0) (vfun ext y Q o0) h1) as (h' & E & H1 & H2); auto; try lia.
      { apply mview_mat. } { apply vview_vect. } { apply vview_vect. }
      { apply mview_holds; auto. } { apply vview_holds; auto. } { apply vview_holds; auto. }
      { apply disj_cells; intros z Z1 Z2; apply cC in Z1; apply cX in Z2; apply (proj1 (disj_cells _ _) DX z); auto. }
      { apply disj_cells; intros z Z1 Z2; apply cC in Z1; apply cY in Z2; apply (proj1 (disj_cells _ _) DY z); auto. }
      exists h'. split; auto. split.
      + intros env He. assert (He' := He). apply env_ok_app in He' as (HeP & HeQ).
        rewrite <- (mview_env ext C P Q env RC HdC He).
        rewrite H1 by (apply fl_range; auto). simpl mfun. simpl vfun. rewrite !st_fl by auto. rewrite map_app. reflexivity.
      + intros z Hz. rewrite H2 by (rewrite cC; auto). auto.
    - intros Hv. apply C20_ger_rejects with (m := vol ext P) (n := vol ext Q) (lda := vol ext Q) (incx := 1) (incy := 1);
        try reflexivity. right. right. lia.
  Qed.

  Lemma indices_empty : forall dims, zprod dims = 0 -> indices dims = [].
  Proof.
    intros dims H. destruct (indices dims) as [|i l] eqn:E; auto. exfalso.
    assert (Hi : In i (indices dims)) by (rewrite E; simpl; auto). apply in_indices in Hi.
    apply inb_zprod_pos in Hi. lia.
  Qed.

  Lemma outer_ok : forall e ext A B C (a b c : list Z -> T) (cp ab : T) (vA vB : bool) (h : heap T),
    eA e <> [] -> eB e <> [] -> NoDup (eC e) -> (eC e = eA e ++ eB e \/ eC e = eB e ++ eA e) ->
    (forall l, In l (eC e) -> 0 <= ext l < 2 ^ 31) ->
    ddims A = map ext (eA e) -> ddims B = map ext (eB e) -> ddims C = map ext (eC e) ->
    rowmaj A -> rowmaj B -> rowmaj C -> holds h A a -> holds h B b -> holds h C c -> disj C A -> disj C B ->
    einsum_spec (einsum_outer e cp ab C A B vA vB h) (einsum_result ext (eC e) (eA e) (eB e) [] cp ab C a b c h).
  Proof.
    intros e ext A B C a b c cp ab vA vB h NEA NEB NC HCC Hext HdA HdB HdC RA RB RC HA HB HC DA DB.
    assert (PC : pos_ext ext (eC e)) by (intros l Hl; apply Hext in Hl; lia).
    assert (AC : forall l, In l (eA e) -> In l (eC e)) by (intros l Hl; destruct HCC as [->| ->]; apply in_or_app; auto).
    assert (BC : forall l, In l (eB e) -> In l (eC e)) by (intros l Hl; destruct HCC as [->| ->]; apply in_or_app; auto).
    assert (PA : pos_ext ext (eA e)) by (intros l Hl; apply PC; auto).
    assert (PB : pos_ext ext (eB e)) by (intros l Hl; apply PC; auto).
    assert (PCA := ftwp_spec (eA e) (eC e) NC). rewrite intersect_id in PCA by auto.
    assert (PCB := ftwp_spec (eB e) (eC e) NC). rewrite intersect_id in PCB by auto.
    fold (A_target_position_in_C e) in PCA. fold (B_target_position_in_C e) in PCB.
    assert (Hnil : generic_targets e C = indices (map ext (eC e))).
    { unfold generic_targets, unique_target_dims. rewrite (target_dims_eq ext (eC e)); auto.
      - unfold C_unique. rewrite unique_id by auto. auto.
      - intros l. unfold C_unique. rewrite in_unique. auto. }
    assert (Eein : forall env, einstein [] (eA e) (eB e) ext a b env = omul (a (map env (eA e))) (b (map env (eB e)))) by reflexivity.
    assert (Hfin : forall h1, (forall z, ~ cell C z -> h1 z = h z) -> zprod (map ext (eC e)) = 0 ->
      einsum_spec (h2 <- (if oeqb cp o0 then Ok h1 else la_scale (odiv o1 cp) C h1) ;;
        Ok (h2, generic_body e cp ab C A B, generic_targets e C))
        (einsum_result ext (eC e) (eA e) (eB e) [] cp ab C a b c h)).
    { intros h1 F1 Hz.
      assert (Hno : forall z, ~ cell C z).
      { intros z (i & Hi & _). apply inb_zprod_pos in Hi. rewrite HdC in Hi. lia. }
      assert (H2 : exists h2, (if oeqb cp o0 then Ok h1 else la_scale (odiv o1 cp) C h1) = Ok h2 /\ forall z, h2 z = h1 z).
      { destruct (oeqb cp o0); [exists h1; auto|].
        destruct (C21_scale_partial O (odiv o1 cp) C c h1) as (h2 & E2 & _ & F2).
        - rewrite HdC. destruct (eC e) eqn:E; [|discriminate]. destruct (eA e); [congruence|]. simpl in HCC.
          destruct HCC as [HCC|HCC]; [discriminate|]. destruct (eB e); discriminate.
        - rewrite HdC. apply pos_ext_nonneg. auto.
        - apply contiguous_rowmaj. auto.
        - intros i Hi. exfalso. apply (Hno (addr C i)). exists i. auto.
        - exists h2. split; auto. }
      destruct H2 as (h2 & E2 & F2). rewrite E2. cbn [bind].
      exists h2, (generic_body e cp ab C A B), (generic_targets e C). split; auto.
      intros threads HP. rewrite Hnil, indices_empty in HP by auto.
      apply par_empty; [apply Permutation_nil; apply Permutation_sym; auto|]. split.
      - intros env He. exfalso. apply (Hno (addr C (map env (eC e)))). apply env_cell with (ext := ext); auto.
      - intros z _. rewrite F2. auto. }
    assert (Hdone : forall h', (forall env, env_ok ext env (eC e) -> h' (addr C (map env (eC e))) =
           Some (oadd (omul cp (c (map env (eC e)))) (omul ab (omul (a (map env (eA e))) (b (map env (eB e))))))) ->
        (forall z, ~ cell C z -> h' z = h z) ->
        einsum_spec (Ok (done h')) (einsum_result ext (eC e) (eA e) (eB e) [] cp ab C a b c h)).
    { intros h' H1 H2. exists h', (fun _ => PRet tt), []. split; [reflexivity|]. intros threads HP.
      apply par_empty; [apply Permutation_nil; apply Permutation_sym; auto|]. split; auto.
      intros z Hz. apply H2. intros Hc. destruct (cell_env ext C (eC e) z NC HdC Hc) as (env & He & E). eapply Hz; eauto. }
    unfold einsum_outer.
    rewrite (product_dims_spec ext _ C _ _ HdC PCA), (product_dims_spec ext _ C _ _ HdC PCB).
    fold (vol ext (eA e)) (vol ext (eB e)).
    rewrite (rank_1_view_ok ext vA A (eA e)), (rank_1_view_ok ext vB B (eB e)) by auto.
    assert (Hfp : forall P Q, eC e = P ++ Q -> P <> [] -> (P = eA e -> Nat.eqb (first_pos (A_target_position_in_C e)) 0 = true) /\
         (Q = eA e -> Nat.eqb (first_pos (A_target_position_in_C e)) 0 = false)).
    { intros P Q EP HP. inversion PCA as [E0|x p l1 l2 (E1 & E2) HF Ea Eb]; [congruence|].
      unfold first_pos. simpl. split.
      - intros ->. apply Nat.eqb_eq. apply (proj1 (NoDup_nth_error _) NC).
        + apply nth_error_Some. rewrite E2. discriminate.
        + rewrite E2, EP. reflexivity.
      - intros ->. apply Nat.eqb_neq. intros E0. rewrite E0, EP in E2. destruct P as [|p0 P]; [congruence|].
        simpl in E2. injection E2 as ->. rewrite EP in NC. simpl in NC. apply NoDup_cons_iff in NC as (NC & _).
        apply NC. apply in_or_app. right. simpl. auto. }
    destruct HCC as [EC|EC].
    - rewrite (proj1 (Hfp _ _ EC NEA) eq_refl). cbn [negb].
      rewrite outer_view by (auto; rewrite <- EC; auto). cbn [bind].
      destruct (outer_core ext (eA e) (eB e) C A B a b c cp ab h) as (h1 & E1 & F1 & G1 & G2); auto; try (rewrite <- EC; auto).
      rewrite E1. cbn [bind].
      destruct (Z.eq_dec (vol ext (eB e)) 0) as [E0|E0].
      + rewrite G2 by auto. apply Hfin; auto. rewrite EC, map_app, zprod_app. unfold vol in E0. rewrite E0. lia.
      + assert (vB0 := vol_nonneg ext _ PB). destruct (G1 ltac:(lia)) as (h' & E & H1 & H2). rewrite E. apply Hdone; auto.
        rewrite EC. auto.
    - rewrite (proj2 (Hfp _ _ EC NEB) eq_refl). cbn [negb].
      rewrite outer_view by (auto; rewrite <- EC; auto). cbn [bind].
      destruct (outer_core ext (eB e) (eA e) C B A b a c cp ab h) as (h1 & E1 & F1 & G1 & G2); auto; try (rewrite <- EC; auto).
      rewrite E1. cbn [bind].
      destruct (Z.eq_dec (vol ext (eA e)) 0) as [E0|E0].
      + rewrite G2 by auto. apply Hfin; auto. rewrite EC, map_app, zprod_app. unfold vol in E0. rewrite E0. lia.
      + assert (vA0 := vol_nonneg ext _ PA). destruct (G1 ltac:(lia)) as (h' & E & H1 & H2). rewrite E. apply Hdone; auto.
        intros env He. rewrite EC in He |- *. rewrite H1 by auto. f_equal. f_equal. f_equal. apply (omul_comm HR).
  Qed.

  End Ring.

  (** ** Element-wise product; no law of arithmetic needed *)
  Lemma rowmaj_inj : forall d, rowmaj d -> inj d.
  Proof.
    intros d HRm i j Hi Hj E. unfold addr in E. rewrite HRm in E.
    rewrite <- (rm_roundtrip _ i Hi), <- (rm_roundtrip _ j Hj). f_equal. lia.
  Qed.

  Definition dp_val (cp ab : T) (a b c : list Z -> T) (idx : list Z) : T :=
    oadd (omul cp (if oeqb cp o0 then o0 else c idx)) (omul ab (omul (a idx) (b idx))).

  Lemma dp_ok : forall A B C (a b c : list Z -> T) cp ab (h : heap T),
    ddims A = ddims C -> ddims B = ddims C -> Forall (fun d => 0 <= d < 2 ^ 31) (ddims C) -> rowmaj C ->
    holds h A a -> holds h B b -> holds h C c -> disj C A -> disj C B ->
    exists h1, la_direct_product ab A B cp C h = Ok (h1, dp_body ab A B cp C) /\
      forall threads, Permutation (concat threads) (indices (map to_int32 (ddims C))) ->
        par_spec (omp_for (dp_body ab A B cp C) threads) h1 (fun h' =>
          holds h' C (dp_val cp ab a b c) /\ forall z, ~ cell C z -> h' z = h z).
  Proof.
    intros A B C a b c cp ab h EA EB Hx RC HA HB HC DA DB.
    assert (HN : nonneg (ddims C)) by (eapply Forall_impl; [|exact Hx]; simpl; intros; lia).
    assert (H1 : exists h1, (if oeqb cp o0
               then forM (zrange (zprod (ddims C))) (fun i h => wr h (dbase C + i) o0) h else Ok h) = Ok h1 /\
        holds h1 C (fun idx => if oeqb cp o0 then o0 else c idx) /\ forall z, ~ cell C z -> h1 z = h z).
    { destruct (oeqb cp o0).
      - destruct (forM_cells Z T (zrange (zprod (ddims C))) (fun i => dbase C + i) (fun _ => o0)
          (fun i h => wr h (dbase C + i) o0) h) as (h1 & E & H1 & H2).
        + apply FinFun.Injective_map_NoDup; [intros x y; lia|apply zrange_NoDup].
        + intros x h1 Hin Hag. apply wr_some with (w := c (sentinel_to_indices x (row_major_strides (ddims C)))).
          rewrite Hag by auto. apply zrange_in in Hin.
          rewrite <- (Z.mul_1_r x) at 1. apply rowmaj_holds_flat; auto.
        + exists h1. split; auto. split.
          * intros idx Hi. destruct (rowmaj_addr_flat C idx RC Hi) as (G1 & G2). rewrite G2, Z.mul_1_r.
            apply H1. apply zrange_in. auto.
          * intros z Hz. apply H2. intros Ho. apply Hz. apply rowmaj_cell; auto.
            apply in_map_iff in Ho as (i & E1 & Hi). apply zrange_in in Hi. exists i. split; auto. lia.
      - exists h. auto. }
    destruct H1 as (h1 & E1 & HC1 & F1). exists h1. unfold la_direct_product.
    destruct (list_eq_dec Z.eq_dec (ddims C) (ddims A)); [|congruence].
    destruct (list_eq_dec Z.eq_dec (ddims C) (ddims B)); [|congruence].
    rewrite E1. cbn [bind]. split; auto. intros threads HP.
    assert (E32 : map to_int32 (ddims C) = ddims C).
    { clear - Hx. induction Hx as [|x l H HF IH]; simpl; auto. rewrite IH, to_int32_id by lia. auto. }
    rewrite E32 in HP.
    assert (HA1 : holds h1 A a).
    { intros idx Hi. rewrite F1; auto. intros (i & Hi' & E). apply (DA i idx); auto. }
    assert (HB1 : holds h1 B b).
    { intros idx Hi. rewrite F1; auto. intros (i & Hi' & E). apply (DB i idx); auto. }
    assert (HPS := par_cells _ _ (indices (ddims C)) threads (addr C) (fun idx => Some (dp_val cp ab a b c idx))
      (dp_body ab A B cp C) h1 HP).
    apply par_spec_weaken with (2 := HPS
      ltac:(apply NoDup_addrs; apply rowmaj_inj; auto)
      ltac:(apply wtasks_ok; intros idx h2 Hin Hag; apply in_indices in Hin; unfold dp_body;
         rewrite !subscript_inb by (rewrite ?EA, ?EB; auto);
         apply wtask_rd with (u := a idx);
          [right; intros Ho; apply owned_cells in Ho as (j & Hj & E); apply (DA j idx); auto; rewrite EA; auto
          |rewrite Hag; [apply HA1; rewrite EA; auto
           |right; intros Ho; apply owned_cells in Ho as (j & Hj & E); apply (DA j idx); auto; rewrite EA; auto]|];
         apply wtask_rd with (u := b idx);
          [right; intros Ho; apply owned_cells in Ho as (j & Hj & E); apply (DB j idx); auto; rewrite EB; auto
          |rewrite Hag; [apply HB1; rewrite EB; auto
           |right; intros Ho; apply owned_cells in Ho as (j & Hj & E); apply (DB j idx); auto; rewrite EB; auto]|];
         apply wtask_rd with (u := if oeqb cp o0 then o0 else c idx); [auto|rewrite Hag by auto; apply HC1; auto|];
         eapply wtask_wr; [auto|rewrite Hag by auto; apply HC1; auto])).
    intros h' (G1 & G2). split.
    - intros idx Hi. apply G1. apply in_indices. auto.
    - intros z Hz. rewrite G2 by (rewrite owned_cells; auto). auto.
  Qed.

  (** ** Dot product *)
  Section Ring2.
  Hypothesis HR : is_ring O.
  Add Ring PRing2 : (ir_rt O HR).
  Lemma dot_ok : forall (fA fB : bool) A B C (a b c : list Z -> T) cp ab (h : heap T),
    ddims A <> [] -> nonneg (ddims A) -> ddims B = ddims A ->
    (fA = true -> contiguous A) -> (fB = true -> contiguous B) ->
    (forall s, In s (dstrides A) -> 0 <= s) -> (forall s, In s (dstrides B) -> 0 <= s) ->
    length (dstrides A) = length (ddims A) -> length (dstrides B) = length (ddims B) ->
    holds h A a -> holds h B b -> ddims C = [] -> dstrides C = [] -> holds h C c ->
    exists h', einsum_dot cp ab C A B fA fB h = Ok h' /\
      h' (dbase C) = Some (oadd (omul cp (c [])) (omul ab (lsum (indices (ddims A)) (fun idx => omul (a idx) (b idx))))) /\
      (forall z, z <> dbase C -> h' z = h z).
  Proof.
    intros fA fB A B C a b c cp ab h Hne HN HD FA FB PA PB LA LB HA HB HdC HsC HC.
    unfold einsum_dot. rewrite (C23_dot O HR fA fB A B a b h) by auto. cbn [bind].
    assert (E0 : h (dbase C) = Some (c [])).
    { specialize (HC []). unfold addr in HC. rewrite HdC, HsC in HC. simpl in HC. rewrite Z.add_0_r in HC. apply HC. constructor. }
    unfold exec. simpl. rewrite E0. simpl. rewrite upd_same. simpl.
    eexists. split; [reflexivity|]. split.
    - rewrite upd_same. f_equal. ring.
    - intros z Hz. rewrite !upd_other by auto. auto.
  Qed.
  End Ring2.
End Paths.
