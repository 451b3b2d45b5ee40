(** * L_PyBlas: the plans of the Python einsum that call BLAS. *)
From Coq Require Import List ZArith Lia Bool Permutation Ring_theory Ring.
From Verif Require Import Base Heap Conc M_Addr M_Einsum M_Blas M_Dispatch M_PyEinsum S_Blas S_Einsum S_PyEinsum
  L_Addr L_Einsum L_Blas T_Blas L_Dispatch L_Paths L_Elt L_PyEinsum L_PyPlans.
Import ListNotations.
Open Scope Z_scope.

(** ** Choice of the plan *)
Lemma nodup_disjl : forall P Q, NoDup (P ++ Q) -> disjl P Q.
Proof.
  intros P Q HN l H1 H2. induction P as [|p P IH]; [contradiction|]. simpl in HN. inversion HN; subst.
  destruct H1 as [->|H1]; auto. apply H3. apply in_or_app; auto.
Qed.
Lemma disjl_sym : forall P Q, disjl P Q -> disjl Q P.
Proof. intros P Q H l H1 H2. eapply H; eauto. Qed.
Lemma disjl_app : forall P Q R, disjl P Q -> disjl P R -> disjl P (Q ++ R).
Proof. intros P Q R H1 H2 l Hl Hl2. apply in_app_or in Hl2 as [H|H]; [eapply H1|eapply H2]; eauto. Qed.

Lemma blk_nodup : forall t P Q, NoDup (P ++ Q) -> NoDup (blk t P Q).
Proof. intros [] P Q H; auto. eapply Permutation_NoDup; [apply Permutation_app_comm|auto]. Qed.
Lemma blk_in : forall t P Q l, In l (blk t P Q) <-> In l P \/ In l Q.
Proof. intros [] P Q l; simpl; rewrite in_app_iff; tauto. Qed.
Lemma disjl_blk : forall t X P Q, disjl X P -> disjl X Q -> disjl X (blk t P Q).
Proof. intros t X P Q H1 H2 l Hl Hl2. apply blk_in in Hl2 as [H|H]; [eapply H1|eapply H2]; eauto. Qed.

(** Labels of [X] found in the block pair (P, Q). *)
Lemma ftwp_fst : forall t P Q, NoDup (P ++ Q) ->
  find_type_with_position P (blk t P Q) = combine P (seq (if t then length Q else 0%nat) (length P)).
Proof.
  intros t P Q H. assert (H' := blk_nodup t P Q H). destruct t; simpl in *; [apply ftwp_last|apply ftwp_first]; auto.
Qed.
Lemma ftwp_snd : forall t P Q, NoDup (P ++ Q) ->
  find_type_with_position Q (blk t P Q) = combine Q (seq (if t then 0%nat else length P) (length Q)).
Proof.
  intros t P Q H. assert (H' := blk_nodup t P Q H). destruct t; simpl in *; [apply ftwp_first|apply ftwp_last]; auto.
Qed.
Lemma ftwp_blk : forall t P Q X, find_type_with_position P X = [] ->
  find_type_with_position (blk t P Q) X = find_type_with_position Q X.
Proof. intros [] P Q X H; unfold blk; rewrite ftwp_app, H; simpl; auto. apply app_nil_r. Qed.
Lemma ftwp_blk2 : forall t P Q X, find_type_with_position Q X = [] ->
  find_type_with_position (blk t P Q) X = find_type_with_position P X.
Proof. intros [] P Q X H; unfold blk; rewrite ftwp_app, H; simpl; auto. apply app_nil_r. Qed.

Lemma intersect_blk : forall t P Q X, disjl P X -> (forall l, In l Q -> In l X) -> intersect (blk t P Q) X = Q.
Proof.
  intros t P Q X H1 H2. destruct t; unfold blk; rewrite intersect_app_l, (intersect_disj P), (intersect_sub Q); auto.
  apply app_nil_r.
Qed.

(** A = (P, L), B = (L, Q), C = (P, Q), each in either order. *)
Definition gemm_ein (tA tB tC : bool) (P Q L : list nat) : ein :=
  mkEin (blk tC P Q) (blk tA P L) (blk tB L Q).

Lemma nodup3 : forall P Q L : list nat, NoDup (P ++ Q ++ L) -> NoDup (P ++ Q) /\ NoDup (P ++ L) /\ NoDup (L ++ Q).
Proof.
  intros P Q L H. assert (D := nodup_disjl _ _ H). assert (H1 := NoDup_app_l _ _ _ H). assert (H2 := NoDup_app_r _ _ _ H).
  assert (D2 := nodup_disjl _ _ H2). assert (H3 := NoDup_app_l _ _ _ H2). assert (H4 := NoDup_app_r _ _ _ H2).
  split; [|split]; apply NoDup_app_disj; auto.
  - intros l Hl Hl2. apply (D l Hl). apply in_or_app; auto.
  - intros l Hl Hl2. apply (D l Hl). apply in_or_app; auto.
  - intros l Hl Hl2. apply (D2 l Hl2 Hl).
Qed.

Lemma plan_gemm : forall (tA tB tC : bool) (P Q L : list nat), NoDup (P ++ Q ++ L) -> P <> [] -> Q <> [] -> L <> [] ->
  let sAL := if tA then 0%nat else length P in let sAP := if tA then length L else 0%nat in
  let sBL := if tB then length Q else 0%nat in let sBQ := if tB then 0%nat else length L in
  let sCP := if tC then length Q else 0%nat in let sCQ := if tC then 0%nat else length P in
  py_algorithm (gemm_ein tA tB tC P Q L)
  = Ok (PyGemm (seq sAL (length L)) (seq sBL (length L)) (seq sCP (length P)) (seq sCQ (length Q))
         (sAP + length P - 1) (sAL + length L - 1) (sBQ + length Q - 1) (sBL + length L - 1)
         (sCP + length P - 1) (sCQ + length Q - 1) tA tB tC).
Proof.
  intros tA tB tC P Q L HN HP HQ HL sAL sAP sBL sBQ sCP sCQ.
  destruct (nodup3 _ _ _ HN) as (NPQ & NPL & NLQ). set (e := gemm_ein tA tB tC P Q L).
  assert (DPQ := nodup_disjl _ _ NPQ). assert (DPL := nodup_disjl _ _ NPL). assert (DLQ := nodup_disjl _ _ NLQ).
  assert (DQP := disjl_sym _ _ DPQ). assert (DLP := disjl_sym _ _ DPL). assert (DQL := disjl_sym _ _ DLQ).
  assert (NA : NoDup (eA e)) by (apply blk_nodup; auto).
  assert (NB : NoDup (eB e)) by (apply blk_nodup; auto).
  assert (NC : NoDup (eC e)) by (apply blk_nodup; auto).
  assert (NLL := NoDup_app_r _ _ _ NPL).
  assert (LAB : py_linksAB e = L).
  { unfold py_linksAB. rewrite py_intersect_nodup by auto. unfold e, gemm_ein. cbn [eA eB]. apply intersect_blk.
    - apply disjl_blk; auto.
    - intros l Hl. apply blk_in. auto. }
  assert (LU : py_link_unique e = L).
  { unfold py_link_unique. rewrite LAB, difference_disj, unique_id; auto. apply disjl_blk; auto. }
  assert (EU : C_unique e = eC e) by (apply unique_id; auto).
  assert (LA : py_link_in_A e = combine L (seq sAL (length L))).
  { unfold py_link_in_A. rewrite LU. apply ftwp_snd; auto. }
  assert (LB : py_link_in_B e = combine L (seq sBL (length L))).
  { unfold py_link_in_B. rewrite LU. apply ftwp_fst; auto. }
  assert (TA : target_position_in_A e = combine P (seq sAP (length P))).
  { unfold target_position_in_A. rewrite EU. unfold e, gemm_ein. cbn [eA eC]. rewrite ftwp_blk2.
    - apply ftwp_fst; auto.
    - apply ftwp_none. apply disjl_blk; auto. }
  assert (TB : target_position_in_B e = combine Q (seq sBQ (length Q))).
  { unfold target_position_in_B. rewrite EU. unfold e, gemm_ein. cbn [eB eC]. rewrite ftwp_blk.
    - apply ftwp_snd; auto.
    - apply ftwp_none. apply disjl_blk; auto. }
  assert (CA : A_target_position_in_C e = combine P (seq sCP (length P))).
  { unfold A_target_position_in_C, e, gemm_ein. cbn [eA eC]. rewrite ftwp_blk2.
    - apply ftwp_fst; auto.
    - apply ftwp_none. apply disjl_blk; auto. }
  assert (CB : B_target_position_in_C e = combine Q (seq sCQ (length Q))).
  { unfold B_target_position_in_C, e, gemm_ein. cbn [eB eC]. rewrite ftwp_blk.
    - apply ftwp_snd; auto.
    - apply ftwp_none. apply disjl_blk; auto. }
  assert (INL : exists l, In l L) by (destruct L as [|l]; [congruence|exists l; simpl; auto]).
  assert (INP : exists l, In l P) by (destruct P as [|l]; [congruence|exists l; simpl; auto]).
  assert (INQ : exists l, In l Q) by (destruct Q as [|l]; [congruence|exists l; simpl; auto]).
  unfold py_algorithm.
  assert (D0 : py_dot_product e = false).
  { unfold py_dot_product. replace (Nat.eqb (length (eC e)) 0) with false; auto. symmetry. apply Nat.eqb_neq.
    destruct INP as (l & Hl). assert (Hi : In l (eC e)) by (apply blk_in; auto). destruct (eC e); [contradiction|discriminate]. }
  rewrite D0.
  assert (D1 : py_element_wise e = false).
  { unfold py_element_wise. replace (same_indices (eA e) (eC e)) with false; auto.
    unfold same_indices. destruct (list_eq_dec _ _ _) as [E|]; auto. exfalso. destruct INL as (l & Hl).
    assert (Hi : In l (eA e)) by (apply blk_in; auto). rewrite E in Hi. apply blk_in in Hi as [Hi|Hi]; [eapply DLP|eapply DLQ]; eauto. }
  rewrite D1.
  assert (D2 : py_outer_product e = false).
  { unfold py_outer_product. rewrite LAB. destruct L; [congruence|]. reflexivity. }
  rewrite D2.
  assert (D3 : py_gemv_AB_possible e = false).
  { unfold py_gemv_AB_possible. rewrite CB, combine_length_seq. destruct Q; [congruence|]. cbn [length Nat.eqb].
    rewrite andb_false_r. reflexivity. }
  assert (D4 : py_gemv_BA_possible e = false).
  { unfold py_gemv_BA_possible. rewrite CA, combine_length_seq. destruct P; [congruence|]. cbn [length Nat.eqb].
    rewrite andb_false_r. reflexivity. }
  rewrite D3, D4. cbn [orb].
  assert (G : forall X Y, (exists l, In l X /\ ~ In l Y) -> Nat.eqb (length (difference X Y)) 0 = false).
  { intros X Y (l & H1 & H2). apply Nat.eqb_neq. assert (Hi : In l (difference X Y)).
    { apply filter_In. split; auto. apply negb_true_iff, has_type_false. auto. }
    destruct (difference X Y); [contradiction|discriminate]. }
  assert (D5 : py_gemm_possible e = true).
  { unfold py_gemm_possible. rewrite LA, LB, TA, TB, CA, CB, !contig_combine, !same_order_combine, no_hadamard_ok by auto.
    unfold CminusA, CminusB. rewrite !G; auto.
    - destruct INP as (l & Hl). exists l. split; [apply blk_in; auto|]. intros Hi.
      apply blk_in in Hi as [Hi|Hi]; [eapply DPL|eapply DPQ]; eauto.
    - destruct INQ as (l & Hl). exists l. split; [apply blk_in; auto|]. intros Hi.
      apply blk_in in Hi as [Hi|Hi]; [eapply DQP|eapply DQL]; eauto. }
  rewrite D5, LA, LB, TA, TB, CA, CB, !max_combine, !front_combine by auto. cbn [bind]. rewrite !distinct_combine.
  do 2 f_equal.
  - unfold sAL. destruct tA; auto. destruct P; [congruence|reflexivity].
  - unfold sBL. destruct tB; auto. destruct Q; [congruence|reflexivity].
  - unfold sCP. destruct tC; auto. destruct Q; [congruence|reflexivity].
Qed.

(** C = P, and the matrix operand is (P, L); [sw]: it is the second operand. *)
Definition gemv_ein (sw tA : bool) (P L : list nat) : ein :=
  if sw then mkEin P L (blk tA P L) else mkEin P (blk tA P L) L.

Lemma plan_gemv : forall (sw tA : bool) (P L : list nat), NoDup (P ++ L) -> P <> [] -> L <> [] ->
  let sL := if tA then 0%nat else length P in let sP := if tA then length L else 0%nat in
  py_algorithm (gemv_ein sw tA P L)
  = Ok (PyGemv (seq sL (length L)) (seq 0 (length L)) (seq 0 (length P))
         (sP + length P - 1) (sL + length L - 1) (length L - 1) (length P - 1) tA sw).
Proof.
  intros sw tA P L HN HP HL sL sP. assert (DPL := nodup_disjl _ _ HN). assert (DLP := disjl_sym _ _ DPL).
  assert (NP := NoDup_app_l _ _ _ HN). assert (NL := NoDup_app_r _ _ _ HN).
  assert (NM : NoDup (blk tA P L)) by (apply blk_nodup; auto).
  set (e := gemv_ein sw tA P L).
  assert (EC : eC e = P) by (unfold e; destruct sw; reflexivity).
  assert (INL : exists l, In l L) by (destruct L as [|l]; [congruence|exists l; simpl; auto]).
  assert (NC : NoDup (eC e)) by (rewrite EC; auto).
  assert (LAB : py_linksAB e = L).
  { unfold py_linksAB. rewrite py_intersect_nodup by (unfold e; destruct sw; auto).
    unfold e, gemv_ein. destruct sw; cbn [eA eB].
    - apply intersect_sub. intros. apply blk_in. auto.
    - apply intersect_blk; auto. }
  assert (LU : py_link_unique e = L).
  { unfold py_link_unique. rewrite LAB, EC, difference_disj, unique_id; auto. }
  assert (EU : C_unique e = P) by (unfold C_unique; rewrite EC; apply unique_id; auto).
  assert (LM : find_type_with_position L (blk tA P L) = combine L (seq sL (length L))) by (apply ftwp_snd; auto).
  assert (LV : find_type_with_position L L = combine L (seq 0 (length L))) by (apply ftwp_all; auto).
  assert (TM : find_type_with_position P (blk tA P L) = combine P (seq sP (length P))) by (apply ftwp_fst; auto).
  assert (TV : find_type_with_position P L = []) by (apply ftwp_none; auto).
  assert (CM : find_type_with_position (blk tA P L) P = combine P (seq 0 (length P))).
  { rewrite ftwp_blk2 by (apply ftwp_none; auto). apply ftwp_all; auto. }
  assert (CV : find_type_with_position L P = []) by (apply ftwp_none; auto).
  assert (TC : target_position_in_C e = combine P (seq 0 (length P))).
  { unfold target_position_in_C. rewrite EU, EC. apply ftwp_all; auto. }
  unfold py_algorithm.
  assert (D0 : py_dot_product e = false).
  { unfold py_dot_product. rewrite EC. destruct P; [congruence|]. reflexivity. }
  rewrite D0.
  assert (D1 : py_element_wise e = false).
  { unfold py_element_wise. destruct INL as (l & Hl).
    assert (G : forall X, In l X -> same_indices X (eC e) = false).
    { intros X Hi. unfold same_indices. destruct (list_eq_dec _ _ _) as [E|]; auto. exfalso. rewrite E, EC in Hi. eapply DLP; eauto. }
    rewrite (G (eA e)); auto. unfold e, gemv_ein. destruct sw; cbn [eA]; auto. apply blk_in. auto. }
  rewrite D1.
  assert (D2 : py_outer_product e = false).
  { unfold py_outer_product. rewrite LAB. destruct L; [congruence|]. reflexivity. }
  rewrite D2.
  assert (NH : no_hadamard e = true) by (apply no_hadamard_ok; auto; unfold e; destruct sw; auto).
  assert (LL : py_link_in_A e = (if sw then combine L (seq 0 (length L)) else combine L (seq sL (length L))) /\
               py_link_in_B e = (if sw then combine L (seq sL (length L)) else combine L (seq 0 (length L))) /\
               target_position_in_A e = (if sw then [] else combine P (seq sP (length P))) /\
               target_position_in_B e = (if sw then combine P (seq sP (length P)) else []) /\
               A_target_position_in_C e = (if sw then [] else combine P (seq 0 (length P))) /\
               B_target_position_in_C e = (if sw then combine P (seq 0 (length P)) else [])).
  { unfold py_link_in_A, py_link_in_B, target_position_in_A, target_position_in_B, A_target_position_in_C, B_target_position_in_C.
    rewrite LU, EU. unfold e, gemv_ein. destruct sw; cbn [eA eB eC]; auto 10. }
  destruct LL as (LA & LB & TA & TB & CA & CB).
  assert (D3 : py_gemv_AB_possible e = negb sw).
  { unfold py_gemv_AB_possible. rewrite LA, LB, TA, TB, CA, CB, NH. destruct sw; cbn [negb].
    - rewrite !contig_combine, same_order_combine by auto. reflexivity.
    - rewrite !contig_combine, !same_order_combine by auto. reflexivity. }
  assert (D4 : py_gemv_BA_possible e = sw).
  { unfold py_gemv_BA_possible. rewrite LA, LB, TA, TB, CA, CB, NH. destruct sw.
    - rewrite !contig_combine, !same_order_combine by auto. reflexivity.
    - rewrite !contig_combine, same_order_combine by auto. reflexivity. }
  rewrite D3, D4. replace (negb sw || sw) with true by (destruct sw; reflexivity).
  replace (sw && negb (negb sw)) with sw by (destruct sw; reflexivity).
  rewrite LA, LB, TA, TB, CA, CB, TC.
  assert (F : Nat.eqb sL 0 = tA) by (unfold sL; destruct tA; auto; destruct P; [congruence|reflexivity]).
  destruct sw; rewrite !max_combine, !front_combine by auto; cbn [bind]; rewrite !distinct_combine, F; reflexivity.
Qed.

(** ** Products of matrices made of blocks of labels *)
Lemma vat_stride : forall (ext : nat -> Z) d X Y, rowmaj d -> ddims d = map ext (X ++ Y) -> X <> [] ->
  vat (dstrides d) (length X - 1) = Ok (vol ext Y).
Proof.
  intros ext d X Y HR Hd HX. unfold vat. rewrite HR, Hd.
  assert (HL : (0 < length X)%nat) by (destruct X; [congruence|simpl; lia]).
  rewrite (nth_error_nth' _ 0) by (rewrite rms_length, map_length, app_length; lia).
  rewrite rms_nth by (rewrite map_length, app_length; lia). unfold vol. do 2 f_equal.
  replace (S (length X - 1)) with (length (map ext X)) by (rewrite map_length; lia).
  rewrite map_app, skipn_app, skipn_all, Nat.sub_diag. reflexivity.
Qed.

Section Cores.
  Context {O : Ops} (HR : is_ring O).
  Notation T := (car O).
  Add Ring OR4 : (ir_rt O HR).
  Variables (ext : nat -> Z) (A B C : desc) (a b c : list Z -> T) (cp ab : T) (h : heap T).
  Hypothesis Hext : forall l, 0 <= ext l.
  Hypothesis RA : rowmaj A.
  Hypothesis RB : rowmaj B.
  Hypothesis RC : rowmaj C.
  Hypothesis HA : holds h A a.
  Hypothesis HB : holds h B b.
  Hypothesis HC : holds h C c.
  Hypothesis DA : disj C A.
  Hypothesis DB : disj C B.

  Notation v X := (vol ext X).
  Lemma pe : forall X, pos_ext ext X.
  Proof. intros X l _. apply Hext. Qed.

  (** The view of a two-block operand and its contents. *)
  Definition bview (t : bool) (d : desc) (P Q : list nat) : desc := if t then mview ext d Q P else mview ext d P Q.
  Definition bfun (t : bool) (f : list Z -> T) (P Q : list nat) : list Z -> T :=
    if t then mfun ext f Q P o0 else mfun ext f P Q o0.

  Lemma bview_holds : forall t d f P Q, rowmaj d -> ddims d = map ext (blk t P Q) -> holds h d f ->
    holds h (bview t d P Q) (bfun t f P Q).
  Proof. intros [] d f P Q Hr Hd Hh; apply mview_holds; auto; apply pe. Qed.
  Lemma bview_cell : forall t d P Q z, rowmaj d -> ddims d = map ext (blk t P Q) -> cell (bview t d P Q) z <-> cell d z.
  Proof. intros [] d P Q z Hr Hd; apply mview_cell; auto; apply pe. Qed.
  Lemma bview_mat : forall (t : bool) d P Q, if t then mat (bview t d P Q) (v Q) (v P) (v P) else mat (bview t d P Q) (v P) (v Q) (v Q).
  Proof. intros [] d P Q; apply mview_mat. Qed.

  Lemma gemm_core : forall (tA tB tC : bool) (P Q L : list nat), NoDup (P ++ Q ++ L) ->
    ddims A = map ext (blk tA P L) -> ddims B = map ext (blk tB L Q) -> ddims C = map ext (blk tC P Q) ->
    (0 < v L \/ cp = o1) ->
    exists h', (if negb tC
       then vgemm tA tB (v P) (v Q) (v L) ab (dbase A) (if tA then v P else v L) (dbase B) (if tB then v L else v Q)
                  cp (dbase C) (v Q) h
       else vgemm (negb tB) (negb tA) (v Q) (v P) (v L) ab (dbase B) (if tB then v L else v Q) (dbase A)
                  (if tA then v P else v L) cp (dbase C) (v P) h) = Ok h' /\
      (forall env, env_ok ext env (blk tC P Q) -> h' (addr C (map env (blk tC P Q))) =
         Some (oadd (omul cp (c (map env (blk tC P Q)))) (omul ab (einstein L (blk tA P L) (blk tB L Q) ext a b env)))) /\
      (forall z, ~ cell C z -> h' z = h z).
  Proof.
    intros tA tB tC P Q L HN HdA HdB HdC Hk. destruct (nodup3 _ _ _ HN) as (NPQ & NPL & NLQ).
    assert (DPL := nodup_disjl _ _ NPL). assert (DLQ := nodup_disjl _ _ NLQ). assert (NL := NoDup_app_r _ _ _ NPL).
    set (vA := bview tA A P L). set (vB := bview tB B L Q). set (vC := bview tC C P Q).
    set (fa := bfun tA a P L). set (fb := bfun tB b L Q). set (fc := bfun tC c P Q).
    assert (hA : holds h vA fa) by (apply bview_holds; auto).
    assert (hB : holds h vB fb) by (apply bview_holds; auto).
    assert (hC : holds h vC fc) by (apply bview_holds; auto).
    assert (cA : forall z, cell vA z <-> cell A z) by (intros; apply bview_cell; auto).
    assert (cB : forall z, cell vB z <-> cell B z) by (intros; apply bview_cell; auto).
    assert (cC : forall z, cell vC z <-> cell C z) by (intros; apply bview_cell; auto).
    assert (dA : disj vC vA) by (apply disj_cells; intros z H1 H2; apply cC in H1; apply cA in H2; apply (proj1 (disj_cells _ _) DA z); auto).
    assert (dB : disj vC vB) by (apply disj_cells; intros z H1 H2; apply cC in H1; apply cB in H2; apply (proj1 (disj_cells _ _) DB z); auto).
    assert (vP := vol_nonneg ext P (pe P)). assert (vQ := vol_nonneg ext Q (pe Q)). assert (vL := vol_nonneg ext L (pe L)).
    set (u := fun (env : nat -> Z) (ix : list Z) => a (if tA then ix ++ map env P else map env P ++ ix)).
    set (w := fun (env : nat -> Z) (ix : list Z) => b (if tB then map env Q ++ ix else ix ++ map env Q)).
    assert (ES : forall env, einstein L (blk tA P L) (blk tB L Q) ext a b env
                = zsum (v L) (fun p => omul (u env (st ext L p)) (w env (st ext L p)))).
    { intros env. apply (einstein_flat HR ext L _ _ a b env (u env) (w env) (pe L)).
      - intros ix Hix. apply inb_length in Hix. rewrite map_length in Hix. unfold u, blk. f_equal.
        destruct tA; rewrite map_app, upds_map, map_upds_other; auto; intros l Hl Hl2; eapply DPL; eauto.
      - intros ix Hix. apply inb_length in Hix. rewrite map_length in Hix. unfold w, blk. f_equal.
        destruct tB; rewrite map_app, upds_map, map_upds_other; auto; intros l Hl Hl2; eapply DLQ; eauto. }
    destruct (Z.eq_dec (v L) 0) as [E0|E0].
    { exists h. split; [|split; auto].
      - rewrite E0. unfold vgemm. rewrite !orb_true_r. destruct tC; reflexivity.
      - intros env He. rewrite HC by (rewrite HdC; apply inb_map_env; auto). destruct Hk as [Hk|Hk]; [lia|]. subst cp. f_equal.
        rewrite ES, E0. unfold zsum. simpl. ring. }
    assert (XC : forall env, env_ok ext env (blk tC P Q) -> env_ok ext env P /\ env_ok ext env Q /\
         addr C (map env (blk tC P Q)) = addr vC (if tC then [fl ext Q env; fl ext P env] else [fl ext P env; fl ext Q env]) /\
         c (map env (blk tC P Q)) = fc (if tC then [fl ext Q env; fl ext P env] else [fl ext P env; fl ext Q env])).
    { intros env He. unfold vC, fc, bview, bfun, blk in *. destruct tC; assert (He' := He); apply env_ok_app in He' as (H1 & H2).
      all: split; auto; split; auto; split; [symmetry; apply mview_env; auto|simpl; rewrite !st_fl by auto; now rewrite map_app]. }
    assert (Fa : forall env p, env_ok ext env P -> fa (opi tA (fl ext P env) p) = u env (st ext L p)).
    { intros env p He. unfold fa, bfun, opi, u. destruct tA; simpl; rewrite !st_fl by auto; reflexivity. }
    assert (Fb : forall env p, env_ok ext env Q -> fb (opi tB p (fl ext Q env)) = w env (st ext L p)).
    { intros env p He. unfold fb, bfun, opi, w. destruct tB; simpl; rewrite !st_fl by auto; reflexivity. }
    assert (VAL : forall s x, updv ab cp (opsum ab s) x = oadd (omul cp x) (omul ab s)).
    { intros. rewrite (updv_ring HR). ring. }
    assert (MA := bview_mat tA A P L). assert (MB := bview_mat tB B L Q). assert (MC := bview_mat tC C P Q).
    fold vA in MA. fold vB in MB. fold vC in MC.
    destruct tC; cbn [negb].
    - destruct (la_gemm_nolaw (negb tB) (negb tA) ab cp vB vA vC (v Q) (v P) (v L) (if tB then v L else v Q) (if tA then v P else v L)
         (v P) fb fa fc h) as (h' & E & H1 & H2); auto; try lia.
      { destruct tB; auto. } { destruct tA; auto. }
      exists h'. split; [|split].
      + rewrite <- E. unfold la_gemm. f_equal; unfold vA, vB, vC, bview; destruct tA, tB; reflexivity.
      + intros env He. destruct (XC env He) as (HeP & HeQ & -> & ->). rewrite H1 by (apply fl_range; auto).
        rewrite VAL, ES, (sumv_zsum HR). do 3 f_equal. apply zsum_ext. intros p Hp.
        rewrite <- Fa, <- Fb by auto. f_equal; f_equal; unfold opi; [destruct tA|destruct tB]; reflexivity.
      + intros z Hz. apply H2. rewrite cC. auto.
    - destruct (la_gemm_nolaw tA tB ab cp vA vB vC (v P) (v Q) (v L) (if tA then v P else v L) (if tB then v L else v Q)
         (v Q) fa fb fc h) as (h' & E & H1 & H2); auto; try lia.
      { destruct tA; auto. } { destruct tB; auto. }
      exists h'. split; [|split].
      + rewrite <- E. unfold la_gemm. f_equal; unfold vA, vB, vC, bview; destruct tA, tB; reflexivity.
      + intros env He. destruct (XC env He) as (HeP & HeQ & -> & ->). rewrite H1 by (apply fl_range; auto).
        rewrite VAL, ES, (sumv_zsum HR). do 3 f_equal. apply zsum_ext. intros p Hp.
        rewrite <- Fa, <- Fb by auto. apply (omul_comm HR).
      + intros z Hz. apply H2. rewrite cC. auto.
  Qed.

  Lemma gemv_core : forall (tA : bool) (P L : list nat), NoDup (P ++ L) ->
    ddims A = map ext (blk tA P L) -> ddims B = map ext L -> ddims C = map ext P -> (0 < v L \/ cp = o1) ->
    exists h', vgemv tA (if tA then v L else v P) (if tA then v P else v L) ab (dbase A) (if tA then v P else v L)
                     (dbase B) 1 cp (dbase C) 1 h = Ok h' /\
      (forall env, env_ok ext env P -> h' (addr C (map env P)) =
         Some (oadd (omul cp (c (map env P))) (omul ab (einstein L (blk tA P L) L ext a b env)))) /\
      (forall z, ~ cell C z -> h' z = h z).
  Proof.
    intros tA P L NPL HdA HdB HdC Hk.
    assert (DPL := nodup_disjl _ _ NPL). assert (NL := NoDup_app_r _ _ _ NPL).
    set (vA := bview tA A P L). set (fa := bfun tA a P L).
    assert (hA : holds h vA fa) by (apply bview_holds; auto).
    assert (hB : holds h (vview ext B L) (vfun ext b L o0)) by (apply vview_holds; auto; apply pe).
    assert (hC : holds h (vview ext C P) (vfun ext c P o0)) by (apply vview_holds; auto; apply pe).
    assert (cA : forall z, cell vA z <-> cell A z) by (intros; apply bview_cell; auto).
    assert (cB : forall z, cell (vview ext B L) z <-> cell B z) by (intros; apply vview_cell; auto; apply pe).
    assert (cC : forall z, cell (vview ext C P) z <-> cell C z) by (intros; apply vview_cell; auto; apply pe).
    assert (vP := vol_nonneg ext P (pe P)). assert (vL := vol_nonneg ext L (pe L)).
    set (u := fun (env : nat -> Z) (ix : list Z) => a (if tA then ix ++ map env P else map env P ++ ix)).
    assert (ES : forall env, einstein L (blk tA P L) L ext a b env
                = zsum (v L) (fun p => omul (u env (st ext L p)) (b (st ext L p)))).
    { intros env. apply (einstein_flat HR ext L _ _ a b env (u env) b (pe L)).
      - intros ix Hix. apply inb_length in Hix. rewrite map_length in Hix. unfold u, blk. f_equal.
        destruct tA; rewrite map_app, upds_map, map_upds_other; auto; intros l Hl Hl2; eapply DPL; eauto.
      - intros ix Hix. apply inb_length in Hix. rewrite map_length in Hix. rewrite upds_map; auto. }
    destruct (Z.eq_dec (v L) 0) as [E0|E0].
    { exists h. split; [|split; auto].
      - rewrite E0. unfold vgemv. destruct tA; rewrite ?orb_true_r; reflexivity.
      - intros env He. rewrite HC by (rewrite HdC; apply inb_map_env; auto). destruct Hk as [Hk|Hk]; [lia|]. subst cp. f_equal.
        rewrite ES, E0. unfold zsum. simpl. ring. }
    destruct (Z.eq_dec (v P) 0) as [E1|E1].
    { exists h. split; [|split; auto].
      - rewrite E1. unfold vgemv. destruct tA; rewrite ?orb_true_r; reflexivity.
      - intros env He. exfalso. assert (Er := fl_range ext P env He). lia. }
    destruct (la_gemv_nolaw tA ab cp vA (vview ext B L) (vview ext C P) (if tA then v L else v P) (if tA then v P else v L)
        (if tA then v P else v L) 1 1 fa (vfun ext b L o0) (vfun ext c P o0) h) as (h' & E & H1 & H2); auto.
    { destruct tA; lia. } { destruct tA; lia. }
    { assert (M := bview_mat tA A P L). fold vA in M. destruct tA; auto. }
    { destruct tA; apply vview_vect. } { destruct tA; apply vview_vect. }
    { apply disj_cells; intros z Z1 Z2; apply cC in Z1; apply cA in Z2; apply (proj1 (disj_cells _ _) DA z); auto. }
    { apply disj_cells; intros z Z1 Z2; apply cC in Z1; apply cB in Z2; apply (proj1 (disj_cells _ _) DB z); auto. }
    exists h'. split; [|split].
    - rewrite <- E. unfold la_gemv. f_equal; unfold vA, bview; destruct tA; reflexivity.
    - intros env He. assert (Er := fl_range ext P env He).
      rewrite <- (vview_env ext C P env RC HdC He), H1 by (destruct tA; auto). f_equal. rewrite (updv_ring HR).
      rewrite ES, (sumv_zsum HR). cbn [vfun]. rewrite st_fl by auto.
      assert (Ek : (if tA then (if tA then v L else v P) else (if tA then v P else v L)) = v L) by (destruct tA; auto).
      rewrite Ek.
      replace (zsum (v L) (fun l => omul (fa (opi tA (fl ext P env) l)) (b (st ext L l))))
        with (zsum (v L) (fun p => omul (u env (st ext L p)) (b (st ext L p)))); [ring|].
      apply zsum_ext. intros p Hp. f_equal. unfold fa, bfun, opi, u. destruct tA; simpl; rewrite !st_fl by auto; reflexivity.
    - intros z Hz. apply H2. rewrite cC. auto.
  Qed.

  (** C = X outer Y, with C = (P, Q). *)
  Lemma ger_core : forall (P Q : list nat) X Y x y c1, rowmaj X -> rowmaj Y -> ddims C = map ext (P ++ Q) -> ddims X = map ext P ->
    ddims Y = map ext Q -> 0 < v Q -> forall h1, holds h1 C c1 -> holds h1 X x -> holds h1 Y y -> disj C X -> disj C Y ->
    exists h', vger (v P) (v Q) ab (dbase X) 1 (dbase Y) 1 (dbase C) (v Q) h1 = Ok h' /\
      (forall env, env_ok ext env (P ++ Q) -> h' (addr C (map env (P ++ Q))) =
         Some (oadd (c1 (map env (P ++ Q))) (omul ab (omul (x (map env P)) (y (map env Q)))))) /\
      (forall z, ~ cell C z -> h' z = h1 z).
  Proof.
    intros P Q X Y x y c1 RX RY HdC HdX HdY Hv h1 HC1 HX1 HY1 DX DY.
    assert (vP := vol_nonneg ext P (pe P)).
    assert (cX : forall z, cell (vview ext X P) z <-> cell X z) by (intros; apply vview_cell; auto; apply pe).
    assert (cY : forall z, cell (vview ext Y Q) z <-> cell Y z) by (intros; apply vview_cell; auto; apply pe).
    assert (cC : forall z, cell (mview ext C P Q) z <-> cell C z) by (intros; apply mview_cell; auto; apply pe).
    destruct (C20_ger O HR ab (vview ext X P) (vview ext Y Q) (mview ext C P Q) (v P) (v Q) (v Q) 1 1
      (mfun ext c1 P Q o0) (vfun ext x P o0) (vfun ext y Q o0) h1) as (h' & E & H1 & H2); auto; try lia.
    { apply mview_mat. } { apply vview_vect. } { apply vview_vect. }
    { apply mview_holds; auto; apply pe. } { apply vview_holds; auto; apply pe. } { apply vview_holds; auto; apply pe. }
    { apply disj_cells; intros z Z1 Z2; apply cC in Z1; apply cX in Z2; apply (proj1 (disj_cells _ _) DX z); auto. }
    { apply disj_cells; intros z Z1 Z2; apply cC in Z1; apply cY in Z2; apply (proj1 (disj_cells _ _) DY z); auto. }
    exists h'. split; auto. split.
    - intros env He. assert (He' := He). apply env_ok_app in He' as (HeP & HeQ).
      rewrite <- (mview_env ext C P Q env RC HdC He).
      rewrite H1 by (apply fl_range; auto). simpl mfun. simpl vfun. rewrite !st_fl by auto. rewrite map_app. reflexivity.
    - intros z Hz. rewrite H2 by (rewrite cC; auto). auto.
  Qed.
End Cores.

(** ** Execution of the plans *)
Lemma sp_fst : forall (ext : nat -> Z) (t : bool) (P Q : list nat),
  shape_prod (map ext (blk t P Q)) (seq (if t then length Q else 0%nat) (length P)) 1 = Ok (vol ext P).
Proof. intros ext [] P Q; unfold blk; [rewrite shape_prod_last|rewrite shape_prod_first]; unfold vol; f_equal; lia. Qed.
Lemma sp_snd : forall (ext : nat -> Z) (t : bool) (P Q : list nat),
  shape_prod (map ext (blk t P Q)) (seq (if t then 0%nat else length P) (length Q)) 1 = Ok (vol ext Q).
Proof. intros ext [] P Q; unfold blk; [rewrite shape_prod_first|rewrite shape_prod_last]; unfold vol; f_equal; lia. Qed.

Lemma firstn_seq : forall n s m, (n <= m)%nat -> firstn n (seq s m) = seq s n.
Proof. induction n as [|n IH]; intros s [|m] H; simpl; auto; [lia|]. f_equal. apply IH. lia. Qed.

Lemma sp_at : forall (ext : nat -> Z) (pre L post : list nat) n, (n <= length L)%nat ->
  shape_prod_at (map ext (pre ++ L ++ post)) (seq (length pre) (length L)) (seq 0 n) 1 = Ok (vol ext (firstn n L)).
Proof.
  intros ext pre L post n Hn. rewrite (shape_prod_at_eq ext) by (rewrite seq_length; auto). rewrite firstn_seq by auto.
  rewrite <- (firstn_skipn n L) at 1. rewrite <- app_assoc.
  replace n with (length (firstn n L)) at 3 by (rewrite firstn_length; lia).
  rewrite shape_prod_block. unfold vol. f_equal. lia.
Qed.
Lemma sp_at_fst : forall (ext : nat -> Z) (t : bool) (P Q : list nat) n, (n <= length P)%nat ->
  shape_prod_at (map ext (blk t P Q)) (seq (if t then length Q else 0%nat) (length P)) (seq 0 n) 1 = Ok (vol ext (firstn n P)).
Proof.
  intros ext [] P Q n Hn; unfold blk.
  - assert (E := sp_at ext Q P [] n Hn). rewrite app_nil_r in E. auto.
  - apply (sp_at ext [] P Q n Hn).
Qed.
Lemma sp_at_snd : forall (ext : nat -> Z) (t : bool) (P Q : list nat) n, (n <= length Q)%nat ->
  shape_prod_at (map ext (blk t P Q)) (seq (if t then 0%nat else length P) (length Q)) (seq 0 n) 1 = Ok (vol ext (firstn n Q)).
Proof.
  intros ext [] P Q n Hn; unfold blk.
  - apply (sp_at ext [] Q P n Hn).
  - assert (E := sp_at ext P Q [] n Hn). rewrite app_nil_r in E. auto.
Qed.

Lemma vat_fst : forall (ext : nat -> Z) d (t : bool) (P Q : list nat), rowmaj d -> ddims d = map ext (blk t P Q) -> P <> [] ->
  vat (dstrides d) ((if t then length Q else 0) + length P - 1) = Ok (if t then 1 else vol ext Q).
Proof.
  intros ext d [] P Q HR Hd HP; unfold blk in Hd.
  - rewrite <- app_length. assert (E := vat_stride ext d (Q ++ P) [] HR). rewrite app_nil_r in E. apply E; auto.
    destruct Q; simpl; [auto|discriminate].
  - simpl. apply vat_stride; auto.
Qed.
Lemma vat_snd : forall (ext : nat -> Z) d (t : bool) (P Q : list nat), rowmaj d -> ddims d = map ext (blk t P Q) -> Q <> [] ->
  vat (dstrides d) ((if t then 0 else length P) + length Q - 1) = Ok (if t then vol ext P else 1).
Proof.
  intros ext d [] P Q HR Hd HP; unfold blk in Hd.
  - simpl. apply vat_stride; auto.
  - rewrite <- app_length. assert (E := vat_stride ext d (P ++ Q) [] HR). rewrite app_nil_r in E. apply E; auto.
    destruct P; simpl; [auto|discriminate].
Qed.

Section PlansOk.
  Context {O : Ops} (HR : is_ring O).
  Notation T := (car O).
  Add Ring OR5 : (ir_rt O HR).

  Lemma gemm_plan_ok : forall k sz (cp ab : T) (tA tB tC : bool) (P Q L L' : list nat) ext A B C a b c h,
    NoDup (P ++ Q ++ L) -> P <> [] -> Q <> [] -> L <> [] ->
    py_contiguous A = true -> py_contiguous B = true -> py_contiguous C = true ->
    (length P <= length L)%nat -> vol ext (firstn (length P) L) = vol ext L -> (tA = true -> vol ext P = vol ext L) ->
    (length Q <= length L)%nat -> (tB = true -> vol ext (firstn (length Q) L) = vol ext Q) ->
    (0 < vol ext L \/ cp = o1) ->
    py_call h ext (blk tC P Q) (blk tA P L) (blk tB L Q) L' A B C a b c ->
    py_runs k (py_einsum (gemm_ein tA tB tC P Q L) sz cp C ab A B) h
      (py_result ext (blk tC P Q) (blk tA P L) (blk tB L Q) L' cp ab C a b c h).
  Proof.
    intros k sz cp ab tA tB tC P Q L L' ext A B C a b c h HN HP HQ HL CA CB CC H1 H2 H3 H4 H5 Hk
      ((HLn & HLc) & Hx & HdA & HdB & HdC & HA & HB & HC & HI & DA & DB).
    unfold consistent in *. unfold py_einsum. rewrite plan_gemm by auto. cbn [bind]. unfold py_execute. rewrite CA, CB, CC. cbn [andb].
    apply contiguous_rm in CA, CB, CC.
    destruct (nodup3 _ _ _ HN) as (NPQ & NPL & NLQ).
    assert (DPQ := nodup_disjl _ _ NPQ). assert (DPL := nodup_disjl _ _ NPL). assert (DLQ := nodup_disjl _ _ NLQ).
    unfold py_gemm. rewrite HdC, sp_fst, HdA, !seq_length. cbn [bind]. rewrite sp_at_snd by auto. cbn [bind].
    rewrite (vat_fst ext A tA P L) by auto. cbn [bind]. rewrite (vat_snd ext A tA P L) by auto. cbn [bind].
    rewrite sp_snd. cbn [bind]. rewrite HdB, sp_at_fst by auto. cbn [bind].
    rewrite (vat_snd ext B tB L Q) by auto. cbn [bind]. rewrite (vat_fst ext B tB L Q) by auto. cbn [bind].
    rewrite (vat_fst ext C tC P Q) by auto. cbn [bind]. rewrite (vat_snd ext C tC P Q) by auto. cbn [bind].
    eexists. split; [reflexivity|]. cbn [steps_spec].
    destruct (gemm_core HR ext A B C a b c cp ab h Hx CA CB CC HA HB HC DA DB tA tB tC P Q L HN HdA HdB HdC Hk) as (h' & E & R1 & R2).
    exists h'. split.
    - rewrite <- E. rewrite H2.
      replace (if tA then vol ext L else vol ext P) with (vol ext P) by (destruct tA; auto).
      replace (if tA then vol ext P else vol ext L) with (vol ext L) at 1 by (destruct tA; auto; symmetry; auto).
      replace (if tB then vol ext (firstn (length Q) L) else vol ext Q) with (vol ext Q) by (destruct tB; auto; symmetry; auto).
      replace (if tA then if tA then vol ext P else 1 else if tA then 1 else vol ext L) with (if tA then vol ext P else vol ext L)
        by (destruct tA; auto).
      replace (if tB then if tB then vol ext L else 1 else if tB then 1 else vol ext Q) with (if tB then vol ext L else vol ext Q)
        by (destruct tB; auto).
      destruct tC; cbn [negb]; f_equal; destruct tA; auto; symmetry; auto.
    - apply result_nodup; auto.
      + apply blk_nodup; auto.
      + intros env He. rewrite R1 by auto. do 3 f_equal. apply (einstein_perm HR); [eapply NoDup_app_r; exact NPL|].
        apply NoDup_Permutation; [eapply NoDup_app_r; exact NPL|auto|]. intros l. rewrite HLc, !blk_in. split; [|intuition].
        intros Hl. split; auto. intros [Hl2|Hl2]; [eapply DPL|eapply DLQ]; eauto.
  Qed.

  Lemma gemv_plan_ok : forall k sz (cp ab : T) (sw tA : bool) (P L L' : list nat) ext A B C a b c h,
    NoDup (P ++ L) -> P <> [] -> L <> [] ->
    py_contiguous A = true -> py_contiguous B = true -> py_contiguous C = true ->
    (length P <= length L)%nat -> vol ext (firstn (length P) L) = vol ext L ->
    (0 < vol ext L \/ cp = o1) ->
    let e := gemv_ein sw tA P L in
    py_call h ext (eC e) (eA e) (eB e) L' A B C a b c ->
    py_runs k (py_einsum e sz cp C ab A B) h (py_result ext (eC e) (eA e) (eB e) L' cp ab C a b c h).
  Proof.
    intros k sz cp ab sw tA P L L' ext A B C a b c h HN HP HL CA CB CC H1 H2 Hk e
      ((HLn & HLc) & Hx & HdA & HdB & HdC & HA & HB & HC & HI & DA & DB).
    assert (EC : eC e = P) by (unfold e; destruct sw; reflexivity).
    assert (DPL := nodup_disjl _ _ HN).
    unfold consistent in *. unfold py_einsum. unfold e at 1. rewrite plan_gemv by auto. cbn [bind]. unfold py_execute.
    rewrite CA, CB, CC. cbn [andb]. apply contiguous_rm in CA, CB, CC.
    rewrite EC in *.
    assert (PL : forall Ai Bi, (forall l, In l Ai <-> In l P \/ In l L) -> (forall l, In l Bi <-> In l L) ->
      (forall l, In l L' <-> (In l Ai \/ In l Bi) /\ ~ In l P) -> Permutation L L').
    { intros Ai Bi HAi HBi Hc. apply NoDup_Permutation; [eapply NoDup_app_r; exact HN|auto|]. intros l. rewrite Hc, HAi, HBi.
      split; [|intuition]. intros Hl. split; auto. intros Hl2. eapply DPL; eauto. }
    assert (G : forall (M V : desc) m w Ai Bi, ddims M = map ext (blk tA P L) -> ddims V = map ext L -> rowmaj M -> rowmaj V ->
      holds h M m -> holds h V w -> disj C M -> disj C V ->
      (forall env, einstein L' Ai Bi ext a b env = einstein L (blk tA P L) L ext m w env) ->
      py_runs k (
        d0 <- shape_prod (ddims C) (seq 0 (length P)) 1;;
        d1 <- shape_prod_at (ddims M) (seq (if tA then 0%nat else length P) (length L)) (seq 0 (length (seq 0 (length P)))) 1;;
        s0 <- vat (dstrides M) ((if tA then length L else 0) + length P - 1);;
        s1 <- vat (dstrides M) ((if tA then 0 else length P) + length L - 1);;
        dB <- shape_prod (ddims V) (seq 0 (length L)) 1;;
        sB <- vat (dstrides V) (length L - 1);;
        sC <- vat (dstrides C) (length P - 1);;
        Ok [PySeq (vgemv tA (if tA then d1 else d0) (if tA then d0 else d1) ab (dbase M) (if tA then s1 else s0)
              (dbase V) sB cp (dbase C) sC)]) h (py_result ext P Ai Bi L' cp ab C a b c h)).
    { intros M V m w Ai Bi HdM HdV RM RV HM HV DM DV HE.
      assert (S1 : forall X, shape_prod (map ext X) (seq 0 (length X)) 1 = Ok (vol ext X)).
      { intros X. assert (E := sp_fst ext false X []). unfold blk in E. rewrite app_nil_r in E. auto. }
      assert (S2 : forall d X, rowmaj d -> ddims d = map ext X -> X <> [] -> vat (dstrides d) (length X - 1) = Ok 1).
      { intros d X Hr Hd HX. assert (E := vat_fst ext d false X []). unfold blk in E. rewrite app_nil_r in E. apply E; auto. }
      rewrite HdC, S1. cbn [bind]. rewrite HdM, seq_length, sp_at_snd by auto. cbn [bind].
      rewrite (vat_fst ext M tA P L) by auto. cbn [bind]. rewrite (vat_snd ext M tA P L) by auto. cbn [bind].
      rewrite HdV, S1. cbn [bind]. rewrite S2 by auto. cbn [bind]. rewrite S2 by auto. cbn [bind].
      eexists. split; [reflexivity|]. cbn [steps_spec].
      destruct (gemv_core HR ext M V C m w c cp ab h Hx RM RV CC HM HV HC DM DV tA P L HN HdM HdV HdC Hk) as (h' & E & R1 & R2).
      exists h'. split.
      - rewrite <- E, H2. f_equal; destruct tA; reflexivity.
      - apply result_nodup; auto.
        + eapply NoDup_app_l; exact HN.
        + intros env He. rewrite R1, HE by auto. reflexivity. }
    unfold py_gemv. unfold e, gemv_ein in *. destruct sw; cbn [eA eB eC] in *.
    - apply (G B A b a); auto. intros env.
      assert (HP' : Permutation L L').
      { apply (PL (blk tA P L) L); [intros; apply blk_in|tauto|]. intros l. rewrite HLc. tauto. }
      rewrite <- (einstein_perm HR ext L L') by (auto; eapply NoDup_app_r; exact HN).
      unfold einstein. apply Sum_over_ext; auto; [apply einstein_proper|]. intros. apply (omul_comm HR).
    - apply (G A B a b); auto. intros env.
      assert (HP' : Permutation L L').
      { apply (PL (blk tA P L) L); [intros; apply blk_in|tauto|]. intros l. rewrite HLc. tauto. }
      rewrite <- (einstein_perm HR ext L L') by (auto; eapply NoDup_app_r; exact HN). reflexivity.
  Qed.

  Lemma zero_fill : forall C (c : list Z -> T) (h : heap T), rowmaj C -> nonneg (ddims C) -> holds h C c ->
    exists h1, exec (pseq (zrange (zprod (ddims C))) (fun i => PWr (dbase C + i) o0 (PRet tt))) h = Ok h1 /\
      holds h1 C (fun _ => o0) /\ (forall z, ~ cell C z -> h1 z = h z).
  Proof.
    intros C c h RC NN HC.
    destruct (exec_tasks Z O (zrange (zprod (ddims C))) (fun i => dbase C + i) (fun _ => Some o0)
      (fun i => PWr (dbase C + i) o0 (PRet tt)) h) as (h1 & E & H1 & H2).
    - apply FinFun.Injective_map_NoDup; [intros x y; lia|apply zrange_NoDup].
    - intros i g Hi Hg. assert (Hc : g (dbase C + i) = h (dbase C + i)) by (apply Hg; auto).
      assert (F := rowmaj_holds_flat T h C c RC NN HC i ltac:(now apply zrange_in)). rewrite Z.mul_1_r in F.
      cbn [psafe run]. rewrite Hc, F. split; [split; auto; split; [eauto|auto]|].
      eexists. split; [reflexivity|]. cbv beta. now rewrite upd_same.
    - exists h1. split; auto. split.
      + intros idx Hi. destruct (rowmaj_addr_flat C idx RC Hi) as (Hr & Ea). rewrite Ea, Z.mul_1_r. apply H1. now apply zrange_in.
      + intros z Hz. apply H2. intros Ho. apply Hz. apply rowmaj_cell; auto. apply in_map_iff in Ho as (i & <- & Hi).
        exists i. apply zrange_in in Hi. split; auto. lia.
  Qed.

  Lemma ger_plan_ok : forall k sz (cp ab : T) (sw : bool) (P Q L : list nat) ext A B C a b c h,
    NoDup (P ++ Q) -> P <> [] ->
    py_contiguous A = true -> py_contiguous B = true -> py_contiguous C = true ->
    (cp = o0 \/ cp = o1) -> 0 < vol ext (if sw then P else Q) ->
    py_call h ext (blk sw P Q) P Q L A B C a b c ->
    py_runs k (py_einsum (mkEin (blk sw P Q) P Q) sz cp C ab A B) h (py_result ext (blk sw P Q) P Q L cp ab C a b c h).
  Proof.
    intros k sz cp ab sw P Q L ext A B C a b c h HN HP CA CB CC Hcp Hv
      ((HLn & HLc) & Hx & HdA & HdB & HdC & HA & HB & HC & HI & DA & DB).
    assert (DPQ := nodup_disjl _ _ HN).
    assert (L = []).
    { destruct L as [|l L]; auto. exfalso. destruct (proj1 (HLc l) (or_introl eq_refl)) as (H1 & H2). apply H2, blk_in. auto. }
    subst L. unfold consistent in *.
    assert (NC : blk sw P Q <> []) by (destruct P; [congruence|]; destruct sw; unfold blk; [destruct Q|]; discriminate).
    assert (NN : nonneg (ddims C)) by (rewrite HdC; apply nonneg_map; auto).
    unfold py_einsum. change (blk sw P Q) with (if sw then Q ++ P else P ++ Q) at 1. rewrite plan_outer by auto.
    cbn [bind]. unfold py_execute.
    set (sw' := sw && negb (Nat.eqb (length Q) 0)).
    assert (Ealg : (if sw then PyGer (seq (length Q) (length P)) (seq 0 (length Q)) (negb (Nat.eqb (length Q) 0))
        else PyGer (seq 0 (length P)) (seq (length P) (length Q)) false)
        = PyGer (seq (if sw then length Q else 0) (length P)) (seq (if sw then 0 else length P) (length Q)) sw').
    { unfold sw'. destruct sw; reflexivity. }
    rewrite Ealg, CA, CB, CC. cbn [andb]. apply contiguous_rm in CA, CB, CC.
    assert (EC : blk sw P Q = blk sw' P Q).
    { unfold sw', blk. destruct sw; auto. destruct Q; cbn; auto. now rewrite app_nil_r. }
    assert (Hv' : 0 < vol ext (if sw' then P else Q)).
    { unfold sw'. destruct sw; auto. destruct Q; cbn [length Nat.eqb negb andb]; auto. unfold vol. simpl. lia. }
    unfold py_ger. rewrite HdC, sp_fst, sp_snd. cbn [bind]. rewrite <- HdC.
    assert (ET : exists d0 s0, nth_error (ddims C) 0 = Some d0 /\ nth_error (dstrides C) 0 = Some s0 /\ d0 * s0 = zprod (ddims C)).
    { rewrite CC, HdC. destruct (blk sw P Q) as [|l X]; [congruence|]. cbn [map]. rewrite rms_cons. exists (ext l), (zprod (map ext X)).
      repeat split; auto. }
    destruct ET as (d0 & s0 & E1 & E2 & E3).
    assert (PRE : exists pre, (if oeqb cp o0 then
              sh <- vat (ddims C) 0 ;; st <- vat (dstrides C) 0 ;;
              Ok [PySeq (exec (pseq (zrange (sh * st)) (fun i => PWr (dbase C + i) o0 (PRet tt))))]
            else if negb (oeqb cp o1) then
              sh <- vat (ddims C) 0 ;; st <- vat (dstrides C) 0 ;;
              Ok [PyFor (fun i => PRd (dbase C + i) (fun v => PWr (dbase C + i) (omul v cp) (PRet tt)))
                        (sh * (sz * st))]
            else Ok []) = Ok pre /\ forall R Qp,
            (forall h1, holds h1 C (fun i => omul cp (c i)) -> (forall z, ~ cell C z -> h1 z = h z) -> steps_spec k R h1 Qp) ->
            steps_spec k (pre ++ R) h Qp).
    { destruct (oeqb cp o0) eqn:Ec; [apply (ir_eqb O HR) in Ec; clear Hcp; rename Ec into Hcp|destruct Hcp as [Hcp|Hcp]; [apply (ir_eqb O HR) in Hcp; congruence|]]; subst cp.
      - unfold vat. rewrite E1, E2. cbn [bind].
        eexists. split; [reflexivity|]. intros R Qp HRp. cbn [app steps_spec]. rewrite E3.
        destruct (zero_fill C c h CC NN HC) as (h1 & Ez & Hz & Fz). exists h1. split; auto. apply HRp; auto.
        intros i Hi. rewrite Hz by auto. f_equal. ring.
      - replace (oeqb (@o1 O) o1) with true by (symmetry; now apply (ir_eqb O HR)). cbn [negb].
        eexists. split; [reflexivity|]. intros R Qp HRp. cbn [app]. apply HRp; auto. intros i Hi. rewrite HC by auto. f_equal. ring. }
    destruct PRE as (pre & -> & PRE). cbn [bind]. eexists. split; [reflexivity|]. apply PRE. intros h1 HC1 F1. cbn [steps_spec].
    assert (HA1 : holds h1 A a) by (intros i Hi; rewrite F1; auto; intros (j & Hj & E); apply (DA j i); auto).
    assert (HB1 : holds h1 B b) by (intros i Hi; rewrite F1; auto; intros (j & Hj & E); apply (DB j i); auto).
    assert (FIN : exists h', vger (if sw' then vol ext Q else vol ext P) (if sw' then vol ext P else vol ext Q) ab
        (if sw' then dbase B else dbase A) 1 (if sw' then dbase A else dbase B) 1 (dbase C) (if sw' then vol ext P else vol ext Q) h1 = Ok h' /\
      (forall env, env_ok ext env (blk sw' P Q) -> h' (addr C (map env (blk sw' P Q))) =
         Some (oadd (omul cp (c (map env (blk sw' P Q)))) (omul ab (omul (a (map env P)) (b (map env Q)))))) /\
      (forall z, ~ cell C z -> h' z = h z)).
    { rewrite EC in HdC. clearbody sw'. destruct sw'; unfold blk in HdC.
      - destruct (ger_core HR ext C ab Hx CC Q P B A b a _ CB CA HdC HdB HdA Hv' h1 HC1 HB1 HA1 DB DA)
          as (h' & E & R1 & R2).
        exists h'. split; auto. split.
        + intros env He. unfold blk. rewrite R1 by auto. do 3 f_equal. ring.
        + intros z Hz. rewrite R2; auto.
      - destruct (ger_core HR ext C ab Hx CC P Q A B a b _ CA CB HdC HdA HdB Hv' h1 HC1 HA1 HB1 DA DB)
          as (h' & E & R1 & R2).
        exists h'. split; auto. split; auto.
        intros z Hz. rewrite R2; auto. }
    destruct FIN as (h' & E & R1 & R2). exists h'. split; auto. apply result_nodup; auto.
    - apply blk_nodup; auto.
    - intros env He. rewrite EC in He |- *. rewrite R1 by auto. reflexivity.
  Qed.
End PlansOk.
