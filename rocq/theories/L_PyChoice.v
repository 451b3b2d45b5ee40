(** * L_PyChoice: index lists without block structure are compiled to the loop. *)
From Coq Require Import List ZArith Lia Bool Permutation.
From Verif Require Import Base Heap Conc M_Addr M_Einsum M_Blas M_Dispatch M_PyEinsum S_Einsum S_PyEinsum
  L_Einsum L_Dispatch L_Paths L_PyEinsum L_PyPlans L_PyBlas.
Import ListNotations.
Open Scope Z_scope.

Lemma one_block : forall X P ps, NoDup X -> Forall2 (at_pos X) P ps -> contiguous_positions ps = true -> P <> [] ->
  (forall l, In l X -> In l P) -> X = P.
Proof.
  intros X P ps HN HF HC HP HX. destruct (contig_block X P ps HF HC HP) as (pre & post & E & _). subst X.
  assert (D1 := nodup_disjl _ _ HN). assert (D2 := nodup_disjl _ _ (NoDup_app_r _ _ _ HN)).
  destruct pre as [|x pre].
  - destruct post as [|y post]; [now rewrite app_nil_r|]. exfalso. apply (D2 y); [|simpl; auto].
    apply HX. simpl. apply in_or_app. right. simpl. auto.
  - exfalso. apply (D1 x); [simpl; auto|]. apply in_or_app. left. apply HX. simpl. auto.
Qed.
Lemma pair_block : forall X P Q ps qs, NoDup X -> Forall2 (at_pos X) P ps -> Forall2 (at_pos X) Q qs ->
  contiguous_positions ps = true -> contiguous_positions qs = true -> P <> [] -> Q <> [] ->
  (forall l, In l X -> In l P \/ In l Q) -> (forall l, In l P -> In l Q -> False) -> exists t, X = blk t P Q.
Proof.
  intros X P Q ps qs HN HF HG CP CQ HP HQ HX HD.
  destruct (contig_block X P ps HF CP HP) as (pre1 & post1 & E1 & L1 & _).
  destruct (contig_block X Q qs HG CQ HQ) as (pre2 & post2 & E2 & L2 & _).
  destruct (two_blocks X P Q pre1 post1 pre2 post2 HN E1 E2 HP HQ HX HD) as (B1 & B2).
  destruct (Nat.eq_dec (length pre1) 0) as [E|E]; [exists false|exists true]; auto.
Qed.

Section Choice.
  Variable e : ein.
  Hypothesis HP : paired (eC e) (eA e) (eB e).
  Let NC : NoDup (eC e) := proj1 HP.
  Let NA : NoDup (eA e) := proj1 (proj2 HP).
  Let NB : NoDup (eB e) := proj1 (proj2 (proj2 HP)).
  Let HL := proj2 (proj2 (proj2 HP)).
  Let L := py_link_unique e.
  Let P := intersect (eC e) (eA e).
  Let Q := intersect (eC e) (eB e).

  Lemma in_L : forall l, In l L <-> In l (eA e) /\ In l (eB e).
  Proof.
    intros l. unfold L, py_link_unique, py_linksAB. rewrite in_unique, in_difference, py_intersect_nodup, in_intersect by auto.
    specialize (HL l). destruct HL as (H1 & H2 & H3). tauto.
  Qed.
  Lemma in_P : forall l, In l P <-> In l (eC e) /\ In l (eA e).
  Proof. intros. apply in_intersect. Qed.
  Lemma in_Q : forall l, In l Q <-> In l (eC e) /\ In l (eB e).
  Proof. intros. apply in_intersect. Qed.
  Lemma three : forall l, ~ (In l (eA e) /\ In l (eB e) /\ In l (eC e)).
  Proof. intros l (H1 & H2 & H3). destruct (HL l) as (H & _). apply H; auto. tauto. Qed.
  Lemma nodup_L : NoDup L.
  Proof. apply unique_NoDup. Qed.
  Lemma nodup_int : forall X Y : list nat, NoDup X -> NoDup (intersect X Y).
  Proof. intros. now apply NoDup_filter. Qed.

  Lemma pos_LA : Forall2 (at_pos (eA e)) L (py_link_in_A e).
  Proof.
    assert (H := ftwp_spec L (eA e) NA). rewrite intersect_sub in H; auto. intros l Hl. apply in_L in Hl. tauto.
  Qed.
  Lemma pos_LB : Forall2 (at_pos (eB e)) L (py_link_in_B e).
  Proof.
    assert (H := ftwp_spec L (eB e) NB). rewrite intersect_sub in H; auto. intros l Hl. apply in_L in Hl. tauto.
  Qed.
  Lemma pos_TA : Forall2 (at_pos (eA e)) P (target_position_in_A e).
  Proof. unfold target_position_in_A, C_unique. rewrite unique_id by auto. now apply ftwp_spec. Qed.
  Lemma pos_TB : Forall2 (at_pos (eB e)) Q (target_position_in_B e).
  Proof. unfold target_position_in_B, C_unique. rewrite unique_id by auto. now apply ftwp_spec. Qed.
  Lemma pos_CA : Forall2 (at_pos (eC e)) (intersect (eA e) (eC e)) (A_target_position_in_C e).
  Proof. now apply ftwp_spec. Qed.
  Lemma pos_CB : Forall2 (at_pos (eC e)) (intersect (eB e) (eC e)) (B_target_position_in_C e).
  Proof. now apply ftwp_spec. Qed.

  Lemma nodup_PQ : NoDup (P ++ Q).
  Proof. apply NoDup_app_disj; try now apply nodup_int. intros l H1 H2. apply in_P in H1. apply in_Q in H2. apply (three l). tauto. Qed.
  Lemma nodup_PL : NoDup (P ++ L).
  Proof. apply NoDup_app_disj; [now apply nodup_int|apply nodup_L|]. intros l H1 H2. apply in_P in H1. apply in_L in H2. apply (three l). tauto. Qed.
  Lemma nodup_QL : NoDup (Q ++ L).
  Proof. apply NoDup_app_disj; [now apply nodup_int|apply nodup_L|]. intros l H1 H2. apply in_Q in H1. apply in_L in H2. apply (three l). tauto. Qed.
  Lemma nodup_PQL : NoDup (P ++ Q ++ L).
  Proof.
    apply NoDup_app_disj; [now apply nodup_int|apply nodup_QL|]. intros l H1 H2. apply in_P in H1.
    apply in_app_iff in H2 as [H2|H2]; [apply in_Q in H2|apply in_L in H2]; apply (three l); tauto.
  Qed.

  Lemma A_split : forall l, In l (eA e) -> In l P \/ In l L.
  Proof.
    intros l Hl. rewrite in_P, in_L. destruct (HL l) as (H & _). specialize (H Hl).
    destruct (in_dec Nat.eq_dec l (eB e)); [tauto|]. destruct (in_dec Nat.eq_dec l (eC e)); tauto.
  Qed.
  Lemma B_split : forall l, In l (eB e) -> In l L \/ In l Q.
  Proof.
    intros l Hl. rewrite in_Q, in_L. destruct (HL l) as (_ & H & _). specialize (H Hl).
    destruct (in_dec Nat.eq_dec l (eA e)); [tauto|]. destruct (in_dec Nat.eq_dec l (eC e)); tauto.
  Qed.
  Lemma C_split : forall l, In l (eC e) -> In l P \/ In l Q.
  Proof.
    intros l Hl. rewrite in_P, in_Q. destruct (HL l) as (_ & _ & H). specialize (H Hl).
    destruct (in_dec Nat.eq_dec l (eA e)); [tauto|]. destruct (in_dec Nat.eq_dec l (eB e)); tauto.
  Qed.

  Lemma gemm_shape : py_gemm_possible e = true ->
    exists tA tB tC, P <> [] /\ Q <> [] /\ L <> [] /\ eC e = blk tC P Q /\ eA e = blk tA P L /\ eB e = blk tB L Q.
  Proof.
    intros H. unfold py_gemm_possible in H. rewrite !andb_true_iff in H.
    destruct H as (((((((((((_ & _) & C1) & C2) & C3) & C4) & C5) & C6) & O1) & O2) & O3) & _).
    destruct (same_ordering_eq _ _ _ _ _ _ O1 pos_LA pos_LB) as (_ & HLn).
    destruct (same_ordering_eq _ _ _ _ _ _ O2 pos_TA pos_CA) as (EP & HPn).
    destruct (same_ordering_eq _ _ _ _ _ _ O3 pos_TB pos_CB) as (EQ & HQn).
    assert (PA := pos_CA). rewrite <- EP in PA. assert (PB := pos_CB). rewrite <- EQ in PB.
    destruct (pair_block (eA e) P L _ _ NA pos_TA pos_LA C3 C1 HPn HLn A_split) as (tA & EA).
    { intros l H1 H2. exact (nodup_disjl _ _ nodup_PL l H1 H2). }
    destruct (pair_block (eB e) L Q _ _ NB pos_LB pos_TB C2 C4 HLn HQn B_split) as (tB & EB).
    { intros l H1 H2. exact (nodup_disjl _ _ nodup_QL l H2 H1). }
    destruct (pair_block (eC e) P Q _ _ NC PA PB C5 C6 HPn HQn C_split) as (tC & EC).
    { intros l H1 H2. exact (nodup_disjl _ _ nodup_PQ l H1 H2). }
    exists tA, tB, tC. repeat (split; auto).
  Qed.

  Lemma gemv_AB_shape : py_gemv_AB_possible e = true ->
    exists t, P <> [] /\ L <> [] /\ eC e = P /\ eA e = blk t P L /\ eB e = L.
  Proof.
    intros H. unfold py_gemv_AB_possible in H. rewrite !andb_true_iff in H.
    destruct H as (((((((C1 & C2) & C3) & O1) & O2) & _) & E0) & _).
    destruct (same_ordering_eq _ _ _ _ _ _ O1 pos_LA pos_LB) as (_ & HLn).
    destruct (same_ordering_eq _ _ _ _ _ _ O2 pos_TA pos_CA) as (EP & HPn).
    apply Nat.eqb_eq in E0. rewrite (at_pos_length _ _ _ pos_CB) in E0.
    assert (D : forall l, In l (eB e) -> ~ In l (eC e)).
    { intros l H1 H2. assert (Hi : In l (intersect (eB e) (eC e))) by (apply in_intersect; auto).
      destruct (intersect (eB e) (eC e)); [contradiction|discriminate]. }
    destruct (pair_block (eA e) P L _ _ NA pos_TA pos_LA C3 C1 HPn HLn A_split) as (t & EA).
    { intros l H1 H2. exact (nodup_disjl _ _ nodup_PL l H1 H2). }
    exists t. split; auto. split; auto. split; [|split; auto].
    - symmetry. apply intersect_sub. intros l Hl. destruct (C_split l Hl) as [H|H]; [apply in_P in H; tauto|].
      apply in_Q in H. exfalso. apply (D l); tauto.
    - apply (one_block _ _ _ NB pos_LB C2 HLn). intros l Hl. destruct (B_split l Hl) as [H|H]; auto.
      apply in_Q in H. exfalso. apply (D l); tauto.
  Qed.
  Lemma gemv_BA_shape : py_gemv_BA_possible e = true ->
    exists t, Q <> [] /\ L <> [] /\ eC e = Q /\ eA e = L /\ eB e = blk t Q L.
  Proof.
    intros H. unfold py_gemv_BA_possible in H. rewrite !andb_true_iff in H.
    destruct H as (((((((C1 & C2) & C3) & O1) & O2) & _) & E0) & _).
    destruct (same_ordering_eq _ _ _ _ _ _ O1 pos_LA pos_LB) as (_ & HLn).
    destruct (same_ordering_eq _ _ _ _ _ _ O2 pos_TB pos_CB) as (EP & HQn).
    apply Nat.eqb_eq in E0. rewrite (at_pos_length _ _ _ pos_CA) in E0.
    assert (D : forall l, In l (eA e) -> ~ In l (eC e)).
    { intros l H1 H2. assert (Hi : In l (intersect (eA e) (eC e))) by (apply in_intersect; auto).
      destruct (intersect (eA e) (eC e)); [contradiction|discriminate]. }
    destruct (pair_block (eB e) Q L _ _ NB pos_TB pos_LB C3 C2 HQn HLn) as (t & EB).
    { intros l Hl. destruct (B_split l Hl); auto. }
    { intros l H1 H2. exact (nodup_disjl _ _ nodup_QL l H1 H2). }
    exists t. split; auto. split; auto. split; [|split; auto].
    - symmetry. apply intersect_sub. intros l Hl. destruct (C_split l Hl) as [H|H]; [|apply in_Q in H; tauto].
      apply in_P in H. exfalso. apply (D l); tauto.
    - apply (one_block _ _ _ NA pos_LA C1 HLn). intros l Hl. destruct (A_split l Hl) as [H|H]; auto.
      apply in_P in H. exfalso. apply (D l); tauto.
  Qed.

  Lemma no_other : eC e <> [] -> (exists l, In l (eA e) /\ In l (eB e)) ->
    py_dot_product e = false /\ py_element_wise e = false /\ py_outer_product e = false.
  Proof.
    intros HC (l & H1 & H2). split; [|split].
    - unfold py_dot_product. destruct (eC e); [congruence|reflexivity].
    - unfold py_element_wise, same_indices. destruct (list_eq_dec Nat.eq_dec (eA e) (eC e)) as [E1|]; auto.
      destruct (list_eq_dec Nat.eq_dec (eB e) (eC e)) as [E2|]; auto. exfalso. apply (three l). rewrite <- E1. auto.
    - unfold py_outer_product, py_linksAB. rewrite py_intersect_nodup by auto.
      assert (Hi : In l (intersect (eA e) (eB e))) by (apply in_intersect; auto).
      destruct (intersect (eA e) (eB e)); [contradiction|reflexivity].
  Qed.

  Lemma choice_loop : eC e <> [] -> (exists l, In l (eA e) /\ In l (eB e)) ->
    py_algorithm e = Ok PyGeneric \/ py_gemv_AB_possible e = true \/ py_gemv_BA_possible e = true \/ py_gemm_possible e = true.
  Proof.
    intros HC HAB. destruct (no_other HC HAB) as (E1 & E2 & E3). unfold py_algorithm. rewrite E1, E2, E3.
    destruct (py_gemv_AB_possible e); [auto|]. destruct (py_gemv_BA_possible e); [auto|].
    destruct (py_gemm_possible e); auto.
  Qed.
End Choice.
