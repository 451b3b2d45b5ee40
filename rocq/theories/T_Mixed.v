(** * T_Mixed: C129, einsum with operands of different element types. *)
From Coq Require Import List ZArith QArith Qcanon Lia Bool Permutation Ring_theory.
From Verif Require Import Base Num Heap Conc M_Addr S_Addr L_Addr L_Elt M_Einsum S_Einsum L_Einsum.
From Verif Require Import M_Mixed S_Mixed.
Import ListNotations.
Open Scope Z_scope.

Section Run.
  Context {OC : Ops} {TA TB TU TAB P1 P : Type}.
  Notation V := (@val OC TA TB).
  Variables (X : @mixed OC TA TB TU TAB P1 P) (e : ein) (ucp uab : TU) (C A B : desc) (ext : nat -> Z) (h : heap V).
  Variables (a : list Z -> TA) (b : list Z -> TB) (c : list Z -> car OC).
  Hypothesis Hlab : labels_ok e.
  Hypothesis Hone : forall l, In l (links e) -> count_occ Nat.eq_dec (eA e) l = 1%nat.
  Hypothesis Hext : forall l, In l (eC e ++ eA e ++ eB e) -> 0 <= ext l < 2 ^ 31.
  Hypothesis HdA : ddims A = map ext (eA e).
  Hypothesis HdB : ddims B = map ext (eB e).
  Hypothesis HdC : ddims C = map ext (eC e).
  Hypothesis HA : holds h A (fun i => VA (a i)).
  Hypothesis HB : holds h B (fun i => VB (b i)).
  Hypothesis HC : holds h C (fun i => VC (c i)).
  Hypothesis HinjC : inj C.
  Hypothesis HdisA : disj C A.
  Hypothesis HdisB : disj C B.

  Definition msum (t : list Z) : car OC :=
    let prod lc := product X uab (a (ord e (eA e) t lc)) (b (ord e (eB e) t lc)) in
    match link_unique e with
    | [] => m_to X (prod [])
    | _ => fold_left (fun s lc => m_add X s (prod lc)) (indices (map ext (link_unique e))) o0
    end.
  Definition mval (t : list Z) : car OC :=
    oadd (omul (if oeqb (cpref X ucp) o0 then o0 else c (tgt e t)) (cpref X ucp)) (msum t).

  Lemma mixed_task_ok :
    task_ok (generic_targets e C) (gad e C) (fun t => Some (VC (mval t))) (mixed_body X e ucp uab C A B) h.
  Proof.
    intros t h1 Ht Hag.
    assert (HrA : forall lc, inb lc (map ext (link_unique e)) ->
      h1 (subscript A (ord e (eA e) t lc)) = Some (VA (a (ord e (eA e) t lc))) /\
      ~ owned (generic_targets e C) (gad e C) (subscript A (ord e (eA e) t lc))).
    { intros lc Hlc. destruct (subA e C A B ext Hlab Hext HdA HdB HdC t lc Ht Hlc) as (H1 & _). rewrite subscript_inb by auto.
      assert (Hn : ~ owned (generic_targets e C) (gad e C) (addr A (ord e (eA e) t lc))).
      { intros Ho. apply (gad_cell e C ext Hext HdC) in Ho as (j & Hj & Ej). symmetry in Ej. now apply HdisA in Ej. }
      split; auto. rewrite Hag by auto. now apply HA. }
    assert (HrB : forall lc, inb lc (map ext (link_unique e)) ->
      h1 (subscript B (ord e (eB e) t lc)) = Some (VB (b (ord e (eB e) t lc))) /\
      ~ owned (generic_targets e C) (gad e C) (subscript B (ord e (eB e) t lc))).
    { intros lc Hlc. destruct (subA e C A B ext Hlab Hext HdA HdB HdC t lc Ht Hlc) as (_ & H1). rewrite subscript_inb by auto.
      assert (Hn : ~ owned (generic_targets e C) (gad e C) (addr B (ord e (eB e) t lc))).
      { intros Ho. apply (gad_cell e C ext Hext HdC) in Ho as (j & Hj & Ej). symmetry in Ej. now apply HdisB in Ej. }
      split; auto. rewrite Hag by auto. now apply HB. }
    assert (HS : psafe (eq (gad e C t)) (fun z => ~ owned (generic_targets e C) (gad e C) z) (mixed_sum X e uab A B t) h1
                 /\ run (mixed_sum X e uab A B t) h1 = Ok (msum t, h1)).
    { unfold mixed_sum, msum. rewrite (Glinks e A ext Hone Hext HdA). destruct (link_unique e) as [|u U] eqn:EU.
      - destruct (HrA []) as (RA & NA); [constructor|]. destruct (HrB []) as (RB & NB); [constructor|].
        simpl. rewrite RA, RB. split; auto. split; auto. eexists; split; eauto.
      - cbn [map]. change (ext u :: map ext U) with (map ext (u :: U)). rewrite <- EU in *.
        apply (pfold_pure V _ _ _ _ _ _ (fun s lc => m_add X s (product X uab (a (ord e (eA e) t lc)) (b (ord e (eB e) t lc))))). intros s lc Hlc. apply in_indices in Hlc.
        destruct (HrA lc Hlc) as (RA & NA). destruct (HrB lc Hlc) as (RB & NB).
        unfold mixed_step. simpl. rewrite RA, RB. split; auto.
        split; auto. eexists. split; [reflexivity|]. split; auto. eexists. split; [reflexivity|exact I]. }
    destruct HS as (HS1 & HS2).
    unfold mixed_body. rewrite (tgt_ord e C) by auto. rewrite subscript_inb by now apply (tgt_inb e C ext Hext HdC).
    fold (gad e C t).
    assert (Hc : h1 (gad e C t) = Some (VC (c (tgt e t)))).
    { rewrite Hag by auto. apply HC. now apply (tgt_inb e C ext Hext HdC). }
    split.
    - apply psafe_bind. split; auto. intros s h2 E2. rewrite HS2 in E2. injection E2 as <- <-.
      unfold mixed_store. destruct (oeqb (cpref X ucp) o0); simpl.
      + split; [reflexivity|]. split; [eauto|]. split; [auto|]. eexists. split; [apply upd_same|]. split; [reflexivity|]. split; [rewrite upd_same; eauto|].
        split; [auto|]. eexists. split; [apply upd_same|]. split; [reflexivity|]. split; [rewrite upd_same; eauto|exact I].
      + split; [auto|]. eexists. split; [exact Hc|]. split; [reflexivity|]. split; [eauto|].
        split; [auto|]. eexists. split; [apply upd_same|]. split; [reflexivity|]. split; [rewrite upd_same; eauto|exact I].
    - rewrite run_bind, HS2. unfold mixed_store, mval. destruct (oeqb (cpref X ucp) o0); simpl.
      + rewrite Hc, !upd_same. eexists. split; [reflexivity|]. apply upd_same.
      + rewrite Hc, !upd_same. eexists. split; [reflexivity|]. apply upd_same.
  Qed.

  Lemma mixed_par : forall threads, Permutation (concat threads) (generic_targets e C) ->
    par_spec (omp_for (mixed_body X e ucp uab C A B) threads) h (fun h' =>
      (forall t, In t (generic_targets e C) -> h' (gad e C t) = Some (VC (mval t))) /\
      (forall z, ~ owned (generic_targets e C) (gad e C) z -> h' z = h z)).
  Proof.
    intros threads HP. unfold omp_for.
    apply (par_cells (list Z) V (generic_targets e C) threads (gad e C) (fun t => Some (VC (mval t)))); auto.
    - now apply (gad_NoDup e C ext Hext HdC HinjC).
    - apply mixed_task_ok.
  Qed.
End Run.

Lemma mixed_value :
  forall (OC : Ops) (TA TB TU TAB P1 P : Type) (X : @mixed OC TA TB TU TAB P1 P) jA jB (pc pab : car OC) (HR : is_ring OC)
    (h : heap (@val OC TA TB)) Ci Ai Bi (ext : nat -> Z) A B C a b c ucp uab L threads,
  m_cp X ucp = pc -> (forall s p, m_add X s p = oadd s (m_to X p)) ->
  (forall x y, m_to X (m_mul2 X (m_mul1 X (m_ab X uab) x) y) = omul (omul pab (jA x)) (jB y)) ->
  (forall l, In l Ai \/ In l Bi -> In l Ci \/ (In l Ai /\ In l Bi)) ->
  contracted L Ci Ai Bi ->
  (forall l, In l L -> count_occ Nat.eq_dec Ai l = 1%nat) ->
  (forall l, In l (Ci ++ Ai ++ Bi) -> 0 <= ext l < 2 ^ 31) ->
  consistent ext Ai A -> consistent ext Bi B -> consistent ext Ci C ->
  holds h A (fun i => VA (a i)) -> holds h B (fun i => VB (b i)) -> holds h C (fun i => VC (c i)) ->
  inj C -> disj C A -> disj C B ->
  let e := mkEin Ci Ai Bi in
  Permutation (concat threads) (generic_targets e C) ->
  par_spec (omp_for (mixed_body X e ucp uab C A B) threads) h (fun h' =>
    (forall env, env_ok ext env Ci ->
       h' (addr C (map env Ci)) =
       Some (VC (oadd (omul pc (c (map env Ci))) (omul pab (einstein L Ai Bi ext (fun i => jA (a i)) (fun i => jB (b i)) env))))) /\
    (forall z, (forall env, env_ok ext env Ci -> z <> addr C (map env Ci)) -> h' z = h z)).
Proof.
  intros OC TA TB TU TAB P1 P X jA jB pc pab HR h Ci Ai Bi ext A B C a b c ucp uab L threads EX1 EX2 EX3 Hlab HL Hone Hext HdA HdB HdC HA HB HC Hi HsA HsB e HP.
  assert (Hlinks : forall l, In l (links e) -> count_occ Nat.eq_dec (eA e) l = 1%nat).
  { intros l Hl. apply in_links in Hl. apply Hone. apply (proj2 HL). simpl in Hl. tauto. }
  assert (HG := mixed_par X e ucp uab C A B ext h a b c Hlab Hlinks Hext HdA HdB HdC HA HB HC Hi HsA HsB threads HP).
  apply par_spec_weaken with (2 := HG). intros h' (H1 & H2). split.
  - intros env He. destruct (target_of_env e C ext Hext HdC env He) as (Ht & Et).
    specialize (H1 _ Ht). unfold gad in H1. rewrite Et in H1. simpl in H1. rewrite H1. do 2 f_equal.
    unfold mval. rewrite Et. simpl eC.
    assert (EM : msum X e uab ext a b (map env (C_unique e)) = gsum e pab ext (fun i => jA (a i)) (fun i => jB (b i)) (map env (C_unique e))).
    { unfold msum, gsum, product. destruct (link_unique e) as [|u U]; [apply EX3|].
      generalize (indices (map ext (u :: U))). generalize (@o0 OC). intros s l. revert s. induction l as [|x l IH]; intros s; [reflexivity|].
      cbn [fold_left]. rewrite EX2, EX3. apply IH. }
    rewrite EM, (gsum_einstein HR e pab ext (fun i => jA (a i)) (fun i => jB (b i)) Hlab env L HL). simpl.
    f_equal. unfold cpref. rewrite EX1. destruct (oeqb pc o0) eqn:E0.
    + apply (ir_eqb OC HR) in E0. rewrite E0. now rewrite (omul_0_r HR), (omul_0_l HR).
    + apply (omul_comm HR).
  - intros z Hz. apply H2. intros Ho. apply in_map_iff in Ho as (t & E & Ht).
    assert (Hin := tgt_inb e C ext Hext HdC t Ht). rewrite HdC in Hin.
    apply (Hz (construct_index (C_unique e) t [] [])); auto.
    apply env_ok_map. exact Hin.
Qed.

(** C129.  einsum(cp, Ci, &C, ab, Ai, A, Bi, B) with any three element types
    between which the arithmetic is exact, any labels, views, number of threads
    and schedule.  Missing for the full property: prefactors that the larger type
    of A and B cannot hold, where the code is wrong ([C129_prefactor_refuted]), and
    a contracted label twice in A (C11_repeated_link_refuted). *)
Theorem C129_mixed_partial :
  forall (OC : Ops) (TA TB TU TAB P1 P : Type) (X : @mixed OC TA TB TU TAB P1 P) jA jB jU (HR : is_ring OC)
    (h : heap (@val OC TA TB)) Ci Ai Bi (ext : nat -> Z) A B C a b c ucp uab L threads,
  exact X jA jB jU ucp uab ->
  (forall l, In l Ai \/ In l Bi -> In l Ci \/ (In l Ai /\ In l Bi)) ->
  contracted L Ci Ai Bi ->
  (forall l, In l L -> count_occ Nat.eq_dec Ai l = 1%nat) ->
  (forall l, In l (Ci ++ Ai ++ Bi) -> 0 <= ext l < 2 ^ 31) ->
  consistent ext Ai A -> consistent ext Bi B -> consistent ext Ci C ->
  holds h A (fun i => VA (a i)) -> holds h B (fun i => VB (b i)) -> holds h C (fun i => VC (c i)) ->
  inj C -> disj C A -> disj C B ->
  let e := mkEin Ci Ai Bi in
  Permutation (concat threads) (generic_targets e C) ->
  par_spec (omp_for (mixed_body X e ucp uab C A B) threads) h (fun h' =>
    (forall env, env_ok ext env Ci ->
       h' (addr C (map env Ci)) =
       Some (VC (oadd (omul (jU ucp) (c (map env Ci))) (omul (jU uab) (einstein L Ai Bi ext (fun i => jA (a i)) (fun i => jB (b i)) env))))) /\
    (forall z, (forall env, env_ok ext env Ci -> z <> addr C (map env Ci)) -> h' z = h z)).
Proof.
  intros OC TA TB TU TAB P1 P X jA jB jU HR h Ci Ai Bi ext A B C a b c ucp uab L threads [EX1 EX2 EX3].
  now apply mixed_value.
Qed.

(** C129 as stated is false: A and B integer tensors, C rational, the prefactors
    rational.  A prefactor less than one in magnitude becomes the integer zero, so the
    product is not added at all. *)
Definition q_of (x : Z) : car QcOps := Q2Qc (inject_Z x).
(** C++ converts a fraction to an integer by dropping what is behind the point. *)
Definition int_mixed : @mixed QcOps Z Z Qc Z Z Z :=
  @mkMixed QcOps Z Z Qc Z Z Z (fun u => u) (fun u => Z.quot (Qnum u) (QDen u)) Z.mul Z.mul (fun s p => Qcplus s (q_of p)) q_of.
Theorem C129_prefactor_refuted :
  forall (h : heap (@val QcOps Z Z)) Ci Ai Bi (ext : nat -> Z) A B C a b c (ucp uab : Qc) L threads,
  (-(1) < uab < 1)%Q ->
  (forall l, In l Ai \/ In l Bi -> In l Ci \/ (In l Ai /\ In l Bi)) ->
  contracted L Ci Ai Bi ->
  (forall l, In l L -> count_occ Nat.eq_dec Ai l = 1%nat) ->
  (forall l, In l (Ci ++ Ai ++ Bi) -> 0 <= ext l < 2 ^ 31) ->
  consistent ext Ai A -> consistent ext Bi B -> consistent ext Ci C ->
  holds h A (fun i => VA (a i)) -> holds h B (fun i => VB (b i)) -> holds h C (fun i => VC (c i)) ->
  inj C -> disj C A -> disj C B ->
  let e := mkEin Ci Ai Bi in
  Permutation (concat threads) (generic_targets e C) ->
  par_spec (omp_for (mixed_body int_mixed e ucp uab C A B) threads) h (fun h' =>
    forall env, env_ok ext env Ci -> h' (addr C (map env Ci)) = Some (@VC QcOps Z Z (Qcmult ucp (c (map env Ci))))).
Proof.
  intros h Ci Ai Bi ext A B C a b c ucp uab L threads Hu Hlab HL Hone Hext HdA HdB HdC HA HB HC Hi HsA HsB e HP.
  assert (HV := mixed_value QcOps _ _ _ _ _ _ int_mixed (fun _ => o0) (fun _ => o0) ucp o0 QcOps_ring h Ci Ai Bi ext A B C a b c ucp uab L threads
    eq_refl (fun s p => eq_refl)).
  eapply par_spec_weaken; [|apply HV; auto].
  - intros h' (H1 & _) env He. rewrite (H1 env He). do 2 f_equal. simpl.
    etransitivity; [apply f_equal2; [reflexivity|apply Qcmult_0_l]|apply Qcplus_0_r].
  - intros x y. cbn [int_mixed m_ab m_mul1 m_mul2 m_to].
    assert (E : Z.quot (Qnum uab) (QDen uab) = 0).
    { apply Z.quot_small_iff; [discriminate|]. destruct Hu as (U1 & U2). unfold Qlt in U1, U2. simpl in U1, U2. rewrite Z.abs_lt.
      change (Z.abs (QDen uab)) with (QDen uab). simpl. lia. }
    rewrite E. simpl. unfold q_of. change (Q2Qc (inject_Z 0)) with 0%Qc. symmetry. apply Qcmult_0_r.
Qed.

(** Integers times integers into rationals with a whole prefactor. *)
Lemma q_of_mul x y : q_of (x * y) = Qcmult (q_of x) (q_of y).
Proof. apply Qc_is_canon. unfold q_of, Qcmult, Q2Qc. cbn [this]. rewrite !Qred_correct, inject_Z_mult. reflexivity. Qed.
Example C129_exact_case : forall ucp n, exact int_mixed q_of q_of (fun u => u) ucp (q_of n).
Proof.
  intros ucp n. constructor; [reflexivity|reflexivity|]. intros x y. cbn [int_mixed m_ab m_mul1 m_mul2 m_to].
  assert (E : Z.quot (Qnum (q_of n)) (QDen (q_of n)) = n).
  { assert (H : (q_of n == inject_Z n)%Q) by (unfold q_of, Q2Qc; cbn [this]; apply Qred_correct).
    unfold Qeq in H. simpl in H. unfold q_of in *. simpl in *. rewrite Z.mul_1_r in H. rewrite H. apply Z.quot_mul. discriminate. }
  rewrite E, !q_of_mul. reflexivity.
Qed.
(** Flags times integers: C = 3 C + 2 sum_k A(k,i) B(k,j), two by three. *)
Definition flag_mixed : @mixed ZOps bool Z Z Z Z Z :=
  @mkMixed ZOps bool Z Z Z Z Z (fun u => u) (fun u => u) (fun u x => u * Z.b2z x) Z.mul Z.add (fun p => p).
Definition mx_ext (l : nat) : Z := nth l [2; 3; 2] 0.
Definition mx_A := mkDesc 0 [2; 2] [2; 1].
Definition mx_B := mkDesc 10 [2; 3] [3; 1].
Definition mx_C := mkDesc 20 [2; 3] [3; 1].
Definition mx_h : heap (@val ZOps bool Z) := fun z =>
  if z <? 0 then None else if z <? 4 then Some (@VA ZOps bool Z (negb (z =? 1))) else if z <? 10 then None else if z <? 16 then Some (@VB ZOps bool Z z)
  else if z <? 20 then None else if z <? 26 then Some (@VC ZOps bool Z z) else None.
Example C129_case :
  exact flag_mixed Z.b2z (fun y => y) (fun u => u) 3 2 /\
  contracted [2]%nat [0; 1]%nat [2; 0]%nat [2; 1]%nat /\
  consistent mx_ext [2; 0]%nat mx_A /\ consistent mx_ext [2; 1]%nat mx_B /\ consistent mx_ext [0; 1]%nat mx_C /\
  match run (pseq (generic_targets (mkEin [0; 1] [2; 0] [2; 1])%nat mx_C)
                  (mixed_body flag_mixed (mkEin [0; 1] [2; 0] [2; 1])%nat 3 2 mx_C mx_A mx_B)) mx_h with
  | Ok (_, h') => h' (addr mx_C [0; 2]) = Some (@VC ZOps bool Z (3 * 22 + 2 * (12 + 15))) /\ h' (addr mx_C [1; 2]) = Some (@VC ZOps bool Z (3 * 25 + 2 * 15))
  | _ => False
  end.
Proof.
  split; [constructor; reflexivity|]. split; [|repeat split].
  split; [repeat constructor; simpl; intuition lia|]. intros l. simpl. intuition lia.
Qed.

Print Assumptions C129_mixed_partial.
Print Assumptions C129_prefactor_refuted.
