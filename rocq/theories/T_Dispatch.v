(** * T_Dispatch: property theorems about the einsum fast paths (C12-C16, C47). *)
From Coq Require Import List ZArith Lia Bool Permutation Ring.
From Verif Require Import Base Heap Conc M_Addr L_Addr M_Elt L_Elt M_Einsum S_Einsum L_Einsum T_Einsum
  S_Blas M_Blas L_Blas T_Blas M_Dispatch S_Dispatch L_Dispatch L_Paths.
Import ListNotations.
Open Scope Z_scope.

(** ** What the classification tells us *)
Lemma dispatch_gemm : forall e s fA fB fC, dispatch e s fA fB fC = PGemm ->
  is_gemm_possible e = true /\ fA = true /\ fB = true /\ fC = true /\ linksAB e <> [] /\
  NoDup (eA e) /\ NoDup (eB e) /\ NoDup (eC e).
Proof.
  intros e s fA fB fC H. unfold dispatch in H.
  destruct (dot_product e); [discriminate|]. destruct (element_wise_multiplication e); [discriminate|].
  destruct s; [discriminate|].
  destruct (outer_product e) eqn:EO; [destruct (negb fA || negb fB); discriminate|].
  destruct (is_gemv_possible e); [destruct (negb fC || negb fA || negb fB); discriminate|].
  match type of H with (if ?g && is_gemm_possible e then _ else _) = _ => destruct g; simpl in H; [|discriminate] end.
  destruct (is_gemm_possible e) eqn:EG; [|discriminate].
  destruct fA, fB, fC; try discriminate. split; auto.
  unfold is_gemm_possible in EG. rewrite !andb_true_iff in EG.
  destruct EG as (((((((((((((_ & _) & G3) & G4) & G5) & G6) & G7) & G8) & G9) & G10) & G11) & G12) & G13) & G14).
  repeat split; auto; try (apply hadamard_false; apply negb_true_iff; auto).
  intros E0. unfold outer_product in EO. rewrite E0, G5, G6, G12, G13, G14 in EO. discriminate.
Qed.

Lemma dispatch_gemv : forall e s fA fB fC, dispatch e s fA fB fC = PGemv ->
  is_gemv_possible e = true /\ fA = true /\ fB = true /\ fC = true /\ NoDup (eA e) /\ NoDup (eB e) /\ NoDup (eC e).
Proof.
  intros e s fA fB fC H. unfold dispatch in H.
  destruct (dot_product e); [discriminate|]. destruct (element_wise_multiplication e); [discriminate|].
  destruct s; [discriminate|].
  destruct (outer_product e) eqn:EO; [destruct (negb fA || negb fB); discriminate|].
  destruct (is_gemv_possible e) eqn:EG.
  - destruct fA, fB, fC; try discriminate. split; auto.
    unfold is_gemv_possible in EG. apply orb_true_iff in EG.
    assert (G : negb (A_hadamard e) = true /\ negb (B_hadamard e) = true /\ negb (C_hadamard e) = true).
    { destruct EG as [EG|EG]; unfold is_gemv_normal_possible, is_gemv_swap_possible in EG; rewrite !andb_true_iff in EG; tauto. }
    destruct G as (G1 & G2 & G3). repeat split; auto; apply hadamard_false; apply negb_true_iff; auto.
  - match type of H with (if ?g then _ else _) = _ => destruct g end; [destruct (negb fC || negb fA || negb fB)|]; discriminate.
Qed.

Lemma dispatch_outer : forall e s fA fB fC, dispatch e s fA fB fC = POuter ->
  outer_product e = true /\ fA = true /\ fB = true /\ NoDup (eA e) /\ NoDup (eB e) /\ NoDup (eC e) /\
  (forall l, In l (eA e) -> In l (eB e) -> False).
Proof.
  intros e s fA fB fC H. unfold dispatch in H.
  destruct (dot_product e); [discriminate|]. destruct (element_wise_multiplication e); [discriminate|].
  destruct s; [discriminate|].
  destruct (outer_product e) eqn:EO.
  - destruct fA, fB; try discriminate. split; auto. unfold outer_product in EO. rewrite !andb_true_iff in EO.
    destruct EO as (((((G1 & _) & _) & G2) & G3) & G4).
    repeat split; auto; try (apply hadamard_false; apply negb_true_iff; auto).
    intros l H1 H2. apply Nat.eqb_eq in G1. assert (Hl : In l (linksAB e)) by (apply in_intersect; auto).
    destruct (linksAB e); [contradiction|discriminate].
  - destruct (is_gemv_possible e); [destruct (negb fC || negb fA || negb fB); discriminate|].
    match type of H with (if ?g then _ else _) = _ => destruct g end; [destruct (negb fC || negb fA || negb fB)|]; discriminate.
Qed.

Lemma dispatch_elementwise : forall e s fA fB fC, dispatch e s fA fB fC = PElementwise ->
  eA e = eC e /\ eB e = eC e /\ NoDup (eC e).
Proof.
  intros e s fA fB fC H. unfold dispatch in H.
  destruct (dot_product e); [discriminate|]. destruct (element_wise_multiplication e) eqn:E.
  - unfold element_wise_multiplication in E. rewrite !andb_true_iff in E. destruct E as ((((G1 & G2) & _) & _) & G5).
    unfold same_indices in *. destruct (list_eq_dec Nat.eq_dec (eC e) (eA e)); [|discriminate].
    destruct (list_eq_dec Nat.eq_dec (eC e) (eB e)); [|discriminate]. repeat split; auto.
    apply hadamard_false; apply negb_true_iff; auto.
  - destruct s; [discriminate|]. destruct (outer_product e); [destruct (negb fA || negb fB); discriminate|].
    destruct (is_gemv_possible e); [destruct (negb fC || negb fA || negb fB); discriminate|].
    match type of H with (if ?g then _ else _) = _ => destruct g end; [destruct (negb fC || negb fA || negb fB)|]; discriminate.
Qed.

Lemma dispatch_dot : forall e s fA fB fC, dispatch e s fA fB fC = PDot ->
  eC e = [] /\ eA e = eB e /\ NoDup (eA e).
Proof.
  intros e s fA fB fC H. unfold dispatch in H.
  destruct (dot_product e) eqn:E.
  - unfold dot_product in E. rewrite !andb_true_iff in E. destruct E as ((((G1 & G2) & G3) & _) & _).
    unfold same_indices in *. destruct (list_eq_dec Nat.eq_dec (eA e) (eB e)); [|discriminate].
    apply Nat.eqb_eq in G1. destruct (eC e); [|discriminate]. repeat split; auto.
    apply hadamard_false; apply negb_true_iff; auto.
  - destruct (element_wise_multiplication e); [discriminate|].
    destruct s; [discriminate|]. destruct (outer_product e); [destruct (negb fA || negb fB); discriminate|].
    destruct (is_gemv_possible e); [destruct (negb fC || negb fA || negb fB); discriminate|].
    match type of H with (if ?g then _ else _) = _ => destruct g end; [destruct (negb fC || negb fA || negb fB)|]; discriminate.
Qed.

Lemma done_spec : forall (O : Ops) ext Ci Ai Bi L L' cp ab C a b c h h' (r : res (heap (car O))),
  NoDup Ci -> ddims C = map ext Ci ->
  (forall env, einstein L Ai Bi ext a b env = einstein L' Ai Bi ext a b env) ->
  r = Ok h' ->
  (forall env, env_ok ext env Ci -> h' (addr C (map env Ci)) =
     Some (oadd (omul cp (c (map env Ci))) (omul ab (einstein L' Ai Bi ext a b env)))) ->
  (forall z, ~ cell C z -> h' z = h z) ->
  einsum_spec (x <- r ;; Ok (done x)) (einsum_result ext Ci Ai Bi L cp ab C a b c h).
Proof.
  intros O ext Ci Ai Bi L L' cp ab C a b c h h' r NC HdC HL -> H1 H2. cbn [bind].
  exists h', (fun _ => PRet tt), []. split; [reflexivity|]. intros threads HP.
  apply par_empty; [apply Permutation_nil; apply Permutation_sym; auto|]. split.
  - intros env He. rewrite HL. auto.
  - intros z Hz. apply H2. intros Hc. destruct (cell_env ext C Ci z NC HdC Hc) as (env & He & E). eapply Hz; eauto.
Qed.

Lemma vol_pos : forall ext L, (forall l, In l L -> 0 < ext l) -> 0 < vol ext L.
Proof. intros. apply zprod_pos. apply Forall_map, Forall_forall. auto. Qed.

Lemma labels_of : forall Ci Ai Bi,
  (forall l, In l Ai \/ In l Bi -> In l Ci \/ (In l Ai /\ In l Bi)) -> labels_ok (mkEin Ci Ai Bi).
Proof. intros Ci Ai Bi H l. simpl. apply H. Qed.

(** ** C13 *)

(** Any call for which the matrix-matrix path is selected, whatever the number
    of labels in each group, their order in A, B and C, the contents and
    prefactors.  Missing for the full property, because the code is wrong there:
    a label common to A, B and C ([C13_batch_refuted]), a label only in C
    ([C13_broadcast_refuted]), an empty contraction ([C13_empty_sum_refuted]). *)
Theorem C13_gemm_partial :
  forall (O : Ops) (HR : is_ring O) (h : heap (car O)) Ci Ai Bi (ext : nat -> Z) A B C a b c cp ab L
         (fA fB fC vA vB : bool),
  (forall l, In l Ai \/ In l Bi -> In l Ci \/ (In l Ai /\ In l Bi)) ->
  contracted L Ci Ai Bi ->
  (forall l, In l Ci -> In l Ai \/ In l Bi) ->
  (forall l, In l Ai -> In l Bi -> ~ In l Ci) ->
  (forall l, In l (Ci ++ Ai ++ Bi) -> 0 <= ext l) ->
  ((forall l, In l L -> 0 < ext l) \/ cp = o1) ->
  consistent ext Ai A -> consistent ext Bi B -> consistent ext Ci C ->
  (fA = true -> contiguous A) -> (fB = true -> contiguous B) -> (fC = true -> contiguous C) ->
  holds h A a -> holds h B b -> holds h C c -> disj C A -> disj C B ->
  let e := mkEin Ci Ai Bi in
  dispatch e false fA fB fC = PGemm ->
  einsum_spec (einsum e false fA fB fC vA vB cp C ab A B h) (einsum_result ext Ci Ai Bi L cp ab C a b c h).
Proof.
  intros O HR h Ci Ai Bi ext A B C a b c cp ab L fA fB fC vA vB Hlab HL Hbr Hba Hext Hk HdA HdB HdC FA FB FC
    HA HB HC DA DB e HD.
  assert (HD' := HD). apply dispatch_gemm in HD' as (G & -> & -> & -> & HLAB & NA & NB & NC).
  assert (HP := contracted_perm e ext (labels_of _ _ _ Hlab) L HL).
  assert (HLn : link_unique e <> []).
  { destruct (linksAB e) as [|l r] eqn:E; [congruence|].
    assert (Hl : In l (linksAB e)) by (rewrite E; simpl; auto). apply in_intersect in Hl as (H1 & H2).
    assert (Hin : In l (link_unique e)).
    { unfold link_unique. rewrite in_unique, in_links. repeat split; auto. }
    intros E0. rewrite E0 in Hin. contradiction. }
  destruct (gemm_ok e ext A B C a b c cp ab h (labels_of _ _ _ Hlab) NA NB NC Hbr Hba Hext HdA HdB HdC)
    as (h' & E & H1 & H2); auto.
  { apply contiguous_rowmaj; auto. } { apply contiguous_rowmaj; auto. } { apply contiguous_rowmaj; auto. }
  { destruct Hk as [Hk|Hk]; auto. left. apply vol_pos. intros l Hl. apply Hk.
    eapply Permutation_in; [apply Permutation_sym; exact HP|auto]. }
  unfold einsum. rewrite HD.
  apply done_spec with (L' := link_unique e) (h' := h'); auto.
  intros env. apply (einstein_perm HR); auto. apply HL.
Qed.
Print Assumptions C13_gemm_partial.

(** ** C14 *)

(** Any call for which the matrix-vector path is selected.  Missing: a label
    only in C ([C14_broadcast_refuted]), an empty contraction
    ([C14_empty_sum_refuted]). *)
Theorem C14_gemv_partial :
  forall (O : Ops) (HR : is_ring O) (h : heap (car O)) Ci Ai Bi (ext : nat -> Z) A B C a b c cp ab L
         (fA fB fC vA vB : bool),
  (forall l, In l Ai \/ In l Bi -> In l Ci \/ (In l Ai /\ In l Bi)) ->
  contracted L Ci Ai Bi ->
  (forall l, In l Ci -> In l Ai \/ In l Bi) ->
  (forall l, In l (Ci ++ Ai ++ Bi) -> 0 <= ext l) ->
  ((forall l, In l L -> 0 < ext l) \/ cp = o1) ->
  consistent ext Ai A -> consistent ext Bi B -> consistent ext Ci C ->
  (fA = true -> contiguous A) -> (fB = true -> contiguous B) -> (fC = true -> contiguous C) ->
  holds h A a -> holds h B b -> holds h C c -> disj C A -> disj C B ->
  let e := mkEin Ci Ai Bi in
  dispatch e false fA fB fC = PGemv ->
  einsum_spec (einsum e false fA fB fC vA vB cp C ab A B h) (einsum_result ext Ci Ai Bi L cp ab C a b c h).
Proof.
  intros O HR h Ci Ai Bi ext A B C a b c cp ab L fA fB fC vA vB Hlab HL Hbr Hext Hk HdA HdB HdC FA FB FC
    HA HB HC DA DB e HD.
  assert (HD' := HD). apply dispatch_gemv in HD' as (G & -> & -> & -> & NA & NB & NC).
  assert (HP := contracted_perm e ext (labels_of _ _ _ Hlab) L HL).
  destruct (gemv_ok e ext A B C a b c cp ab h (labels_of _ _ _ Hlab) NA NB NC Hbr Hext HdA HdB HdC)
    as (h' & E & H1 & H2); auto.
  { apply contiguous_rowmaj; auto. } { apply contiguous_rowmaj; auto. } { apply contiguous_rowmaj; auto. }
  { destruct Hk as [Hk|Hk]; auto. left. apply vol_pos. intros l Hl. apply Hk.
    eapply Permutation_in; [apply Permutation_sym; exact HP|auto]. }
  unfold einsum. rewrite HD.
  apply done_spec with (L' := link_unique e) (h' := h'); auto.
  intros env. apply (einstein_perm HR); auto. apply HL.
Qed.
Print Assumptions C14_gemv_partial.

(** ** C15 *)

(** Any call for which the rank-one-update path is selected and whose result
    index list is the one of A followed by the one of B, or the other way round,
    with a contiguous C; includes the fall-back to the loop when the update is
    rejected.  Missing: the labels of A apart in C ([C15_interleaved_refuted]),
    a non-contiguous C ([C15_strided_result_refuted]); both accepted by the
    code with wrong results. *)
Theorem C15_outer_partial :
  forall (O : Ops) (HR : is_ring O) (h : heap (car O)) Ci Ai Bi (ext : nat -> Z) A B C a b c cp ab L
         (fA fB fC vA vB : bool),
  contracted L Ci Ai Bi ->
  Ai <> [] -> Bi <> [] -> (Ci = Ai ++ Bi \/ Ci = Bi ++ Ai) ->
  (forall l, In l Ci -> 0 <= ext l < 2 ^ 31) ->
  consistent ext Ai A -> consistent ext Bi B -> consistent ext Ci C ->
  (fA = true -> contiguous A) -> (fB = true -> contiguous B) -> contiguous C ->
  holds h A a -> holds h B b -> holds h C c -> disj C A -> disj C B ->
  let e := mkEin Ci Ai Bi in
  dispatch e false fA fB fC = POuter ->
  einsum_spec (einsum e false fA fB fC vA vB cp C ab A B h) (einsum_result ext Ci Ai Bi L cp ab C a b c h).
Proof.
  intros O HR h Ci Ai Bi ext A B C a b c cp ab L fA fB fC vA vB HL NEA NEB HCC Hext HdA HdB HdC FA FB FC
    HA HB HC DA DB e HD.
  assert (HD' := HD). apply dispatch_outer in HD' as (G & -> & -> & NA & NB & NC & _).
  assert (L = []) as ->.
  { destruct L as [|l L]; auto. exfalso. destruct HL as (_ & HL). destruct (HL l) as (HL1 & _).
    destruct HL1 as (H1 & H2); [simpl; auto|]. apply H2. destruct HCC as [->| ->]; apply in_or_app; tauto. }
  unfold einsum. rewrite HD.
  apply (outer_ok HR e); auto; apply contiguous_rowmaj; auto.
Qed.
Print Assumptions C15_outer_partial.

(** ** C16 *)

(** Element-wise product: A and B of any strides; C a contiguous tensor (the
    code compiles only for such a C).  Extents below 2^31 because the loop
    counts in [int]. *)
Theorem C16_elementwise :
  forall (O : Ops) (HR : is_ring O) (h : heap (car O)) Ci Ai Bi (ext : nat -> Z) A B C a b c cp ab L
         (s fA fB fC vA vB : bool),
  contracted L Ci Ai Bi ->
  (forall l, In l Ci -> 0 <= ext l < 2 ^ 31) ->
  consistent ext Ai A -> consistent ext Bi B -> consistent ext Ci C -> contiguous C ->
  holds h A a -> holds h B b -> holds h C c -> disj C A -> disj C B ->
  let e := mkEin Ci Ai Bi in
  dispatch e s fA fB fC = PElementwise ->
  einsum_spec (einsum e s fA fB fC vA vB cp C ab A B h) (einsum_result ext Ci Ai Bi L cp ab C a b c h).
Proof.
  intros O HR h Ci Ai Bi ext A B C a b c cp ab L s fA fB fC vA vB HL Hext HdA HdB HdC FC HA HB HC DA DB e HD.
  assert (HD' := HD). apply dispatch_elementwise in HD' as (EA & EB & NC). simpl in EA, EB, NC. subst Ai Bi.
  assert (L = []) as ->.
  { destruct L as [|l L]; auto. exfalso. destruct HL as (_ & HL). destruct (HL l) as (HL1 & _).
    destruct HL1 as (H1 & H2); [simpl; auto|]. tauto. }
  destruct (dp_ok A B C a b c cp ab h) as (h1 & E & HP); auto; try (unfold consistent in *; congruence).
  { rewrite HdC. apply Forall_map, Forall_forall. auto. }
  { apply contiguous_rowmaj; auto. }
  unfold einsum. rewrite HD, E. cbn [bind fst snd].
  exists h1, (dp_body ab A B cp C), (indices (map to_int32 (ddims C))). split; auto.
  intros threads Hth. apply par_spec_weaken with (2 := HP threads Hth). intros h' (H1 & H2). split.
  - intros env He. rewrite H1 by (rewrite HdC; apply inb_map_env; auto). f_equal. unfold dp_val, einstein. simpl.
    destruct (oeqb cp o0) eqn:E0; auto. apply (ir_eqb O HR) in E0. subst cp. now rewrite !(omul_0_l HR).
  - intros z Hz. apply H2. intros Hc. destruct (cell_env ext C Ci z NC HdC Hc) as (env & He & Ez). eapply Hz; eauto.
Qed.
Print Assumptions C16_elementwise.

(** Full contraction to a scalar: any strides of A and B. *)
Theorem C16_dot :
  forall (O : Ops) (HR : is_ring O) (h : heap (car O)) Ci Ai Bi (ext : nat -> Z) A B C a b c cp ab L
         (s fA fB fC vA vB : bool),
  contracted L Ci Ai Bi ->
  Ai <> [] -> (forall l, In l Ai -> 0 <= ext l) ->
  consistent ext Ai A -> consistent ext Bi B -> consistent ext Ci C ->
  (fA = true -> contiguous A) -> (fB = true -> contiguous B) ->
  Forall (fun x => 0 <= x) (dstrides A) -> Forall (fun x => 0 <= x) (dstrides B) ->
  length (dstrides A) = length Ai -> length (dstrides B) = length Bi -> dstrides C = [] ->
  holds h A a -> holds h B b -> holds h C c ->
  let e := mkEin Ci Ai Bi in
  dispatch e s fA fB fC = PDot ->
  einsum_spec (einsum e s fA fB fC vA vB cp C ab A B h) (einsum_result ext Ci Ai Bi L cp ab C a b c h).
Proof.
  intros O HR h Ci Ai Bi ext A B C a b c cp ab L s fA fB fC vA vB HL Hne Hext HdA HdB HdC FA FB PA PB LA LB LC HA HB HC e HD.
  assert (HD' := HD). apply dispatch_dot in HD' as (EC & EB & NA). simpl in EC, EB, NA. subst Ci Bi.
  unfold consistent in *. rewrite Forall_forall in PA, PB.
  destruct (dot_ok HR fA fB A B C a b c cp ab h) as (h' & E & H1 & H2); auto.
  { rewrite HdA. destruct Ai; simpl; congruence. }
  { rewrite HdA. apply Forall_map, Forall_forall. auto. }
  { congruence. }
  { rewrite HdA, map_length. auto. }
  { rewrite HdB, map_length. auto. }
  unfold einsum. rewrite HD.
  assert (Hp : Permutation L Ai).
  { destruct HL as (HN & HL). apply NoDup_Permutation; auto. intros l. rewrite HL. simpl. tauto. }
  apply done_spec with (L' := Ai) (h' := h'); auto; [constructor| | |].
  - intros env. apply (einstein_perm HR); auto. apply HL.
  - intros env He. assert (Ead : addr C (map env []) = dbase C) by (unfold addr; rewrite LC; simpl; lia).
    rewrite Ead, H1. f_equal. f_equal. f_equal. unfold einstein. rewrite (Sum_over_indices HR), HdA.
    apply lsum_ext. intros ix Hi. apply in_indices in Hi. assert (HLn := inb_length _ _ Hi). rewrite map_length in HLn.
    rewrite upds_map by auto. reflexivity.
  - intros z Hz. apply H2. intros ->. apply Hz. exists []. rewrite HdC. split; [constructor|].
    unfold addr. rewrite LC. simpl. lia.
Qed.
Print Assumptions C16_dot.

(** ** Checkers used for the concrete cases below *)
Lemma holds_check : forall T (h : heap T) d0 d,
  forallb (fun idx => match h (addr d idx) with Some _ => true | None => false end) (indices (ddims d)) = true ->
  holds h d (fun idx => match h (addr d idx) with Some v => v | None => d0 end).
Proof.
  intros T h d0 d H idx Hi. rewrite forallb_forall in H. specialize (H idx). rewrite in_indices in H. specialize (H Hi).
  destruct (h (addr d idx)); auto. discriminate.
Qed.
Lemma disj_check : forall d e,
  forallb (fun i => forallb (fun j => negb (addr d i =? addr e j)) (indices (ddims e))) (indices (ddims d)) = true ->
  disj d e.
Proof.
  intros d e H i j Hi Hj E. rewrite forallb_forall in H. specialize (H i). rewrite in_indices in H. specialize (H Hi).
  rewrite forallb_forall in H. specialize (H j). rewrite in_indices in H. specialize (H Hj).
  rewrite E, Z.eqb_refl in H. discriminate.
Qed.
Lemma not_done : forall (O : Ops) (r : res (@plan O)) h' Q, r = Ok (done h') -> ~ Q h' -> ~ einsum_spec r Q.
Proof.
  intros O r h' Q -> HQ (h1 & body & iters & E & HP). injection E as <- <- <-.
  destruct (HP [] (Permutation_refl _)) as (H1 & _).
  destruct (H1 [] h' (pss_refl _)) as (_ & _ & H2). apply HQ, H2. constructor.
Qed.
Lemma contracted_check : forall L Ci Ai Bi, NoDup L ->
  forallb (fun l => (has_type l Ai || has_type l Bi) && negb (has_type l Ci)) L = true ->
  forallb (fun l => has_type l Ci || has_type l L) (Ai ++ Bi) = true -> contracted L Ci Ai Bi.
Proof.
  intros L Ci Ai Bi HN H1 H2. split; auto. rewrite forallb_forall in H1, H2. intros l. split.
  - intros Hl. apply H1 in Hl. apply andb_true_iff in Hl as (Ha & Hb). apply orb_true_iff in Ha. rewrite !has_type_In in Ha.
    apply negb_true_iff in Hb. apply has_type_false in Hb. auto.
  - intros (Ha & Hb). assert (Hin : In l (Ai ++ Bi)) by (apply in_or_app; tauto). apply H2 in Hin.
    apply orb_true_iff in Hin. rewrite !has_type_In in Hin. tauto.
Qed.

Definition get (h : heap Z) (d : desc) (idx : list Z) : Z := match h (addr d idx) with Some v => v | None => 0 end.
Definition two (_ : nat) : Z := 2.
Definition mem (n : Z) : heap Z := fun z => if (0 <=? z) && (z <? n) then Some (z * z mod 11 + 1) else None.

Definition ext0 (l : nat) : Z := match l with 3%nat => 0 | _ => 2 end.

Ltac valid :=
  unfold valid_call; repeat match goal with |- _ /\ _ => split end;
  [ let l := fresh in intros l; simpl; intuition (subst; auto)
  | apply contracted_check; [repeat constructor; simpl; intuition lia|reflexivity|reflexivity]
  | let l := fresh in intros l _; first [unfold two; lia | unfold ext0; destruct l as [|[|[|[|]]]]; lia]
  | reflexivity | reflexivity | reflexivity
  | apply (holds_check Z _ 0); reflexivity | apply (holds_check Z _ 0); reflexivity | apply (holds_check Z _ 0); reflexivity
  | apply disj_check; reflexivity | apply disj_check; reflexivity ].

(** Four contracted indices in A = (j,l,i,k), B = (m,j,l), C = (m,i,k) with
    permuted groups: accepted as a matrix product and well-formed. *)
Example C13_case :
  let A := tensor_ctor 0 [2; 2; 2; 2] in let B := tensor_ctor 16 [2; 2; 2] in let C := tensor_ctor 24 [2; 2; 2] in
  let Ci := [4; 0; 1]%nat in let Ai := [2; 3; 0; 1]%nat in let Bi := [4; 2; 3]%nat in let h := mem 32 in
  @valid_call ZOps h two Ci Ai Bi [2; 3]%nat A B C (get h A) (get h B) (get h C) /\
  dispatch (mkEin Ci Ai Bi) false true true true = PGemm /\
  match einsum (O := ZOps) (mkEin Ci Ai Bi) false true true true false false 3 C 2 A B h with
  | Ok (h', _, _) => h' (addr C [1; 0; 1]) =
      Some (3 * get h C [1; 0; 1] + 2 * einstein (O := ZOps) [2; 3]%nat Ai Bi two (get h A) (get h B)
              (fun l => match l with 4%nat => 1 | 1%nat => 1 | _ => 0 end))
  | _ => False end.
Proof. cbv zeta. split; [valid|]. split; vm_compute; reflexivity. Qed.

(** C(i,b,j) = sum_k A(k,i,b)*B(k,b,j): the label b is in all three.  The call
    is classified as a matrix product whose leading dimension BLAS rejects as
    illegal ([Throw] models XERBLA); there is no fall-back to the loop. *)
Theorem C13_batch_refuted :
  let A := tensor_ctor 0 [2; 2; 2] in let B := tensor_ctor 8 [2; 2; 2] in let C := tensor_ctor 16 [2; 2; 2] in
  let Ci := [0; 1; 2]%nat in let Ai := [3; 0; 1]%nat in let Bi := [3; 1; 2]%nat in let h := mem 24 in
  @valid_call ZOps h two Ci Ai Bi [3]%nat A B C (get h A) (get h B) (get h C) /\
  dispatch (mkEin Ci Ai Bi) false true true true = PGemm /\
  einsum (O := ZOps) (mkEin Ci Ai Bi) false true true true false false 0 C 1 A B h = Throw.
Proof. cbv zeta. split; [valid|]. split; vm_compute; reflexivity. Qed.
Print Assumptions C13_batch_refuted.

(** C(i,j,m) = sum_k A(i,k)*B(k,j), the label m only in C: part of C is wrong. *)
Theorem C13_broadcast_refuted :
  let A := tensor_ctor 0 [2; 2] in let B := tensor_ctor 4 [2; 2] in let C := tensor_ctor 8 [2; 2; 2] in
  let Ci := [0; 1; 2]%nat in let Ai := [0; 3]%nat in let Bi := [3; 1]%nat in let h := mem 16 in
  @valid_call ZOps h two Ci Ai Bi [3]%nat A B C (get h A) (get h B) (get h C) /\
  dispatch (mkEin Ci Ai Bi) false true true true = PGemm /\
  ~ einsum_spec (einsum (O := ZOps) (mkEin Ci Ai Bi) false true true true false false 1 C 1 A B h)
      (einsum_result two Ci Ai Bi [3]%nat (1 : car ZOps) 1 C (get h A) (get h B) (get h C) h).
Proof.
  cbv zeta. split; [valid|]. split; [reflexivity|].
  eapply not_done; [vm_compute; reflexivity|]. intros (H & _).
  specialize (H (fun l => 1)). vm_compute in H.
  assert (E : env_ok two (fun _ => 1) [0; 1; 2]%nat) by (intros l _; unfold two; lia).
  specialize (H E). discriminate.
Qed.
Print Assumptions C13_broadcast_refuted.

(** Contracted extent 0 and C prefactor 0: C must become 0 but is left as it is. *)
Theorem C13_empty_sum_refuted :
  let A := tensor_ctor 0 [2; 0] in let B := tensor_ctor 0 [0; 2] in let C := tensor_ctor 8 [2; 2] in
  let Ci := [0; 1]%nat in let Ai := [0; 3]%nat in let Bi := [3; 1]%nat in let h := mem 16 in
  @valid_call ZOps h ext0 Ci Ai Bi [3]%nat A B C (get h A) (get h B) (get h C) /\
  dispatch (mkEin Ci Ai Bi) false true true true = PGemm /\
  ~ einsum_spec (einsum (O := ZOps) (mkEin Ci Ai Bi) false true true true false false 0 C 1 A B h)
      (einsum_result ext0 Ci Ai Bi [3]%nat (0 : car ZOps) 1 C (get h A) (get h B) (get h C) h).
Proof.
  cbv zeta. split; [valid|]. split; [reflexivity|].
  eapply not_done; [vm_compute; reflexivity|]. intros (H & _).
  specialize (H (fun l => 1)). vm_compute in H.
  assert (E : env_ok ext0 (fun _ => 1) [0; 1]%nat) by (intros l [<-|[<-|[]]]; unfold ext0; lia).
  specialize (H E). discriminate.
Qed.
Print Assumptions C13_empty_sum_refuted.

Example C14_case :
  let A := tensor_ctor 0 [2; 2; 2] in let B := tensor_ctor 8 [2] in let C := tensor_ctor 12 [2; 2] in
  let Ci := [0; 1]%nat in let Ai := [3; 0; 1]%nat in let Bi := [3]%nat in let h := mem 16 in
  @valid_call ZOps h two Ci Ai Bi [3]%nat A B C (get h A) (get h B) (get h C) /\
  dispatch (mkEin Ci Ai Bi) false true true true = PGemv /\
  match einsum (O := ZOps) (mkEin Ci Ai Bi) false true true true false false 3 C 2 A B h with
  | Ok (h', _, _) => h' (addr C [1; 0]) =
      Some (3 * get h C [1; 0] + 2 * einstein (O := ZOps) [3]%nat Ai Bi two (get h A) (get h B)
              (fun l => match l with 0%nat => 1 | _ => 0 end))
  | _ => False end.
Proof. cbv zeta. split; [valid|]. split; vm_compute; reflexivity. Qed.

(** C(i,j) = sum_k A(i,k)*B(k), j only in C: only the first column is right. *)
Theorem C14_broadcast_refuted :
  let A := tensor_ctor 0 [2; 2] in let B := tensor_ctor 4 [2] in let C := tensor_ctor 8 [2; 2] in
  let Ci := [0; 1]%nat in let Ai := [0; 3]%nat in let Bi := [3]%nat in let h := mem 16 in
  @valid_call ZOps h two Ci Ai Bi [3]%nat A B C (get h A) (get h B) (get h C) /\
  dispatch (mkEin Ci Ai Bi) false true true true = PGemv /\
  ~ einsum_spec (einsum (O := ZOps) (mkEin Ci Ai Bi) false true true true false false 1 C 1 A B h)
      (einsum_result two Ci Ai Bi [3]%nat (1 : car ZOps) 1 C (get h A) (get h B) (get h C) h).
Proof.
  cbv zeta. split; [valid|]. split; [reflexivity|].
  eapply not_done; [vm_compute; reflexivity|]. intros (H & _).
  specialize (H (fun l => 1)). vm_compute in H.
  assert (E : env_ok two (fun _ => 1) [0; 1]%nat) by (intros l _; unfold two; lia).
  specialize (H E). discriminate.
Qed.
Print Assumptions C14_broadcast_refuted.

Theorem C14_empty_sum_refuted :
  let A := tensor_ctor 0 [2; 0] in let B := tensor_ctor 0 [0] in let C := tensor_ctor 8 [2] in
  let Ci := [0]%nat in let Ai := [0; 3]%nat in let Bi := [3]%nat in let h := mem 16 in
  @valid_call ZOps h ext0 Ci Ai Bi [3]%nat A B C (get h A) (get h B) (get h C) /\
  dispatch (mkEin Ci Ai Bi) false true true true = PGemv /\
  ~ einsum_spec (einsum (O := ZOps) (mkEin Ci Ai Bi) false true true true false false 0 C 1 A B h)
      (einsum_result ext0 Ci Ai Bi [3]%nat (0 : car ZOps) 1 C (get h A) (get h B) (get h C) h).
Proof.
  cbv zeta. split; [valid|]. split; [reflexivity|].
  eapply not_done; [vm_compute; reflexivity|]. intros (H & _).
  specialize (H (fun l => 1)). vm_compute in H.
  assert (E : env_ok ext0 (fun _ => 1) [0]%nat) by (intros l [<-|[]]; unfold ext0; lia).
  specialize (H E). discriminate.
Qed.
Print Assumptions C14_empty_sum_refuted.

Example C15_case :
  let A := tensor_ctor 0 [2; 2] in let B := tensor_ctor 4 [2] in let C := tensor_ctor 8 [2; 2; 2] in
  let Ci := [2; 0; 1]%nat in let Ai := [0; 1]%nat in let Bi := [2]%nat in let h := mem 16 in
  @valid_call ZOps h two Ci Ai Bi [] A B C (get h A) (get h B) (get h C) /\
  Ci = Bi ++ Ai /\
  dispatch (mkEin Ci Ai Bi) false true true true = POuter /\
  match einsum (O := ZOps) (mkEin Ci Ai Bi) false true true true false false 3 C 2 A B h with
  | Ok (h', _, _) => h' (addr C [1; 0; 1]) = Some (3 * get h C [1; 0; 1] + 2 * (get h A [0; 1] * get h B [1]))
  | _ => False end.
Proof. cbv zeta. split; [valid|]. split; [reflexivity|]. split; vm_compute; reflexivity. Qed.

(** C(i,j,k) = A(i,k)*B(j): the labels of A are not adjacent in C. *)
Theorem C15_interleaved_refuted :
  let A := tensor_ctor 0 [2; 2] in let B := tensor_ctor 4 [2] in let C := tensor_ctor 8 [2; 2; 2] in
  let Ci := [0; 1; 2]%nat in let Ai := [0; 2]%nat in let Bi := [1]%nat in let h := mem 16 in
  @valid_call ZOps h two Ci Ai Bi [] A B C (get h A) (get h B) (get h C) /\
  dispatch (mkEin Ci Ai Bi) false true true true = POuter /\
  ~ einsum_spec (einsum (O := ZOps) (mkEin Ci Ai Bi) false true true true false false 1 C 1 A B h)
      (einsum_result two Ci Ai Bi [] (1 : car ZOps) 1 C (get h A) (get h B) (get h C) h).
Proof.
  cbv zeta. split; [valid|]. split; [reflexivity|].
  eapply not_done; [vm_compute; reflexivity|]. intros (H & _).
  specialize (H (fun l => match l with 2%nat => 1 | _ => 0 end)). vm_compute in H.
  assert (E : env_ok two (fun l => match l with 2%nat => 1 | _ => 0 end) [0; 1; 2]%nat)
    by (intros l [<-|[<-|[<-|[]]]]; unfold two; lia).
  specialize (H E). discriminate.
Qed.
Print Assumptions C15_interleaved_refuted.

(** C(i,j,k) = A(i,j)*B(k) with C the view of a 2x2x3 tensor without its last
    column: the view of C as a matrix ignores its strides. *)
Theorem C15_strided_result_refuted :
  let A := tensor_ctor 0 [2; 2] in let B := tensor_ctor 4 [2] in let C := mkDesc 8 [2; 2; 2] [6; 3; 1] in
  let Ci := [0; 1; 2]%nat in let Ai := [0; 1]%nat in let Bi := [2]%nat in let h := mem 20 in
  @valid_call ZOps h two Ci Ai Bi [] A B C (get h A) (get h B) (get h C) /\
  dispatch (mkEin Ci Ai Bi) false true true false = POuter /\
  ~ einsum_spec (einsum (O := ZOps) (mkEin Ci Ai Bi) false true true false false false 1 C 1 A B h)
      (einsum_result two Ci Ai Bi [] (1 : car ZOps) 1 C (get h A) (get h B) (get h C) h).
Proof.
  cbv zeta. split; [valid|]. split; [reflexivity|].
  eapply not_done; [vm_compute; reflexivity|]. intros (H & _).
  specialize (H (fun l => 1)). vm_compute in H.
  assert (E : env_ok two (fun l => 1) [0; 1; 2]%nat) by (intros l _; unfold two; lia).
  specialize (H E). discriminate.
Qed.
Print Assumptions C15_strided_result_refuted.

(** ** C16: cases *)
Example C16_case :
  let A := tensor_ctor 0 [2; 2] in let B := tensor_ctor 4 [2; 2] in let C := tensor_ctor 8 [2; 2] in
  let I := [0; 1]%nat in let h := mem 12 in
  @valid_call ZOps h two I I I [] A B C (get h A) (get h B) (get h C) /\
  dispatch (mkEin I I I) false true true true = PElementwise /\
  match einsum (O := ZOps) (mkEin I I I) false true true true false false 3 C 2 A B h with
  | Ok (h', body, iters) => match run (pseq iters body) h' with
     | Ok (_, h'') => h'' (addr C [1; 0]) = Some (3 * get h C [1; 0] + 2 * (get h A [1; 0] * get h B [1; 0]))
     | _ => False end
  | _ => False end /\
  let A := tensor_ctor 0 [2; 2] in let B := mkDesc 4 [2; 2] [1; 2] in let C := tensor_ctor 8 [] in
  @valid_call ZOps h two [] I I I A B C (get h A) (get h B) (get h C) /\
  dispatch (mkEin [] I I) true true false true = PDot /\
  match einsum (O := ZOps) (mkEin [] I I) true true false true false true 3 C 2 A B h with
  | Ok (h', _, _) => h' 8 = Some (3 * get h C [] +
      2 * (get h A [0; 0] * get h B [0; 0] + get h A [0; 1] * get h B [0; 1] +
           get h A [1; 0] * get h B [1; 0] + get h A [1; 1] * get h B [1; 1]))
  | _ => False end.
Proof.
  cbv zeta. split; [valid|]. split; [reflexivity|]. split; [vm_compute; reflexivity|].
  split; [valid|]. split; vm_compute; reflexivity.
Qed.

(** ** C12 *)

(** Zero C prefactor on the matrix-matrix, matrix-vector and element-wise paths:
    two calls that differ only in the previous contents of C leave the same C.
    No law of arithmetic is used, so NaN contents are covered.  The reference
    path is in T_Einsum.v.  The dot and outer-product paths do not have the
    property ([C12_dot_refuted], [C12_outer_refuted]); an empty contraction is
    excluded for the reason of [C13_empty_sum_refuted]. *)
Theorem C12_zero_prefactor_fast_paths_partial :
  forall (O : Ops) (h1 h2 : heap (car O)) Ci Ai Bi (ext : nat -> Z) A B C a b c1 c2 cp ab L
         (fA fB fC vA vB : bool),
  let e := mkEin Ci Ai Bi in
  (dispatch e false fA fB fC = PGemm \/ dispatch e false fA fB fC = PGemv \/
   dispatch e false fA fB fC = PElementwise) ->
  valid_call h1 ext Ci Ai Bi L A B C a b c1 -> valid_call h2 ext Ci Ai Bi L A B C a b c2 ->
  (fA = true -> contiguous A) -> (fB = true -> contiguous B) -> contiguous C ->
  (forall l, In l Ci -> In l Ai \/ In l Bi) ->
  (dispatch e false fA fB fC = PGemm -> forall l, In l Ai -> In l Bi -> ~ In l Ci) ->
  (forall l, In l L -> 0 < ext l) ->
  oeqb cp o0 = true ->
  exists c' : (nat -> Z) -> car O,
    einsum_spec (einsum e false fA fB fC vA vB cp C ab A B h1)
      (fun h' => forall env, env_ok ext env Ci -> h' (addr C (map env Ci)) = Some (c' env)) /\
    einsum_spec (einsum e false fA fB fC vA vB cp C ab A B h2)
      (fun h' => forall env, env_ok ext env Ci -> h' (addr C (map env Ci)) = Some (c' env)).
Proof.
  intros O h1 h2 Ci Ai Bi ext A B C a b c1 c2 cp ab L fA fB fC vA vB e HD V1 V2 FA FB FC Hbr Hba Hpos H0.
  destruct V1 as (Hlab & HL & Hext & HdA & HdB & HdC & HA1 & HB1 & HC1 & DA & DB).
  destruct V2 as (_ & _ & _ & _ & _ & _ & HA2 & HB2 & HC2 & _ & _).
  assert (HP := contracted_perm e ext (labels_of _ _ _ Hlab) L HL).
  assert (Hvol : 0 < vol ext (link_unique e)).
  { apply vol_pos. intros l Hl. apply Hpos. eapply Permutation_in; [apply Permutation_sym; exact HP|auto]. }
  assert (Hext0 : forall l, In l (Ci ++ Ai ++ Bi) -> 0 <= ext l) by (intros l Hl; apply Hext in Hl; lia).
  assert (Hone : forall (r : res (heap (car O))) h' (Q : heap (car O) -> Prop), r = Ok h' -> Q h' ->
     einsum_spec (x <- r ;; Ok (done x)) Q).
  { intros r h' Q -> HQ. cbn [bind]. exists h', (fun _ => PRet tt), []. split; [reflexivity|]. intros threads Hth.
    apply par_empty; auto. now apply Permutation_nil, Permutation_sym. }
  destruct HD as [HD|[HD|HD]]; unfold einsum; rewrite HD.
  - assert (HD' := HD). apply dispatch_gemm in HD' as (G & -> & -> & -> & HLAB & NA & NB & NC).
    assert (HLn : link_unique e <> []).
    { destruct (linksAB e) as [|l r] eqn:E; [congruence|].
      assert (Hl : In l (linksAB e)) by (rewrite E; simpl; auto). apply in_intersect in Hl as (G1 & G2).
      assert (Hin : In l (link_unique e)).
      { unfold link_unique. rewrite in_unique, in_links. split; [exact G1|]. split; [exact G2|]. exact (Hba HD l G1 G2). }
      intros E0. rewrite E0 in Hin. contradiction. }
    assert (RA := proj1 (contiguous_rowmaj A) (FA eq_refl)). assert (RB := proj1 (contiguous_rowmaj B) (FB eq_refl)).
    assert (RC := proj1 (contiguous_rowmaj C) FC).
    destruct (gemm_nolaw e ext A B C a b c1 cp ab h1 (labels_of _ _ _ Hlab) NA NB NC Hbr (Hba HD) Hext0 HdA HdB HdC
      RA RB RC HA1 HB1 HC1 DA DB G HLn) as ((h1' & E1 & V1 & _) & _).
    destruct (gemm_nolaw e ext A B C a b c2 cp ab h2 (labels_of _ _ _ Hlab) NA NB NC Hbr (Hba HD) Hext0 HdA HdB HdC
      RA RB RC HA2 HB2 HC2 DA DB G HLn) as ((h2' & E2 & V2 & _) & _).
    exists (fun env => omul ab (opsum ab (gemm_s e ext a b env))).
    split; [apply Hone with (1 := E1)|apply Hone with (1 := E2)]; intros env He.
    + etransitivity; [apply (V1 Hvol env He)|]. unfold updv. now rewrite H0.
    + etransitivity; [apply (V2 Hvol env He)|]. unfold updv. now rewrite H0.
  - assert (HD' := HD). apply dispatch_gemv in HD' as (G & -> & -> & -> & NA & NB & NC).
    assert (RA := proj1 (contiguous_rowmaj A) (FA eq_refl)). assert (RB := proj1 (contiguous_rowmaj B) (FB eq_refl)).
    assert (RC := proj1 (contiguous_rowmaj C) FC).
    destruct (gemv_nolaw e ext A B C a b c1 cp ab h1 (labels_of _ _ _ Hlab) NA NB NC Hbr Hext0 HdA HdB HdC
      RA RB RC HA1 HB1 HC1 DA DB G) as ((h1' & E1 & V1 & _) & _).
    destruct (gemv_nolaw e ext A B C a b c2 cp ab h2 (labels_of _ _ _ Hlab) NA NB NC Hbr Hext0 HdA HdB HdC
      RA RB RC HA2 HB2 HC2 DA DB G) as ((h2' & E2 & V2 & _) & _).
    exists (fun env => omul ab (opsum ab (gemv_s e ext a b env))).
    split; [apply Hone with (1 := E1)|apply Hone with (1 := E2)]; intros env He.
    + etransitivity; [apply (V1 Hvol env He)|]. unfold updv. now rewrite H0.
    + etransitivity; [apply (V2 Hvol env He)|]. unfold updv. now rewrite H0.
  - assert (HD' := HD). apply dispatch_elementwise in HD' as (EA & EB & NC). simpl in EA, EB, NC. subst Ai Bi.
    assert (RC := proj1 (contiguous_rowmaj C) FC). unfold consistent in *.
    assert (Hf : Forall (fun d => 0 <= d < 2 ^ 31) (ddims C)).
    { rewrite HdC. apply Forall_map, Forall_forall. intros l Hl. apply Hext. apply in_or_app. auto. }
    destruct (dp_ok A B C a b c1 cp ab h1) as (k1 & E1 & P1); auto; try congruence.
    destruct (dp_ok A B C a b c2 cp ab h2) as (k2 & E2 & P2); auto; try congruence.
    exists (fun env => oadd (omul cp o0) (omul ab (omul (a (map env Ci)) (b (map env Ci))))).
    rewrite E1, E2. cbn [bind fst snd].
    split; [exists k1|exists k2]; exists (dp_body ab A B cp C), (indices (map to_int32 (ddims C))); split; auto;
      intros threads Hth; [apply par_spec_weaken with (2 := P1 threads Hth)|apply par_spec_weaken with (2 := P2 threads Hth)];
      intros h' (G1 & _) env He; rewrite G1 by (rewrite HdC; apply inb_map_env; auto); unfold dp_val; now rewrite H0.
Qed.
Print Assumptions C12_zero_prefactor_fast_paths_partial.

(** C() = 0*C() + A(i)*B(i) with C uninitialised (NaN) stays NaN. *)
Theorem C12_dot_refuted :
  let h : heap (option Z) := fun z => if (0 <=? z) && (z <? 4) then Some (Some z) else if z =? 10 then Some None else None in
  let A := tensor_ctor 0 [2] in let B := tensor_ctor 2 [2] in let C := tensor_ctor 10 [] in
  let e := mkEin [] [0]%nat [0]%nat in
  dispatch e true true true true = PDot /\
  match einsum (O := NanOps) e true true true true false false (Some 0) C (Some 1) A B h with
  | Ok (h', _, []) => h' 10 = Some None
  | _ => False end.
Proof. split; reflexivity. Qed.
Print Assumptions C12_dot_refuted.

(** C(i,j) = 0*C(i,j) + A(i)*B(j): NaN survives in C. *)
Theorem C12_outer_refuted :
  let h : heap (option Z) := fun z => if (0 <=? z) && (z <? 4) then Some (Some z) else
     if (10 <=? z) && (z <? 14) then Some None else None in
  let A := tensor_ctor 0 [2] in let B := tensor_ctor 2 [2] in let C := tensor_ctor 10 [2; 2] in
  let e := mkEin [0; 1]%nat [0]%nat [1]%nat in
  dispatch e false true true true = POuter /\
  match einsum (O := NanOps) e false true true true false false (Some 0) C (Some 1) A B h with
  | Ok (h', _, []) => h' 10 = Some None
  | _ => False end.
Proof. split; vm_compute; reflexivity. Qed.
Print Assumptions C12_outer_refuted.

(** Non-vacuity: a matrix product into NaN. *)
Example C12_fast_case :
  let h : heap (option Z) := fun z => if (0 <=? z) && (z <? 8) then Some (Some z) else
     if (10 <=? z) && (z <? 14) then Some None else None in
  let A := tensor_ctor 0 [2; 2] in let B := tensor_ctor 4 [2; 2] in let C := tensor_ctor 10 [2; 2] in
  let e := mkEin [0; 1]%nat [0; 2]%nat [2; 1]%nat in
  dispatch e false true true true = PGemm /\
  match einsum (O := NanOps) e false true true true false false (Some 0) C (Some 1) A B h with
  | Ok (h', _, []) => h' 10 = Some (Some (0 * 4 + 1 * 6))
  | _ => False end.
Proof. split; vm_compute; reflexivity. Qed.

(** ** C47: a whole call, whichever algorithm it uses *)

(** For every index pattern in which each result label comes from exactly one
    operand (or all three lists coincide), C lists its labels operand by operand
    when nothing is summed, no summed label is repeated in A and no summed
    extent is 0: the call computes the Einstein sum, for every layout of A and
    B, every value of the layout flags consistent with the strides, all
    prefactors, all thread counts and interleavings.  The excluded patterns are
    those of the [_refuted] theorems of C11 and C13-C15. *)
Theorem C47_einsum_partial :
  forall (O : Ops) (HR : is_ring O) (h : heap (car O)) Ci Ai Bi (ext : nat -> Z) A B C a b c cp ab L
         (scalarC fA fB fC vA vB : bool),
  valid_call h ext Ci Ai Bi L A B C a b c ->
  Ai <> [] -> Bi <> [] ->
  (forall l, In l Ci -> In l Ai \/ In l Bi) ->
  ((forall l, In l Ai -> In l Bi -> ~ In l Ci) \/ (Ai = Ci /\ Bi = Ci)) ->
  (L = [] -> Ci = Ai ++ Bi \/ Ci = Bi ++ Ai \/ (Ai = Ci /\ Bi = Ci)) ->
  (forall l, In l L -> count_occ Nat.eq_dec Ai l = 1%nat) ->
  ((forall l, In l L -> 0 < ext l) \/ cp = o1) ->
  (fA = true -> contiguous A) -> (fB = true -> contiguous B) -> (fC = true -> contiguous C) ->
  (L = [] -> contiguous C) -> (scalarC = true -> Ci = []) -> inj C ->
  Forall (fun x => 0 <= x) (dstrides A) -> Forall (fun x => 0 <= x) (dstrides B) ->
  length (dstrides A) = length Ai -> length (dstrides B) = length Bi -> length (dstrides C) = length Ci ->
  einsum_spec (einsum (mkEin Ci Ai Bi) scalarC fA fB fC vA vB cp C ab A B h)
    (einsum_result ext Ci Ai Bi L cp ab C a b c h).
Proof.
  intros O HR h Ci Ai Bi ext A B C a b c cp ab L s fA fB fC vA vB V NEA NEB Hbr Hba Hout Hone Hk FA FB FC FC0 Hs Hinj
    PA PB LA LB LC.
  destruct V as (Hlab & HL & Hext & HdA & HdB & HdC & HA & HB & HC & DA & DB).
  assert (Hext0 : forall l, In l (Ci ++ Ai ++ Bi) -> 0 <= ext l) by (intros l Hl; apply Hext in Hl; lia).
  assert (HextC : forall l, In l Ci -> 0 <= ext l < 2 ^ 31) by (intros l Hl; apply Hext; apply in_or_app; auto).
  assert (HextA : forall l, In l Ai -> 0 <= ext l) by (intros l Hl; apply Hext0; apply in_or_app; right; apply in_or_app; auto).
  destruct (dispatch (mkEin Ci Ai Bi) s fA fB fC) eqn:HD.
  - eapply C16_dot; eauto. apply dispatch_dot in HD as (EC & _). simpl in EC. subst Ci.
    destruct (dstrides C); auto. discriminate.
  - assert (HD' := HD). apply dispatch_elementwise in HD' as (EA & EB & _). simpl in EA, EB.
    eapply C16_elementwise; eauto. apply FC0. destruct L as [|l L]; auto. exfalso.
    destruct (proj1 (proj2 HL l)) as (H1 & H2); [simpl; auto|]. rewrite EA, EB in H1. tauto.
  - assert (HD' := HD). apply dispatch_outer in HD' as (_ & _ & _ & _ & _ & _ & Hno). simpl in Hno.
    assert (L = []).
    { destruct L as [|l L]; auto. exfalso. destruct (proj1 (proj2 HL l)) as (H1 & H2); [simpl; auto|].
      destruct (Hlab l H1) as [H3|(H3 & H4)]; auto. eapply Hno; eauto. }
    assert (s = false) as -> by (destruct s; auto; exfalso; unfold dispatch in HD; simpl in HD;
      destruct (dot_product _); [discriminate|]; destruct (element_wise_multiplication _); discriminate).
    eapply C15_outer_partial; eauto.
    destruct (Hout H) as [E|[E|(E1 & E2)]]; auto. exfalso. subst Ai. destruct Ci as [|l r]; [congruence|].
    apply (Hno l); rewrite ?E2; simpl; auto.
  - assert (s = false) as -> by (destruct s; auto; exfalso; unfold dispatch in HD; simpl in HD;
      destruct (dot_product _); [discriminate|]; destruct (element_wise_multiplication _); discriminate).
    eapply C14_gemv_partial; eauto.
  - assert (s = false) as -> by (destruct s; auto; exfalso; unfold dispatch in HD; simpl in HD;
      destruct (dot_product _); [discriminate|]; destruct (element_wise_multiplication _); discriminate).
    assert (HG := HD). apply dispatch_gemm in HG as (_ & _ & _ & _ & HLAB & NA & NB & NC). simpl in NA, NB, NC.
    eapply C13_gemm_partial; eauto. destruct Hba as [Hba|(E1 & E2)]; auto. exfalso. subst Ai Bi.
    unfold dispatch in HD.
    assert (EE : element_wise_multiplication (mkEin Ci Ci Ci) = true).
    { unfold element_wise_multiplication, same_indices, A_hadamard, B_hadamard, C_hadamard. simpl eA. simpl eB. simpl eC.
      destruct (list_eq_dec Nat.eq_dec Ci Ci); [|congruence].
      assert (Eu : Nat.eqb (length Ci) (length (unique Ci)) = true) by (apply hadamard_NoDup; auto).
      rewrite Eu. reflexivity. }
    rewrite EE in HD. destruct (dot_product _); discriminate.
  - exists h, (generic_body (mkEin Ci Ai Bi) cp ab C A B), (generic_targets (mkEin Ci Ai Bi) C).
    split; [unfold einsum; now rewrite HD|]. intros threads Hth.
    eapply C11_einsum_generic_partial; eauto.
Qed.
Print Assumptions C47_einsum_partial.

(** C(m,i,k) = 3*C + 2*sum_jl A(j,l,i,k)*B(m,j,l) meets every hypothesis. *)
Example C47_case :
  let A := tensor_ctor 0 [2; 2; 2; 2] in let B := tensor_ctor 16 [2; 2; 2] in let C := tensor_ctor 24 [2; 2; 2] in
  let Ci := [4; 0; 1]%nat in let Ai := [2; 3; 0; 1]%nat in let Bi := [4; 2; 3]%nat in let h := mem 32 in
  let L := [2; 3]%nat in
  @valid_call ZOps h two Ci Ai Bi L A B C (get h A) (get h B) (get h C) /\
  (forall l, In l Ci -> In l Ai \/ In l Bi) /\
  (forall l, In l Ai -> In l Bi -> ~ In l Ci) /\
  (forall l, In l L -> count_occ Nat.eq_dec Ai l = 1%nat) /\
  contiguous A /\ contiguous B /\ contiguous C /\ inj C.
Proof.
  cbv zeta. split; [valid|].
  split; [intros l [<-|[<-|[<-|[]]]]; simpl; auto 10|].
  split; [intros l [<-|[<-|[<-|[<-|[]]]]]; simpl; intuition lia|].
  split; [intros l [<-|[<-|[]]]; reflexivity|].
  split; [apply contiguous_rowmaj; reflexivity|]. split; [apply contiguous_rowmaj; reflexivity|].
  split; [apply contiguous_rowmaj; reflexivity|]. apply rm_inj.
Qed.
