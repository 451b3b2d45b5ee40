(** * T_Sort: C18. *)
From Coq Require Import List ZArith Lia Bool Permutation Ring.
From Verif Require Import Base Heap Conc M_Addr L_Addr M_Elt L_Elt M_Einsum S_Einsum L_Einsum S_Blas M_Blas L_Blas T_Blas
  M_Dispatch S_Dispatch L_Dispatch L_Paths T_Dispatch M_Sort.
Import ListNotations.
Open Scope Z_scope.

Lemma intersect_all : forall S1 S2, (forall l, In l S1 -> In l S2) -> intersect S1 S2 = S1.
Proof.
  induction S1 as [|x S1 IH]; intros S2 H; auto. unfold intersect. simpl. rewrite (proj2 (has_type_In x S2)) by (apply H; simpl; auto).
  f_equal. apply IH. intros l Hl. apply H. simpl. auto.
Qed.

Lemma sort_positions_spec : forall Ci Ai, NoDup Ai -> (forall l, In l Ci -> In l Ai) ->
  Forall2 (at_pos Ai) Ci (sort_positions Ci Ai).
Proof. intros Ci Ai HN H. rewrite <- (intersect_all Ci Ai H) at 1. apply ftwp_spec. auto. Qed.

Lemma sort_index_env : forall Ci Ai (env : nat -> Z), NoDup Ai -> (forall l, In l Ci <-> In l Ai) ->
  map (sort_index Ci Ai (map env Ci)) Ai = map env Ai.
Proof.
  intros Ci Ai env HN H. apply map_ext_in. intros l Hl. unfold sort_index.
  rewrite (at_pos_fst Ai Ci) by (apply sort_positions_spec; auto; apply H).
  destruct (find_position_In l Ci) as (p & E); [now apply H|]. rewrite E. apply find_position_Some in E.
  apply nth_map_error. auto.
Qed.

Lemma pick_env : forall Ci Ai (env : nat -> Z), NoDup Ai -> (forall l, In l Ci <-> In l Ai) ->
  map (fun p => nth p (map env Ai) 0) (map snd (sort_positions Ci Ai)) = map env Ci.
Proof.
  intros Ci Ai env HN H. assert (HF : Forall2 (at_pos Ai) Ci (sort_positions Ci Ai)) by (apply sort_positions_spec; auto; apply H).
  clear H. induction HF as [|l p P ps (E & Hp) _ IH]; auto. simpl. f_equal; [|exact IH]. apply nth_map_error. auto.
Qed.

Lemma map_int32 : forall l, Forall (fun d => 0 <= d < 2 ^ 31) l -> map to_int32 l = l.
Proof. induction 1; simpl; auto. rewrite IHForall, to_int32_id by lia. auto. Qed.

Lemma fill_ok : forall (O : Ops) (C : desc) (c : list Z -> car O) (h : heap (car O)), inj C -> holds h C c ->
  exists h1, exec (pseq (indices (ddims C)) (fun idx => PWr (subscript C idx) o0 (PRet tt))) h = Ok h1 /\
    holds h1 C (fun _ => o0) /\ forall z, ~ cell C z -> h1 z = h z.
Proof.
  intros O C c h HI HC.
  destruct (exec_w (list Z) (indices (ddims C)) (addr C) (fun _ => o0)
    (fun idx => PWr (subscript C idx) o0 (PRet tt)) h) as (h1 & E & H1 & H2).
  - apply NoDup_addrs; auto.
  - intros idx h1 Hin Hag. apply in_indices in Hin. rewrite subscript_inb by auto.
    apply wtask_wr with (w := c idx); auto. rewrite Hag; auto.
  - exists h1. split; auto. split.
    + intros idx Hi. apply H1. now apply in_indices.
    + intros z Hz. apply H2. now rewrite owned_cells.
Qed.

Lemma NoDup_map_inj' : forall dims (f : list Z -> Z),
  (forall i j, inb i dims -> inb j dims -> f i = f j -> i = j) -> NoDup (map f (indices dims)).
Proof.
  intros dims f H. assert (G : forall l, NoDup l -> (forall x, In x l -> inb x dims) -> NoDup (map f l)).
  { induction l as [|x l IH]; intros HN Hl; simpl; constructor; apply NoDup_cons_iff in HN as (N1 & N2).
    - rewrite in_map_iff. intros (y & E & Hy). apply H in E; [subst; auto|apply Hl; simpl; auto|apply Hl; simpl; auto].
    - apply IH; auto. intros y Hy. apply Hl. simpl. auto. }
  apply G; [apply indices_NoDup|]. intros x. apply in_indices.
Qed.

(** ** C18 *)

(** [sort] sets every element of C to uc*C + ua*A at the permuted index and
    changes nothing else, for every rank, permutation, extents (below 2^31),
    prefactors, thread schedule, with and without HPTT.  When the two index
    lists are equal and HPTT is not used, both operands must be contiguous;
    the full statement (any view) is false there: [C18_view_refuted]. *)
Theorem C18_sort_partial :
  forall (O : Ops) (HR : is_ring O) (h : heap (car O)) Ci Ai (ext : nat -> Z) A C a c uc ua (use_hptt : bool),
  NoDup Ci -> Permutation Ci Ai -> Ci <> [] ->
  (forall l, In l Ci -> 0 <= ext l < 2 ^ 31) ->
  consistent ext Ai A -> consistent ext Ci C ->
  holds h A a -> holds h C c -> inj C -> disj C A ->
  (use_hptt = true -> contiguous A /\ contiguous C) ->
  (Ci = Ai -> contiguous A /\ contiguous C) ->
  einsum_spec (sort use_hptt uc Ci C ua Ai A h) (fun h' =>
    (forall env, env_ok ext env Ci ->
       h' (addr C (map env Ci)) = Some (oadd (omul uc (c (map env Ci))) (omul ua (a (map env Ai))))) /\
    (forall z, (forall env, env_ok ext env Ci -> z <> addr C (map env Ci)) -> h' z = h z)).
Proof.
  intros O HR h Ci Ai ext A C a c uc ua use_hptt HN HP Hne Hext HdA HdC HA HC HI HD Hh Hs.
  assert (HNA : NoDup Ai) by (eapply Permutation_NoDup; eauto).
  assert (Hin : forall l, In l Ci <-> In l Ai).
  { intros l. split; intros Hl; [eapply Permutation_in; eauto|eapply Permutation_in; [apply Permutation_sym|]; eauto]. }
  unfold consistent in *.
  assert (FC : Forall (fun d => 0 <= d < 2 ^ 31) (ddims C)).
  { rewrite HdC. apply Forall_map, Forall_forall. auto. }
  assert (FA : Forall (fun d => 0 <= d < 2 ^ 31) (ddims A)).
  { rewrite HdA. apply Forall_map, Forall_forall. intros l Hl. apply Hext. now apply Hin. }
  assert (H1 : exists h1, (if oeqb uc o0
      then exec (pseq (indices (ddims C)) (fun idx => PWr (subscript C idx) o0 (PRet tt))) h else Ok h) = Ok h1 /\
      holds h1 C (fun idx => if oeqb uc o0 then o0 else c idx) /\ forall z, ~ cell C z -> h1 z = h z).
  { destruct (oeqb uc o0); [|exists h; auto]. apply fill_ok with (c := c); auto. }
  destruct H1 as (h1 & E1 & HC1 & F1). unfold sort. rewrite E1. cbn [bind].
  assert (HA1 : holds h1 A a).
  { intros idx Hi. rewrite F1; auto. intros (i & Hi' & E). apply (HD i idx); auto. }
  assert (Hv : forall w, omul uc (if oeqb uc o0 then o0 else w) = omul uc w).
  { intros w. destruct (oeqb uc o0) eqn:E; auto. apply (ir_eqb O HR) in E. subst. now rewrite !(omul_0_l HR). }
  assert (Hcell : forall z, (forall env, env_ok ext env Ci -> z <> addr C (map env Ci)) -> ~ cell C z).
  { intros z Hz Hc. destruct (cell_env ext C Ci z HN HdC Hc) as (env & He & E). apply (Hz env); auto. }
  assert (Hfin : forall h', holds h' C (fun idx => oadd (omul uc (if oeqb uc o0 then o0 else c idx))
        (omul ua (a (map (sort_index Ci Ai idx) Ai)))) -> (forall z, ~ cell C z -> h' z = h1 z) ->
     (forall env, env_ok ext env Ci ->
       h' (addr C (map env Ci)) = Some (oadd (omul uc (c (map env Ci))) (omul ua (a (map env Ai))))) /\
     (forall z, (forall env, env_ok ext env Ci -> z <> addr C (map env Ci)) -> h' z = h z)).
  { intros h' G1 G2. split.
    - intros env He. rewrite G1 by (rewrite HdC; apply inb_map_env; auto).
      rewrite sort_index_env by auto. now rewrite Hv.
    - intros z Hz. apply Hcell in Hz. rewrite G2, F1; auto. }
  assert (Hone : forall h' (Q : heap (car O) -> Prop), Q h' -> einsum_spec (Ok (done h')) Q).
  { intros h' Q HQ. exists h', (fun _ => PRet tt), []. split; [reflexivity|]. intros threads Hth.
    apply par_empty; auto. now apply Permutation_nil, Permutation_sym. }
  assert (Hidx : forall idx, inb idx (ddims C) -> exists env, env_ok ext env Ci /\ idx = map env Ci).
  { intros idx Hi. rewrite HdC in Hi. assert (HL := inb_length _ _ Hi). rewrite map_length in HL.
    exists (upds Ci idx (fun _ => 0)). rewrite upds_map by auto. split; auto.
    apply upds_ok; auto. intros l G1 G2. contradiction. }
  assert (Ainb : forall idx, inb idx (ddims C) -> inb (map (sort_index Ci Ai idx) Ai) (ddims A)).
  { intros idx Hi. destruct (Hidx idx Hi) as (env & He & ->). rewrite sort_index_env by auto. rewrite HdA.
    apply inb_map_env. intros l Hl. apply He. now apply Hin. }
  destruct use_hptt.
  - destruct (Hh eq_refl) as (CA & CC). apply contiguous_rowmaj in CA. apply contiguous_rowmaj in CC.
    assert (DA : tensor_ctor (dbase A) (ddims A) = A) by (destruct A; unfold rowmaj in CA; simpl in *; now rewrite CA).
    assert (DC : tensor_ctor (dbase C) (ddims C) = C) by (destruct C; unfold rowmaj in CC; simpl in *; now rewrite CC).
    unfold hptt. rewrite map_int32 by auto. cbv zeta.
    set (perm := map snd (sort_positions Ci Ai)).
    assert (EP : map (fun p => nth p (ddims A) 0) perm = ddims C).
    { rewrite HdA, HdC. apply (pick_env Ci Ai ext); auto. }
    rewrite EP, DA, DC. set (pick := fun idx : list Z => map (fun p => nth p idx 0) perm).
    assert (HidA : forall idx, inb idx (ddims A) -> exists env, env_ok ext env Ci /\ idx = map env Ai /\ pick idx = map env Ci).
    { intros idx Hi. rewrite HdA in Hi. assert (HL := inb_length _ _ Hi). rewrite map_length in HL.
      exists (upds Ai idx (fun _ => 0)).
      assert (EE : map (upds Ai idx (fun _ => 0)) Ai = idx) by (apply upds_map; auto). split; [|split; auto].
      - intros l Hl. apply (upds_ok Ai idx (fun _ => 0) ext Ai); auto; [intros l' G1 G2; contradiction|now apply Hin].
      - rewrite <- EE at 1. apply (pick_env Ci Ai); auto. }
    assert (Hpinb : forall idx, inb idx (ddims A) -> inb (pick idx) (ddims C)).
    { intros idx Hi. destruct (HidA idx Hi) as (env & He & E & E2). rewrite E2, HdC. apply inb_map_env; auto. }
    destruct (exec_w (list Z) (indices (ddims A)) (fun idx => addr C (pick idx))
      (fun idx => oadd (omul ua (a idx)) (omul uc (if oeqb uc o0 then o0 else c (pick idx))))
      (fun idx => PRd (addr A idx) (fun av => PRd (addr C (pick idx)) (fun v =>
        PWr (addr C (pick idx)) (oadd (omul ua av) (omul uc v)) (PRet tt)))) h1) as (h2 & E2 & G1 & G2).
    + apply (NoDup_map_inj' (ddims A)).
      intros i j Hi Hj E. destruct (HidA i Hi) as (e1 & He1 & -> & P1). destruct (HidA j Hj) as (e2 & He2 & -> & P2).
      apply HI in E; try (apply Hpinb; auto). rewrite P1, P2 in E.
      apply map_ext_in. intros l Hl. apply Hin in Hl. eapply ext_in_map; eauto.
    + intros idx h2 Hx Hag. apply in_indices in Hx.
      assert (Hno : ~ owned (indices (ddims A)) (fun idx => addr C (pick idx)) (addr A idx)).
      { intros Ho. unfold owned in Ho. apply in_map_iff in Ho as (j & E & Hj). apply in_indices in Hj.
        apply (HD (pick j) idx); auto. }
      apply wtask_rd with (u := a idx); [auto|rewrite Hag; auto|].
      apply wtask_rd with (u := if oeqb uc o0 then o0 else c (pick idx)); [auto|rewrite Hag; auto; apply HC1; auto|].
      apply wtask_wr with (w := if oeqb uc o0 then o0 else c (pick idx)); [auto|rewrite Hag; auto; apply HC1; auto].
    + unfold pick in E2. rewrite E2. cbn [bind]. apply Hone. apply Hfin.
      * intros idx Hi. destruct (Hidx idx Hi) as (env & He & ->). rewrite sort_index_env by auto.
        assert (HiA : inb (map env Ai) (ddims A)).
        { rewrite HdA. apply inb_map_env. intros l Hl. apply He. now apply Hin. }
        assert (Epk : pick (map env Ai) = map env Ci) by (apply (pick_env Ci Ai); auto).
        specialize (G1 (map env Ai)). rewrite Epk in G1. rewrite G1 by (now apply in_indices).
        f_equal. apply (Radd_comm (ir_rt O HR)).
      * intros z Hz. apply G2. intros Ho. unfold owned in Ho. apply in_map_iff in Ho as (j & E & Hj).
        apply in_indices in Hj. apply Hz. exists (pick j). split; auto.
  - destruct (same_indices Ai Ci) eqn:ES.
    + unfold same_indices in ES. destruct (list_eq_dec Nat.eq_dec Ai Ci) as [e|]; [|discriminate].
      destruct (Hs (eq_sym e)) as (CA & CC).
      destruct (C21_axpby_partial O HR ua uc A C a (fun idx => if oeqb uc o0 then o0 else c idx) h1) as (_ & h2 & E2 & G1 & G2); auto.
      { rewrite HdA. destruct Ai; [subst; congruence|discriminate]. }
      { eapply Forall_impl; [|exact FA]. simpl. intros; lia. }
      { congruence. }
      rewrite E2. cbn [bind]. apply Hone. apply Hfin; auto.
      intros idx Hi. rewrite G1 by auto. destruct (Hidx idx Hi) as (env & He & ->).
      rewrite sort_index_env by auto. rewrite e. f_equal. apply (Radd_comm (ir_rt O HR)).
    + rewrite map_int32 by auto. eexists _, _, _. split; [reflexivity|]. intros threads Hth.
      assert (HPS := par_cells _ _ (indices (ddims C)) threads (addr C)
        (fun idx => Some (oadd (omul uc (if oeqb uc o0 then o0 else c idx)) (omul ua (a (map (sort_index Ci Ai idx) Ai)))))
        (sort_body uc Ci C ua Ai A) h1 Hth (NoDup_addrs C HI)).
      eapply par_spec_weaken; [|apply HPS].
      { intros h' (G1 & G2). apply Hfin.
        - intros idx Hi. apply G1. now apply in_indices.
        - intros z Hz. apply G2. now rewrite owned_cells. }
      apply wtasks_ok. intros idx h2 Hx Hag. apply in_indices in Hx. unfold sort_body.
      rewrite !subscript_inb by auto.
      assert (Hno : ~ owned (indices (ddims C)) (addr C) (addr A (map (sort_index Ci Ai idx) Ai))).
      { intros Ho. apply owned_cells in Ho as (j & Hj & E). apply (HD j (map (sort_index Ci Ai idx) Ai)); auto. }
      apply wtask_rd with (u := a (map (sort_index Ci Ai idx) Ai)); [auto|rewrite Hag; auto|].
      apply wtask_rd with (u := if oeqb uc o0 then o0 else c idx); [auto|rewrite Hag; auto|].
      apply wtask_wr with (w := if oeqb uc o0 then o0 else c idx); auto. rewrite Hag; auto.
Qed.
Print Assumptions C18_sort_partial.

(** Sorting back with the inverse permutation gives the original contents. *)
Theorem C18_sort_inverse :
  forall (O : Ops) (HR : is_ring O) (h : heap (car O)) Ci Ai (ext : nat -> Z) A C D a c d (use_hptt : bool),
  NoDup Ci -> Permutation Ci Ai -> Ci <> [] ->
  (forall l, In l Ci -> 0 <= ext l < 2 ^ 31) ->
  consistent ext Ai A -> consistent ext Ci C -> consistent ext Ai D ->
  holds h A a -> holds h C c -> holds h D d -> disj C A -> disj D C -> disj C D ->
  contiguous A -> contiguous C -> contiguous D ->
  einsum_spec (sort use_hptt o0 Ci C o1 Ai A h) (fun h1 =>
    einsum_spec (sort use_hptt o0 Ai D o1 Ci C h1) (fun h2 => holds h2 D a)).
Proof.
  intros O HR h Ci Ai ext A C D a c d hp HN HP Hne Hext HdA HdC HdD HA HC HD D1 D2 D3 CA CC CD.
  assert (HNA : NoDup Ai) by (eapply Permutation_NoDup; eauto).
  assert (Hin : forall l, In l Ci <-> In l Ai).
  { intros l. split; intros Hl; [eapply Permutation_in; eauto|eapply Permutation_in; [apply Permutation_sym|]; eauto]. }
  assert (IC : inj C) by (apply rowmaj_inj, contiguous_rowmaj; auto).
  assert (ID : inj D) by (apply rowmaj_inj, contiguous_rowmaj; auto).
  destruct (C18_sort_partial O HR h Ci Ai ext A C a c o0 o1 hp) as (h1 & body & iters & E & HS); auto.
  exists h1, body, iters. split; auto. intros threads Hth.
  apply par_spec_weaken with (2 := HS threads Hth). clear HS. intros h' (G1 & G2).
  unfold consistent in *.
  set (c' := fun idx : list Z => a (map (upds Ci idx (fun _ => 0)) Ai)).
  assert (HC' : holds h' C c').
  { intros idx Hi. rewrite HdC in Hi. assert (HL := inb_length _ _ Hi). rewrite map_length in HL.
    assert (He : env_ok ext (upds Ci idx (fun _ => 0)) Ci) by (apply upds_ok; auto; intros l K1 K2; contradiction).
    specialize (G1 _ He). rewrite upds_map in G1 by auto. rewrite G1. unfold c'.
    rewrite (omul_0_l HR), (Radd_0_l (ir_rt O HR)), (Rmul_1_l (ir_rt O HR)). auto. }
  assert (HD' : holds h' D d).
  { intros idx Hi. rewrite G2; auto. intros env He E2. apply (D3 (map env Ci) idx); auto.
    rewrite HdC. apply inb_map_env; auto. }
  destruct (C18_sort_partial O HR h' Ai Ci ext C D c' d o0 o1 hp) as (h2 & body2 & it2 & E2 & HS2); auto.
  { apply Permutation_sym; auto. }
  { intros ->. apply Permutation_sym, Permutation_nil in HP. auto. }
  { intros l Hl. apply Hext, Hin; auto. }
  exists h2, body2, it2. split; auto. intros th2 Hth2. apply par_spec_weaken with (2 := HS2 th2 Hth2).
  intros h'' (K1 & _) idx Hi. rewrite HdD in Hi. assert (HL := inb_length _ _ Hi). rewrite map_length in HL.
  assert (He : env_ok ext (upds Ai idx (fun _ => 0)) Ai) by (apply upds_ok; auto; intros l Q1 Q2; contradiction).
  specialize (K1 _ He). rewrite upds_map in K1 by auto. rewrite K1.
  rewrite (omul_0_l HR), (Radd_0_l (ir_rt O HR)), (Rmul_1_l (ir_rt O HR)). f_equal. unfold c'. f_equal.
  transitivity (map (upds Ai idx (fun _ => 0)) Ai); [|apply upds_map; auto].
  apply map_ext_in. intros l Hl. apply Hin in Hl.
  assert (EU : map (upds Ci (map (upds Ai idx (fun _ => 0)) Ci) (fun _ => 0)) Ci = map (upds Ai idx (fun _ => 0)) Ci).
  { apply upds_map; auto. now rewrite map_length. }
  eapply ext_in_map in EU; eauto.
Qed.
Print Assumptions C18_sort_inverse.

(** Same index order without HPTT: the first column (a 2x1 view) of a 2x2
    matrix is "sorted" into a 2x1 tensor; the call runs past the target. *)
Theorem C18_view_refuted :
  let A := mkDesc 0 [2; 1] [2; 1] in let C := tensor_ctor 10 [2; 1] in let h := mem 12 in
  holds h A (get h A) /\ holds h C (get h C) /\ disj C A /\ inj C /\
  sort (O := ZOps) false 0 [0; 1]%nat C 1 [0; 1]%nat A h = UB.
Proof.
  cbv zeta. split; [apply (holds_check Z _ 0); reflexivity|]. split; [apply (holds_check Z _ 0); reflexivity|].
  split; [apply disj_check; reflexivity|]. split; [apply rm_inj|]. vm_compute. reflexivity.
Qed.
Print Assumptions C18_view_refuted.

(** C(k,i,j) = 3*C + 2*A(i,j,k) on a 2x2x2 tensor, with and without HPTT. *)
Example C18_case :
  let A := tensor_ctor 0 [2; 2; 2] in let C := tensor_ctor 8 [2; 2; 2] in let h := mem 16 in
  let Ci := [2; 0; 1]%nat in let Ai := [0; 1; 2]%nat in
  holds h A (get h A) /\ holds h C (get h C) /\ disj C A /\ inj C /\ Permutation Ci Ai /\
  match sort (O := ZOps) false 3 Ci C 2 Ai A h with
  | Ok (h', body, iters) => match run (pseq iters body) h' with
     | Ok (_, h'') => h'' (addr C [1; 0; 1]) = Some (3 * get h C [1; 0; 1] + 2 * get h A [0; 1; 1])
     | _ => False end
  | _ => False end /\
  match sort (O := ZOps) true 3 Ci C 2 Ai A h with
  | Ok (h', _, []) => h' (addr C [1; 0; 1]) = Some (3 * get h C [1; 0; 1] + 2 * get h A [0; 1; 1])
  | _ => False end.
Proof.
  cbv zeta. split; [apply (holds_check Z _ 0); reflexivity|]. split; [apply (holds_check Z _ 0); reflexivity|].
  split; [apply disj_check; reflexivity|]. split; [apply rm_inj|].
  split. { apply NoDup_Permutation; [repeat constructor; simpl; intuition lia|repeat constructor; simpl; intuition lia|].
    intros l. simpl. tauto. }
  split; vm_compute; reflexivity.
Qed.
