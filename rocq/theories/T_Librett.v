(** * T_Librett: C128, sorting device tensors through LibreTT. *)
From Coq Require Import List ZArith Lia Bool Permutation Ring_theory.
From Verif Require Import Base Num Heap Conc GpuConc M_Addr M_Elt M_Einsum M_Blas M_Dispatch M_Sort M_Gpu M_GpuLin S_Einsum S_Blas S_Gpu S_GpuLin.
From Verif Require Import L_Addr L_Elt L_Einsum L_Blas L_Dispatch L_Paths L_Gpu L_GpuOps L_GpuLin T_Blas T_Dispatch T_Sort T_GpuOps T_GpuLin.
From Verif Require Import M_Librett.
Import ListNotations.
Open Scope Z_scope.

Lemma col_scan : forall dims s, col_strides s dims = stride_scan s dims.
Proof. induction dims as [|d ds IH]; intros s; [reflexivity|]. cbn. now rewrite IH. Qed.
Lemma dotp_rev : forall i s, length i = length s -> dotp (rev i) (rev s) = dotp i s.
Proof.
  induction i as [|x i IH]; intros [|y s] H; cbn [rev length] in *; try discriminate; auto.
  rewrite dotp_app by (rewrite !rev_length; lia). rewrite IH by lia. cbn. lia.
Qed.
Lemma scan_length : forall dims s, length (stride_scan s dims) = length dims.
Proof. induction dims as [|d ds IH]; intros s; cbn; auto. Qed.
Lemma col_addr : forall base dims idx, length idx = length dims ->
  addr (col_major base (rev dims)) (rev idx) = addr (tensor_ctor base dims) idx.
Proof.
  intros base dims idx H. unfold addr, col_major, tensor_ctor. cbn [dbase dstrides]. f_equal. rewrite col_scan. unfold row_major_strides.
  rewrite <- (rev_involutive (stride_scan 1 (rev dims))) at 1. apply dotp_rev. rewrite rev_length, scan_length, rev_length. exact H.
Qed.
Lemma rowmaj_ctor : forall d, contiguous d -> d = tensor_ctor (dbase d) (ddims d).
Proof. intros d H. apply contiguous_rowmaj in H. destruct d as [b ds ss]. unfold rowmaj in H. cbn in *. subst. reflexivity. Qed.

Section Run.
  Context {O : Ops}.
  Hypothesis HR : is_ring O.
  Variables (Ci Ai : list nat) (ext : nat -> Z) (A C : desc) (a c : list Z -> car O) (h : heap (car O)).
  Hypotheses (HN : NoDup Ci) (HP : Permutation Ci Ai) (Hext : forall l, In l Ci -> 0 <= ext l < 2 ^ 31)
    (HdA : consistent ext Ai A) (HdC : consistent ext Ci C) (HA : holds h A a) (HC : holds h C c)
    (KA : contiguous A) (KC : contiguous C) (HD : disj C A).

  Lemma execute_ok : exists h', librett_execute (map to_int32 (rev (ddims A))) (librett_perm Ci Ai) (dbase A) (dbase C) h = Ok h' /\
    (forall env, env_ok ext env Ci -> h' (addr C (map env Ci)) = Some (a (map env Ai))) /\
    (forall z, (forall env, env_ok ext env Ci -> z <> addr C (map env Ci)) -> h' z = h z).
  Proof.
    assert (HNA : NoDup Ai) by (eapply Permutation_NoDup; eauto).
    assert (HNr : NoDup (rev Ai)) by now apply NoDup_rev.
    assert (Hin : forall l, In l Ci <-> In l Ai).
    { intros l. split; intros Hl; [eapply Permutation_in; eauto|eapply Permutation_in; [apply Permutation_sym|]; eauto]. }
    assert (Hinr : forall l, In l (rev Ci) <-> In l (rev Ai)) by (intros l; rewrite <- !in_rev; apply Hin).
    assert (FA : Forall (fun d => 0 <= d < 2 ^ 31) (rev (ddims A))).
    { unfold consistent in HdA. rewrite HdA, <- map_rev. apply Forall_map, Forall_forall. intros l Hl. apply Hext, Hin. now apply in_rev. }
    rewrite map_int32 by auto. unfold librett_execute, librett_perm. cbv zeta.
    set (perm := map snd (sort_positions (rev Ci) (rev Ai))). set (pick := fun ix : list Z => map (fun p => nth p ix 0) perm).
    assert (PE : forall env, pick (map env (rev Ai)) = map env (rev Ci)) by (intros env; apply (pick_env (rev Ci) (rev Ai)); auto).
    assert (EA : rev (ddims A) = map ext (rev Ai)) by (unfold consistent in HdA; now rewrite HdA, map_rev).
    assert (EC : rev (ddims C) = map ext (rev Ci)) by (unfold consistent in HdC; now rewrite HdC, map_rev).
    assert (EP : map (fun p => nth p (rev (ddims A)) 0) perm = rev (ddims C)) by (rewrite EA, EC; apply PE).
    rewrite EP.
    assert (LA : forall env, addr (col_major (dbase A) (rev (ddims A))) (map env (rev Ai)) = addr A (map env Ai)).
    { intros env. rewrite map_rev, col_addr; [now rewrite <- rowmaj_ctor|]. unfold consistent in HdA. rewrite HdA, !map_length. auto. }
    assert (LC : forall env, addr (col_major (dbase C) (rev (ddims C))) (map env (rev Ci)) = addr C (map env Ci)).
    { intros env. rewrite map_rev, col_addr; [now rewrite <- rowmaj_ctor|]. unfold consistent in HdC. rewrite HdC, !map_length. auto. }
    assert (HI : inj C) by (apply rowmaj_inj; now apply contiguous_rowmaj).
    assert (Hidx : forall idx, inb idx (rev (ddims A)) -> exists env, env_ok ext env Ci /\ idx = map env (rev Ai)).
    { intros idx Hi. rewrite EA in Hi. destruct (inb_env ext (rev Ai) idx HNr Hi) as (env & He & ->). exists env. split; auto.
      intros l Hl. apply He. apply Hinr. now apply -> in_rev. }
    assert (IA : forall env, env_ok ext env Ci -> inb (map env Ai) (ddims A)).
    { intros env He. unfold consistent in HdA. rewrite HdA. apply inb_map_env. intros l Hl. apply He. now apply Hin. }
    assert (IC : forall env, env_ok ext env Ci -> inb (map env Ci) (ddims C)).
    { intros env He. unfold consistent in HdC. rewrite HdC. now apply inb_map_env. }
    assert (IR : forall env, env_ok ext env Ci -> In (map env (rev Ai)) (indices (rev (ddims A)))).
    { intros env He. apply in_indices. rewrite map_rev. apply inb_rev. auto. }
    destruct (exec_w (list Z) (indices (rev (ddims A))) (fun idx => addr (col_major (dbase C) (rev (ddims C))) (pick idx))
      (fun idx => a (rev idx))
      (fun idx => PRd (addr (col_major (dbase A) (rev (ddims A))) idx) (fun av => PWr (addr (col_major (dbase C) (rev (ddims C))) (pick idx)) av (PRet tt))) h)
      as (h2 & E2 & G1 & G2).
    - apply (NoDup_map_inj' (rev (ddims A))).
      intros i j Hi Hj E. destruct (Hidx i Hi) as (e1 & He1 & ->). destruct (Hidx j Hj) as (e2 & He2 & ->).
      rewrite !PE, !LC in E. apply HI in E; auto. apply map_ext_in. intros l Hl. apply Hinr in Hl. apply in_rev in Hl. eapply ext_in_map; eauto.
    - intros idx h2 Hx Hag. apply in_indices in Hx. destruct (Hidx idx Hx) as (env & He & ->).
      rewrite LA, PE, LC. rewrite map_rev, rev_involutive.
      assert (Hno : ~ owned (indices (rev (ddims A))) (fun idx => addr (col_major (dbase C) (rev (ddims C))) (pick idx)) (addr A (map env Ai))).
      { intros Ho. unfold owned in Ho. apply in_map_iff in Ho as (j & E & Hj). apply in_indices in Hj. destruct (Hidx j Hj) as (e2 & He2 & ->).
        rewrite PE, LC in E. apply (HD (map e2 Ci) (map env Ai)); auto. }
      apply wtask_rd with (u := a (map env Ai)); [auto|rewrite Hag; auto|].
      assert (Q : exists w, h2 (addr C (map env Ci)) = Some w).
      { exists (c (map env Ci)). rewrite Hag; auto. left. now rewrite PE, LC. }
      destruct Q as (w & Q). apply wtask_wr with (w := w); auto.
    - exists h2. split; [exact E2|]. split.
      + intros env He. specialize (G1 _ (IR env He)). cbv beta in G1. rewrite PE, LC, map_rev, rev_involutive in G1. exact G1.
      + intros z Hz. apply G2. intros Ho. unfold owned in Ho. apply in_map_iff in Ho as (j & E & Hj). apply in_indices in Hj.
        destruct (Hidx j Hj) as (e2 & He2 & ->). rewrite PE, LC in E. apply (Hz e2); auto.
  Qed.
End Run.

(** Full statement (C128): [sort] of device tensors makes C equal to cp*C +
    ap*(A with its axes permuted) and changes nothing else.  Proved if cp = 0 or
    the index lists are equal, for every rank, permutation, extents and schedule,
    when LibreTT accepts the extents.  The rest: C128_refused_refuted, and
    C105_accumulate_refuted for cp <> 0. *)
Theorem C128_sort_partial :
  forall (O : Ops), is_ring O ->
  forall accepts (Ci Ai : list nat) (ext : nat -> Z) A C (a c : list Z -> car O) (ap cp : car O) (h : heap (car O)),
    NoDup Ci -> Permutation Ci Ai -> Ci <> [] -> (forall l, In l Ci -> 0 <= ext l < 2 ^ 31) ->
    consistent ext Ai A -> consistent ext Ci C -> contiguous A -> contiguous C -> holds h A a -> holds h C c -> disj C A ->
    (forall perm, accepts (rev (ddims A)) perm = true) ->
    cp = o0 \/ Ci = Ai ->
    dev_runs (dev_sort accepts cp Ci C ap Ai A) h (fun h' =>
      (forall env, env_ok ext env Ci ->
         h' (addr C (map env Ci)) = Some (oadd (omul cp (c (map env Ci))) (omul ap (a (map env Ai))))) /\
      (forall z, (forall env, env_ok ext env Ci -> z <> addr C (map env Ci)) -> h' z = h z)).
Proof.
  intros O HR accepts Ci Ai ext A C a c ap cp h HN HP Hne Hext HdA HdC KA KC HA HC HD Hacc Hcase. assert (R := ir_rt O HR).
  assert (NC : nonneg (ddims C)).
  { unfold consistent in HdC. rewrite HdC. apply Forall_map, Forall_forall. intros l Hl. specialize (Hext l Hl). lia. }
  assert (DC : ddims C <> []) by (unfold consistent in HdC; rewrite HdC; destruct Ci; [congruence|discriminate]).
  assert (HI : inj C) by (apply rowmaj_inj; now apply contiguous_rowmaj).
  assert (IC : forall env, env_ok ext env Ci -> inb (map env Ci) (ddims C)).
  { intros env He. unfold consistent in HdC. rewrite HdC. now apply inb_map_env. }
  assert (CE : forall idx, inb idx (ddims C) -> exists env, env_ok ext env Ci /\ idx = map env Ci).
  { intros idx Hi. unfold consistent in HdC. rewrite HdC in Hi. now apply inb_env. }
  unfold dev_sort. destruct (oeqb cp o0) eqn:E0.
  - apply (ir_eqb O HR) in E0. subst cp. cbn [dev_runs].
    destruct (execute_ok Ci Ai ext A C a c h HN HP Hext HdA HdC HA HC KA KC HD) as (h1 & E1 & V1 & F1).
    assert (Hz : forall u v, oadd (omul o0 u) v = v) by (intros u v; rewrite (omul_0_l HR); apply (Radd_0_l R)).
    assert (FA : Forall (fun d => 0 <= d < 2 ^ 31) (rev (ddims A))).
    { unfold consistent in HdA. rewrite HdA, <- map_rev. apply Forall_map, Forall_forall. intros l Hl. apply Hext.
      eapply Permutation_in; [apply Permutation_sym; exact HP|]. now apply in_rev. }
    exists h1. split; [unfold librett_sort; rewrite (map_int32 _ FA) at 1; now rewrite Hacc|].
    destruct (oeqb ap o1) eqn:Ea.
    + apply (ir_eqb O HR) in Ea. subst ap. cbn [dev_runs]. split; auto. intros env He. rewrite (V1 env He), Hz. f_equal. symmetry. apply (Rmul_1_l R).
    + cbn [dev_runs]. set (b := fun idx => match h1 (addr C idx) with Some v => v | None => o0 end).
      assert (HB : holds h1 C b).
      { intros idx Hi. destruct (CE idx Hi) as (env & He & ->). unfold b. now rewrite (V1 env He). }
      eapply grid_weaken; [|apply (C107_scalar_op_partial O (fun x => omul x ap) C b h1 NC DC KC HI HB)].
      cbv beta. intros h' (V & F). split.
      * intros env He. rewrite V by auto. unfold b. rewrite (V1 env He), Hz. f_equal. apply (Rmul_comm R).
      * intros z Hz'. rewrite F, F1; auto. intros idx Hi. destruct (CE idx Hi) as (env & He & ->). auto.
  - destruct Hcase as [-> | <-].
    { exfalso. assert (X : @oeqb O o0 o0 = true) by now apply (ir_eqb O HR). congruence. }
    unfold same_indices. destruct (list_eq_dec Nat.eq_dec Ci Ci) as [_|N]; [|congruence]. cbn [dev_runs].
    assert (DD : ddims C = ddims A) by (unfold consistent in *; congruence).
    assert (T := proj2 (C108_axpy_partial O HR ap cp A C a c h ltac:(congruence) ltac:(rewrite <- DD; auto) DD KA KC HA HC HD)).
    eapply grid_weaken; [|exact T]. cbv beta. intros h' (V & F). split.
    + intros env He. rewrite V by auto. f_equal. apply (Radd_comm R).
    + intros z Hz. apply F. intros (idx & Hi & ->). destruct (CE idx Hi) as (env & He & ->). now apply (Hz env He).
Qed.

(** C128 fails when LibreTT refuses the plan: its result is not looked at, and
    the execution uses a handle that was never set. *)
Theorem C128_refused_refuted :
  forall (O : Ops) accepts (Ci Ai : list nat) A C (ap : car O) (h : heap (car O)) Q,
    is_ring O -> Forall (fun d => 0 <= d < 2 ^ 31) (ddims A) -> (forall perm, accepts (rev (ddims A)) perm = false) ->
    ~ dev_runs (dev_sort accepts o0 Ci C ap Ai A) h Q.
Proof.
  intros O accepts Ci Ai A C ap h Q HR FA Hacc. unfold dev_sort. assert (X : @oeqb O o0 o0 = true) by now apply (ir_eqb O HR). rewrite X. cbn [dev_runs].
  intros (h' & E & _). unfold librett_sort in E. rewrite map_int32, Hacc in E; [discriminate|]. now apply Forall_rev.
Qed.

(** Case: C(k,i,j) = 5 A(i,j,k) for extents 2, 3, 4; LibreTT's own test (not
    part of the repository) refuses extents below 2 and ranks below 2. *)
Definition librett_test (sizes : list Z) (perm : list nat) : bool := forallb (fun d => 1 <? d) sizes && (1 <? Z.of_nat (length sizes)).
Example C128_case :
  let ext (l : nat) := Z.of_nat l + 2 in
  let A := tensor_ctor 0 [2; 3; 4] in let C := tensor_ctor 100 [4; 2; 3] in
  let h : heap Z := fun z => if (0 <=? z) && (z <? 124) then Some (z * z) else None in
  consistent ext [0; 1; 2]%nat A /\ consistent ext [2; 0; 1]%nat C /\ contiguous A /\ contiguous C /\
  (forall perm, librett_test (rev (ddims A)) perm = true) /\ (forall perm, librett_test (rev [1; 3]) perm = false) /\
  (exists h1, librett_sort (O := ZOps) librett_test (librett_perm [2; 0; 1]%nat [0; 1; 2]%nat) 0 [4; 3; 2] 100 h = Ok h1 /\ h1 (addr C [3; 1; 2]) = h (addr A [1; 2; 3])).
Proof.
  cbv zeta. split; [reflexivity|]. split; [reflexivity|]. split; [now apply contiguous_rowmaj|]. split; [now apply contiguous_rowmaj|].
  split; [reflexivity|]. split; [reflexivity|]. unfold librett_sort. cbn [librett_test forallb].
  eexists. split; [vm_compute; reflexivity|vm_compute; reflexivity].
Qed.
Print Assumptions C128_sort_partial.
Print Assumptions C128_refused_refuted.
