(** * T_DevMem: histories of device tensors (C111). *)
From Coq Require Import List ZArith Lia Bool Permutation.
From Verif Require Import Base Heap M_Addr M_Gpu M_GpuView L_GpuView M_DevMem S_Value S_DevMem L_DevMem.
Import ListNotations.
Open Scope Z_scope.

(** Every program that [astep] allows runs without an exception and without
    undefined behaviour, and every tensor then has the value the program gives
    it, whether read at once or element by element, in each of the three modes.
    Nothing a program does to one tensor changes another.  Missing: the programs
    [astep] excludes although they look right (below). *)
Theorem C111_values_partial : forall os a, arun os nothing = Some a ->
  exists s, drun os d_init = ROk tt s /\ forall id, shows s id (a id).
Proof.
  intros os a H. destruct (run_inv _ _ _ _ _ init_inv H) as (s & lost & E & I & _). exists s. split; auto.
  intros id. exact (inv_shows _ _ _ _ I).
Qed.
(** When every tensor is gone, all memory is given back, except one copy of
    extents for each tensor whose elements were taken by one of another rank. *)
Theorem C111_memory_partial : forall os a, arun os nothing = Some a -> (forall id, a id = None) ->
  exists s, drun os d_init = ROk tt s /\ length (s_blk s) = moves os /\
    forall k b, In (k, b) (s_blk s) -> exists d st, b = BDims d st.
Proof.
  intros os a H Hn. destruct (run_inv _ _ _ _ _ init_inv H) as (s & lost & E & I & L). exists s. split; auto.
  assert (Ow : forall id, owno (assoc id (s_ten s)) = []) by (intros id; apply (inv_empty a s lost); auto).
  assert (Iff : forall k, In k (map fst (s_blk s)) <-> In k lost).
  { intros k. split.
    - intros Hk. destruct (assoc k (s_blk s)) as [b|] eqn:Ek; [|apply assoc_none in Ek; contradiction].
      destruct (i_own _ _ _ I _ _ Ek) as [|(id & Hi)]; auto. rewrite Ow in Hi. destruct Hi.
    - intros Hk. destruct (i_lost _ _ _ I k Hk) as ((d & st & Ek) & _). apply assoc_in in Ek. apply in_map_iff. exists (k, BDims d st). auto. }
  split.
  - rewrite <- (map_length fst). cbn in L. rewrite <- L. apply Permutation_length, NoDup_Permutation; auto; [exact (i_nd _ _ _ I)|exact (i_ndl _ _ _ I)].
  - intros k b Hk. assert (Hl : In k lost) by (apply Iff, in_map_iff; exists (k, b); auto).
    destruct (i_lost _ _ _ I k Hl) as ((d & st & Ek) & _). rewrite (in_assoc _ _ _ (i_nd _ _ _ I) Hk) in Ek. injection Ek as ->. eauto.
Qed.
Theorem C111_returned : forall os a, arun os nothing = Some a -> (forall id, a id = None) -> moves os = 0%nat ->
  exists s, drun os d_init = ROk tt s /\ s_blk s = [].
Proof.
  intros os a H Hn Hm. destruct (C111_memory_partial os a H Hn) as (s & E & L & _). exists s. split; auto.
  destruct (s_blk s); auto. cbn in L. lia.
Qed.

(** A program with every operation: three modes, copies between them, a
    change of rank, a resize, stores and fills. *)
Definition sample : list dop :=
  [ DHost 0 MMapped [2; 3] [0; 1; 2; 3; 4; 5]; DNew 1 MDev [4; 4]; DAssign 1 0; DDefault 2 [7; 7]; DAssign 2 1;
    DSet 2 [-1; 1] 9; DMove 3 1 [6]; DCopy 4 3; DResize 4 [2]; DFill 4 8; DNew 5 MPinned [1; 1]; DAssignHost 5 [1; 2] [3; 4];
    DRead 5 [6]; DAssign 1 5; DResize 0 [2; 3] ].
Example C111_case :
  (exists a, arun sample nothing = Some a /\ a 0%nat = Some (AVal MMapped [2; 3] (map Some [0; 1; 2; 3; 4; 5])) /\
    a 1%nat = Some (AVal MDev [1; 2] (map Some [6; 4])) /\ a 2%nat = Some (AVal MDev [2; 3] (map Some [0; 1; 2; 3; 9; 5])) /\
    a 3%nat = Some (AVal MDev [6] (map Some [0; 1; 2; 3; 4; 5])) /\ a 4%nat = Some (AVal MDev [2] (map Some [8; 8]))) /\
  (exists a, arun (sample ++ map DDel (seq 0 6)) nothing = Some a /\ forall id, a id = None) /\ moves sample = 1%nat.
Proof.
  split; [|split; [|reflexivity]].
  - eexists. split; [vm_compute; reflexivity|]. vm_compute. auto.
  - eexists. split; [vm_compute; reflexivity|]. intros id. unfold nothing. do 6 (destruct id as [|id]; [vm_compute; reflexivity|]). vm_compute. reflexivity.
Qed.

(** ** What does not hold *)
Ltac wit := match goal with |- exists s, ?t = _ /\ _ => let r := eval vm_compute in t in match r with ROk _ ?s => exists s | RThrow ?s => exists s end end.
(** [resize] to other extents with as many elements keeps the old extents on
    the device: assigning to the tensor then permutes the elements, and
    assigning from it reads outside. *)
Theorem C111_resize_refuted :
  (exists s, drun [DHost 0 MDev [2; 3] [0; 1; 2; 3; 4; 5]; DResize 0 [3; 2]; DHost 1 MDev [3; 2] [10; 11; 12; 13; 14; 15]; DAssign 0 1] d_init = ROk tt s /\
    t_dims (ten 0 s) = [3; 2] /\ write_list 0 s = ROk (map Some [10; 11; 12; 12; 13; 14]) s) /\
  drun [DHost 0 MDev [2; 3] [0; 1; 2; 3; 4; 5]; DResize 0 [3; 2]; DNew 1 MDev [3; 2]; DAssign 1 0] d_init = RUB.
Proof. split; [wit; vm_compute; auto|vm_compute; reflexivity]. Qed.
(** The test of [A(i...) = v] lets one position after the end pass. *)
Theorem C111_bounds_refuted : forall m n, m <> MUnknown -> 0 < n -> drun [DNew 0 m [n]; DSet 0 [n] 7] d_init = RUB.
Proof.
  intros m n M H.
  assert (R : arun [DNew 0 m [n]] nothing = Some (aput 0 (Some (AVal m [n] (unset [n]))) nothing)).
  { cbn [arun astep]. unfold proper_dims. cbn [forallb]. rewrite (proj2 (Z.ltb_lt 0 n)), (proj2 (real_ne m)) by auto. reflexivity. }
  destruct (run_inv _ _ _ _ _ init_inv R) as (s & lost & E & I & _). change (drun [DNew 0 m [n]; DSet 0 [n] 7] d_init) with (rbind (dstep (DNew 0 m [n]) d_init) (fun _ s1 => drun [DSet 0 [n] 7] s1)).
  cbn [drun] in E. destruct (dstep (DNew 0 m [n]) d_init) as [u s0|s0|]; try discriminate. cbn [rbind] in *. injection E as ->.
  destruct (inv_val _ _ _ 0%nat _ _ _ I eq_refl) as (_ & G & L & p & g & Et & R1 & _). change (zprod [n]) with (n * 1) in L.
  cbn [drun dstep]. rewrite Et. cbn [has]. unfold set. rewrite (ten_eq _ _ _ Et). cbn [t_dims t_strides t_mode t_data wrap_negative].
  rewrite (proj2 (Z.ltb_ge n 0)) by lia. change (dotp [n] (row_major_strides [n])) with (n * 1 + 0). replace (n * 1 + 0) with n by lia. unfold size_of. change (zprod [n]) with (n * 1).
  rewrite (proj2 (Z.ltb_ge n 0)), (proj2 (Z.ltb_ge (n * 1) n)) by lia. cbn [orb]. rewrite R1. unfold put_elt.
  rewrite (proj2 (Z.ltb_ge n _)), andb_false_r by lia. destruct m; [congruence| | |]; reflexivity.
Qed.
(** A move to extents with another number of elements throws, and the elements
    are gone: the source has none, and no destructor gives them back. *)
Theorem C111_move_refuted :
  exists s, drun [DHost 0 MDev [4] [1; 2; 3; 4]; DMove 1 0 [3]] d_init = RThrow s /\ t_data (ten 0 s) = None /\
    exists s', drun [DDel 0] s = ROk tt s' /\ s_ten s' = [] /\ map snd (s_blk s') = [BData KDev (map Some [1; 2; 3; 4]); BDims [4] [1]].
Proof. wit. split; [vm_compute; reflexivity|]. split; [vm_compute; reflexivity|]. wit. vm_compute. auto. Qed.
(** A tensor whose elements were taken cannot be assigned to in the mode
    MAPPED, and takes no host tensor of other extents in the mode DEV_ONLY. *)
Theorem C111_moved_refuted :
  (exists s, drun [DHost 0 MMapped [2] [1; 2]; DMove 1 0 [2; 1]; DHost 2 MDev [2] [5; 6]; DAssign 0 2] d_init = RThrow s /\ t_data (ten 0 s) = None) /\
  (exists s, drun [DHost 0 MDev [2] [1; 2]; DMove 1 0 [2; 1]; DAssignHost 0 [3] [5; 6; 7]] d_init = RThrow s /\
    t_dims (ten 0 s) = [3] /\ write_list 0 s = ROk [None; None; None] s).
Proof. split; wit; vm_compute; auto. Qed.
(** [resize] of a default constructed tensor throws but changes the extents. *)
Theorem C111_default_refuted :
  exists s, drun [DDefault 0 [5]; DResize 0 [2]] d_init = RThrow s /\ t_dims (ten 0 s) = [2].
Proof. wit; vm_compute; auto. Qed.
(** [resize] to nothing in the mode MAPPED throws, and the destructor then
    unregisters memory that was not registered. *)
Theorem C111_zero_refuted :
  exists s, drun [DHost 0 MMapped [2] [1; 2]; DResize 0 [0]] d_init = RThrow s /\ drun [DDel 0] s = RUB.
Proof. wit; vm_compute; auto. Qed.
(** The copy of a view is not a view: a store through it does not reach the
    tensor, and its memory is never given back. *)
Theorem C111_view_refuted :
  exists s v w s1 s2 s3 s4, drun [DHost 0 MDev [2; 2] [1; 2; 3; 4]] d_init = ROk tt s /\
    make_view 0 2 [2] [1] s = ROk v s1 /\ copy_view v s1 = ROk w s2 /\ view_set w [0] 9 s2 = ROk tt s3 /\
    write_list 0 s3 = ROk (map Some [1; 2; 3; 4]) s3 /\
    rbind (drop_view w s3) (fun _ s' => rbind (drop_view v s') (fun _ s'' => dtor 0 s'')) = ROk tt s4 /\
    s_ten s4 = [] /\ map snd (s_blk s4) = [BData KDev (map Some [9; 4])].
Proof.
  match goal with |- exists s, _ => let r := eval vm_compute in (drun [DHost 0 MDev [2; 2] [1; 2; 3; 4]] d_init) in
    match r with ROk _ ?s => exists s;
      let r := eval vm_compute in (make_view 0 2 [2] [1] s) in match r with ROk ?v ?s1 =>
      let r := eval vm_compute in (copy_view v s1) in match r with ROk ?w ?s2 =>
      let r := eval vm_compute in (view_set w [0] 9 s2) in match r with ROk _ ?s3 =>
      let r := eval vm_compute in (rbind (drop_view w s3) (fun _ s' => rbind (drop_view v s') (fun _ s'' => dtor 0 s''))) in match r with ROk _ ?s4 =>
        exists v, w, s1, s2, s3, s4 end end end end end end.
  vm_compute. repeat split.
Qed.

Print Assumptions C111_values_partial.
Print Assumptions C111_memory_partial.
Print Assumptions C111_returned.
Print Assumptions C111_resize_refuted.
Print Assumptions C111_bounds_refuted.
Print Assumptions C111_move_refuted.
Print Assumptions C111_moved_refuted.
Print Assumptions C111_default_refuted.
Print Assumptions C111_zero_refuted.
Print Assumptions C111_view_refuted.
