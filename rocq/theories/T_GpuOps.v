(** * T_GpuOps: element-wise kernels, dot products, symm_gemm, sorting and
    reductions on the GPU (C103-C107). *)
From Coq Require Import List ZArith Lia Bool Permutation Ring_theory Ring.
From Verif Require Import Base Heap Conc GpuConc M_Addr M_Einsum M_Blas M_PyEinsum M_Gpu S_Einsum S_PyEinsum S_Gpu.
From Verif Require Import S_Blas L_Addr L_Einsum L_Blas L_Dispatch L_PyEinsum L_Paths T_Dispatch L_Gpu L_GpuOps L_GpuRed T_PyEinsum.
Import ListNotations.
Open Scope Z_scope.

Lemma contiguous_extent0 : forall d, contiguous d -> ddims d <> [] -> extent0 d = zprod (ddims d).
Proof.
  intros d H Hne. unfold contiguous in H. unfold extent0. destruct (ddims d) as [|n ds]; [congruence|]. destruct (dstrides d) as [|s ss]; [contradiction|].
  destruct H as (-> & _). cbn [nth]. unfold zprod. cbn [fold_right]. lia.
Qed.

Lemma inb1 : forall i n, inb i [n] <-> exists k, i = [k] /\ 0 <= k < n.
Proof.
  intros i n. split.
  - intros H. inversion H as [|k ? r ? Hk Hr]; subst. inversion Hr; subst. eauto.
  - intros (k & -> & H). repeat constructor; lia.
Qed.

(** ** C107: element-wise operations *)

(** abs, invert, exp, scale and the like: [f] applied once to every element,
    whatever the strides. *)
Theorem C107_gpu_map :
  forall (O : Ops) (f : car O -> car O) d a h, nonneg (ddims d) -> inj d -> holds h d a ->
    grid_spec (gpu_map f d) h (only_set d (fun i => f (a i)) h).
Proof.
  intros O f d a h HN HI HA. destruct (swapped_pos (zprod (ddims d))) as (Hs & Hb). unfold gpu_map, launch_for.
  apply (each_cells _ _ (cm_index (ddims d)) d (fun i => f (a i))); auto; [now apply cm_perm|].
  intros s h' Hs' Hi Hf. unfold map_body. cbn [psafe run].
  assert (E : h' (addr d (cm_index (ddims d) s)) = Some (a (cm_index (ddims d) s))) by (rewrite Hf by auto; now apply HA).
  rewrite E. split.
  - split; [auto|]. eexists; split; [reflexivity|]. split; [reflexivity|]. split; [eauto|exact I].
  - eexists; split; [reflexivity|]. now rewrite upd_same.
Qed.

(** to[i] = f(to[i], from[i]) for every element of a tensor (not a view): +=,
    -=, *=, /=.  [from] is another tensor or [to] itself. *)
Theorem C107_assign_op :
  forall (O : Ops) (f : car O -> car O -> car O) to from t a h,
    nonneg (ddims to) -> ddims to <> [] -> contiguous to -> inj to -> ddims from = ddims to -> disj to from \/ from = to ->
    holds h to t -> holds h from a ->
    grid_spec (dev_assign_op f to from) h (only_set to (fun i => f (t i) (a i)) h).
Proof.
  intros O f to from t a h HN Hne HC HI Ed HD HT HA. destruct (swapped_pos (zprod (ddims from))) as (Hs & Hb). unfold dev_assign_op, launch_swapped.
  rewrite contiguous_extent0 by auto.
  apply (each_cells _ _ (rm_index (ddims to)) to (fun i => f (t i) (a i))); auto; [now apply rm_perm|].
  intros s h' Hs' Hi Hf. unfold assign_body. cbn [psafe run]. set (ix := rm_index (ddims to) s) in *.
  assert (E : h' (addr to ix) = Some (t ix)) by (rewrite Hf by auto; now apply HT).
  assert (E2 : (addr to ix = addr from ix \/ ~ cell to (addr from ix)) /\ h' (addr from ix) = Some (a ix)).
  { destruct HD as [HD | ->].
    - assert (N : ~ cell to (addr from ix)) by (intros (j & Hj & Ej); apply (HD j ix); auto; now rewrite Ed).
      split; auto. rewrite Hf by auto. apply HA. now rewrite Ed.
    - split; auto. rewrite Hf by auto. apply HA. auto. }
  destruct E2 as (O2 & E2). rewrite E, E2. split.
  - split; [auto|]. eexists; split; [reflexivity|]. split; [auto|]. eexists; split; [reflexivity|]. split; [reflexivity|]. split; [eauto|exact I].
  - eexists; split; [reflexivity|]. now rewrite upd_same.
Qed.

(** Copy assignment between tensors and views. *)
Theorem C107_copy :
  forall (O : Ops) to from (t a : list Z -> car O) h,
    nonneg (ddims to) -> inj to -> ddims from = ddims to -> disj to from \/ from = to ->
    holds h to t -> holds h from a ->
    grid_spec (dev_copy to from) h (only_set to a h).
Proof.
  intros O to from t a h HN HI Ed HD HT HA. destruct (swapped_pos (zprod (ddims to))) as (Hs & Hb). unfold dev_copy, launch_swapped.
  apply (each_cells _ _ (rm_index (ddims to)) to a); auto; [now apply rm_perm|].
  intros s h' Hs' Hi Hf. unfold copy_body. cbn [psafe run]. set (ix := rm_index (ddims to) s) in *.
  assert (E : h' (addr to ix) = Some (t ix)) by (rewrite Hf by auto; now apply HT).
  assert (E2 : (addr to ix = addr from ix \/ ~ cell to (addr from ix)) /\ h' (addr from ix) = Some (a ix)).
  { destruct HD as [HD | ->].
    - assert (N : ~ cell to (addr from ix)) by (intros (j & Hj & Ej); apply (HD j ix); auto; now rewrite Ed).
      split; auto. rewrite Hf by auto. apply HA. now rewrite Ed.
    - split; auto. rewrite Hf by auto. apply HA. auto. }
  destruct E2 as (O2 & E2). rewrite E, E2. split.
  - split; [auto|]. eexists; split; [reflexivity|]. split; [reflexivity|]. split; [eauto|exact I].
  - eexists; split; [reflexivity|]. now rewrite upd_same.
Qed.

(** Filling, and arithmetic assignment with a scalar.  Missing: views (refuted below). *)
Theorem C107_set_all_partial :
  forall (O : Ops) (x : car O) to t h, nonneg (ddims to) -> ddims to <> [] -> contiguous to -> inj to -> holds h to t ->
    grid_spec (dev_set_all x to) h (only_set to (fun _ => x) h).
Proof.
  intros O x to t h HN Hne HC HI HT. destruct (swapped_pos (zprod (ddims to))) as (Hs & Hb). unfold dev_set_all, launch_swapped.
  rewrite contiguous_extent0 by auto.
  apply (each_cells _ _ (rm_index (ddims to)) to (fun _ => x)); auto; [now apply rm_perm|].
  intros s h' Hs' Hi Hf. unfold set_body. cbn [psafe run].
  assert (E : h' (addr to (rm_index (ddims to) s)) = Some (t (rm_index (ddims to) s))) by (rewrite Hf by auto; now apply HT).
  rewrite E. split.
  - split; [reflexivity|]. split; [eauto|exact I].
  - eexists; split; [reflexivity|]. now rewrite upd_same.
Qed.
Theorem C107_scalar_op_partial :
  forall (O : Ops) (f : car O -> car O) to t h, nonneg (ddims to) -> ddims to <> [] -> contiguous to -> inj to -> holds h to t ->
    grid_spec (dev_scalar_op f to) h (only_set to (fun i => f (t i)) h).
Proof.
  intros O f to t h HN Hne HC HI HT. destruct (swapped_pos (zprod (ddims to))) as (Hs & Hb). unfold dev_scalar_op, launch_swapped.
  rewrite contiguous_extent0 by auto.
  apply (each_cells _ _ (rm_index (ddims to)) to (fun i => f (t i))); auto; [now apply rm_perm|].
  intros s h' Hs' Hi Hf. unfold scal_body. cbn [psafe run].
  assert (E : h' (addr to (rm_index (ddims to) s)) = Some (t (rm_index (ddims to) s))) by (rewrite Hf by auto; now apply HT).
  rewrite E. split.
  - split; [auto|]. eexists; split; [reflexivity|]. split; [reflexivity|]. split; [eauto|exact I].
  - eexists; split; [reflexivity|]. now rewrite upd_same.
Qed.

(** C = beta * C + alpha * A * B, element by element. *)
Theorem C107_direct_product :
  forall (O : Ops), is_ring O -> forall (alpha beta : car O) A B C a b c h,
    nonneg (ddims C) -> inj C -> ddims A = ddims C -> ddims B = ddims C -> disj C A -> disj C B ->
    holds h A a -> holds h B b -> holds h C c ->
    grid_spec (gpu_direct_product alpha A B beta C) h
      (only_set C (fun i => oadd (omul beta (c i)) (omul alpha (omul (a i) (b i)))) h).
Proof.
  intros O HR alpha beta A B C a b c h HN HI EA EB DA DB HA HB HC. destruct (swapped_pos (zprod (ddims A))) as (Hs & Hb).
  unfold gpu_direct_product, launch_swapped. rewrite EA in *.
  apply (each_cells _ _ (unravel (ddims C)) C (fun i => oadd (omul beta (c i)) (omul alpha (omul (a i) (b i))))); auto; [now apply unravel_perm|].
  intros s h' Hs' Hi Hf. unfold direct_body. rewrite EA. set (ix := unravel (ddims C) s) in *.
  assert (NA : ~ cell C (addr A ix)) by (intros (j & Hj & Ej); apply (DA j ix); auto; now rewrite EA).
  assert (NB : ~ cell C (addr B ix)) by (intros (j & Hj & Ej); apply (DB j ix); auto; now rewrite EB).
  assert (VA : h' (addr A ix) = Some (a ix)) by (rewrite Hf by auto; apply HA; now rewrite EA).
  assert (VB : h' (addr B ix) = Some (b ix)) by (rewrite Hf by auto; apply HB; now rewrite EB).
  assert (VC : h' (addr C ix) = Some (c ix)) by (rewrite Hf by auto; now apply HC).
  assert (As : omul (omul alpha (a ix)) (b ix) = omul alpha (omul (a ix) (b ix))) by (symmetry; apply (Rmul_assoc (ir_rt O HR))).
  destruct (oeqb beta o0) eqn:Eb; cbn [psafe run]; rewrite VA, VB, VC; split.
  - split; [auto|]. eexists; split; [reflexivity|]. split; [auto|]. eexists; split; [reflexivity|]. split; [reflexivity|]. split; [eauto|exact I].
  - eexists; split; [reflexivity|]. rewrite upd_same, As. f_equal. apply (ir_eqb O HR) in Eb. rewrite Eb.
    rewrite (omul_0_l HR). symmetry. apply (Radd_0_l (ir_rt O HR)).
  - split; [auto|]. eexists; split; [reflexivity|]. split; [auto|]. eexists; split; [reflexivity|].
    split; [auto|]. eexists; split; [reflexivity|]. split; [reflexivity|]. split; [eauto|exact I].
  - eexists; split; [reflexivity|]. rewrite upd_same, As. reflexivity.
Qed.

(** y = alpha * x + beta * y on vectors with any non-zero increment. *)
Theorem C107_axpby :
  forall (O : Ops) n (alpha beta : car O) X incx Y incy x y h,
    incy <> 0 -> 0 <= n ->
    (forall i, 0 <= i < n -> h (X + incx * i) = Some (x i)) -> (forall i, 0 <= i < n -> h (Y + incy * i) = Some (y i)) ->
    (forall i j, 0 <= i < n -> 0 <= j < n -> X + incx * i <> Y + incy * j) ->
    grid_spec (gpu_axpby n alpha X incx beta Y incy) h
      (fun h' => (forall i, 0 <= i < n -> h' (Y + incy * i) = Some (oadd (omul alpha (x i)) (omul beta (y i)))) /\
                 (forall z, (forall i, 0 <= i < n -> z <> Y + incy * i) -> h' z = h z)).
Proof.
  intros O n alpha beta X incx Y incy x y h Hi Hn HX HY HD. destruct (swapped_pos n) as (Hs & Hb).
  set (D := mkDesc Y [n] [incy]).
  assert (aD : forall i, addr D [i] = Y + incy * i) by (intros; unfold addr, D; cbn; lia).
  assert (pD : zprod (ddims D) = n) by (unfold D, zprod; cbn; lia).
  assert (inD : forall i, inb [i] (ddims D) <-> 0 <= i < n).
  { intros i. unfold D. cbn [ddims]. rewrite inb1. split; [intros (k & E & H); congruence|eauto]. }
  assert (allD : forall i, inb i (ddims D) -> exists k, i = [k]) by (intros i H; apply inb1 in H as (k & H & _); eauto).
  unfold gpu_axpby, launch_swapped. 
  replace (each_kernel n (axpby_body alpha X incx beta Y incy)) with (each_kernel (zprod (ddims D)) (axpby_body alpha X incx beta Y incy)) by now rewrite pD.
  eapply grid_weaken; [|apply (each_cells _ _ (fun s => [s]) D (fun ix => oadd (omul alpha (x (nth 0 ix 0))) (omul beta (y (nth 0 ix 0))))); auto].
  - intros h' (H1 & H2). split.
    + intros i Hi2. rewrite <- aD. apply (H1 [i]). now apply inD.
    + intros z Hz. apply H2. intros i Hi2. destruct (allD i Hi2) as (k & ->). rewrite aD. apply Hz. now apply inD.
  - intros i j Hi2 Hj E. destruct (allD i Hi2) as (k & ->). destruct (allD j Hj) as (l & ->). rewrite !aD in E. f_equal. nia.
  - unfold D, zprod. cbn [ddims indices fold_right]. rewrite Z.mul_1_r. 
    assert (E : flat_map (fun i => map (cons i) [[]]) (zrange n) = map (fun s => [s]) (zrange n)).
    { clear. induction (zrange n) as [|z l IH]; [reflexivity|]. cbn. now rewrite <- IH. }
    rewrite E. reflexivity.
  - intros s h' Hs' Hin Hf. unfold axpby_body. rewrite <- aD in *. cbn [psafe run nth].
    assert (R : 0 <= s < n) by now apply inD.
    assert (NX : ~ cell D (X + incx * s)).
    { intros (j & Hj & Ej). destruct (allD j Hj) as (k & ->). rewrite aD in Ej. apply (HD s k); auto. now apply inD. }
    assert (VX : h' (X + incx * s) = Some (x s)) by (rewrite Hf by auto; now apply HX).
    assert (VY : h' (addr D [s]) = Some (y s)) by (rewrite Hf by auto; rewrite aD; now apply HY).
    rewrite VX, VY. split.
    + split; [auto|]. eexists; split; [reflexivity|]. split; [auto|]. eexists; split; [reflexivity|]. split; [reflexivity|]. split; [eauto|exact I].
    + eexists; split; [reflexivity|]. now rewrite upd_same.
Qed.

(** A view of the first two columns of a matrix with four columns: v += 1 adds 2. *)
Theorem C107_view_scalar_refuted : exists d (t : list Z -> Z) h, nonneg (ddims d) /\ ddims d <> [] /\ inj d /\ holds h d t /\
  ~ grid_spec (O := ZOps) (dev_scalar_op (O := ZOps) (fun x => x + 1) d) h (only_set (O := ZOps) d (fun i => t i + 1) h).
Proof.
  set (d := mkDesc 0 [2; 2] [4; 1]). exists d, (look mem d), mem.
  split; [repeat constructor; lia|]. split; [discriminate|]. split.
  { intros i j Hi Hj E. apply in_indices in Hi, Hj. cbn in Hi, Hj.
    repeat (destruct Hi as [<-|Hi]; [repeat (destruct Hj as [<-|Hj]; [vm_compute in E; congruence|]); contradiction|]); contradiction. }
  split. { intros i Hi. apply in_indices in Hi. cbn in Hi. repeat (destruct Hi as [<-|Hi]; [reflexivity|]). contradiction. }
  apply (ends_refutes (O := ZOps) (map (fun b => Run b 0) (seq 0 32)) _ _ (fun h : heap Z => match h 0 with Some v => negb (v =? 2) | None => true end)); [vm_compute; reflexivity|].
  intros h' (H & _). assert (E := H [0; 0] ltac:(repeat constructor; lia)).
  change (addr d [0; 0]) with 0 in E. rewrite E. reflexivity.
Qed.
(** A transposed view: only half of the elements is set. *)
Theorem C107_view_set_all_refuted : exists d (t : list Z -> Z) h, nonneg (ddims d) /\ ddims d <> [] /\ inj d /\ holds h d t /\
  ~ grid_spec (O := ZOps) (dev_set_all (O := ZOps) 99 d) h (only_set (O := ZOps) d (fun _ => 99) h).
Proof.
  set (d := mkDesc 0 [2; 2] [1; 2]). exists d, (look mem d), mem.
  split; [repeat constructor; lia|]. split; [discriminate|]. split.
  { intros i j Hi Hj E. apply in_indices in Hi, Hj. cbn in Hi, Hj.
    repeat (destruct Hi as [<-|Hi]; [repeat (destruct Hj as [<-|Hj]; [vm_compute in E; congruence|]); contradiction|]); contradiction. }
  split. { intros i Hi. apply in_indices in Hi. cbn in Hi. repeat (destruct Hi as [<-|Hi]; [reflexivity|]). contradiction. }
  apply (ends_refutes (O := ZOps) (map (fun b => Run b 0) (seq 0 32)) _ _ (fun h : heap Z => match h 3 with Some v => negb (v =? 99) | None => true end)); [vm_compute; reflexivity|].
  intros h' (H & _). assert (E := H [1; 1] ltac:(repeat constructor; lia)).
  change (addr d [1; 1]) with 3 in E. rewrite E. reflexivity.
Qed.

(** |x| on a strided view of 300 elements (one block of 256 threads); the
    increment of a 3 x 2 tensor, and 2 x + 3 y with an increment of -1. *)
Example C107_map_case :
  let d := mkDesc 0 [300] [2] in
  let h : heap Z := fun z => if (0 <=? z) && (z <? 600) then Some (z mod 5 - 2) else None in
  grid_spec (O := ZOps) (gpu_map (O := ZOps) Z.abs d) h (only_set (O := ZOps) d (fun i => Z.abs (2 * nth 0 i 0 mod 5 - 2)) h).
Proof.
  intros d h. refine (C107_gpu_map ZOps Z.abs d (fun i => 2 * nth 0 i 0 mod 5 - 2) h _ _ _).
  - repeat constructor; lia.
  - intros i j Hi Hj E. apply inb1 in Hi as (x & -> & Hx). apply inb1 in Hj as (y & -> & Hy). unfold addr, d in E. cbn in E. f_equal. lia.
  - intros i Hi. apply inb1 in Hi as (x & -> & Hx). unfold addr, d, h. cbn [dbase dstrides dotp nth]. cbn in Hx |- *.
    replace (0 + (x * 2 + 0)) with (2 * x) by lia. destruct (Z.leb_spec 0 (2 * x)); [|lia]. destruct (Z.ltb_spec (2 * x) 600); [|lia]. reflexivity.
Qed.
Example C107_ops_case :
  let T := rm 0 [3; 2] in let U := rm 100 [3; 2] in
  grid_spec (O := ZOps) (dev_assign_op (O := ZOps) Z.sub T U) mem (only_set (O := ZOps) T (fun i => look mem T i - look mem U i) mem) /\
  grid_spec (O := ZOps) (dev_assign_op (O := ZOps) Z.add T T) mem (only_set (O := ZOps) T (fun i => look mem T i + look mem T i) mem) /\
  grid_spec (O := ZOps) (dev_copy (O := ZOps) T U) mem (only_set (O := ZOps) T (look mem U) mem) /\
  grid_spec (O := ZOps) (dev_set_all (O := ZOps) 7 T) mem (only_set (O := ZOps) T (fun _ => 7) mem) /\
  grid_spec (O := ZOps) (dev_scalar_op (O := ZOps) (Z.mul 3) T) mem (only_set (O := ZOps) T (fun i => 3 * look mem T i) mem) /\
  grid_spec (O := ZOps) (gpu_direct_product (O := ZOps) 2 U U 5 T) mem
    (only_set (O := ZOps) T (fun i => 5 * look mem T i + 2 * (look mem U i * look mem U i)) mem).
Proof.
  intros T U.
  assert (NT : nonneg (ddims T)) by (repeat constructor; lia).
  assert (CT : contiguous T) by (cbn; auto).
  assert (IT : inj T) by (apply rowmaj_inj; reflexivity).
  assert (DT : disj T U) by (apply disj_check; reflexivity).
  assert (HT : holds mem T (look mem T)) by (apply holds_check; reflexivity).
  assert (HU : holds mem U (look mem U)) by (apply holds_check; reflexivity).
  split; [|split; [|split; [|split; [|split]]]].
  - refine (C107_assign_op ZOps Z.sub T U _ _ mem NT _ CT IT _ _ HT HU); auto. discriminate.
  - refine (C107_assign_op ZOps Z.add T T _ _ mem NT _ CT IT _ _ HT HT); auto. discriminate.
  - refine (C107_copy ZOps T U _ _ mem NT IT _ _ HT HU); auto.
  - refine (C107_set_all_partial ZOps 7 T _ mem NT _ CT IT HT). discriminate.
  - refine (C107_scalar_op_partial ZOps (Z.mul 3) T _ mem NT _ CT IT HT). discriminate.
  - exact (C107_direct_product ZOps ZOps_ring 2 5 U U T _ _ _ mem NT IT eq_refl eq_refl DT DT HU HU HT).
Qed.
Example C107_axpby_case :
  grid_spec (O := ZOps) (gpu_axpby (O := ZOps) 3 2 0 1 3 102 (-1)) mem
    (fun h' => (forall i, 0 <= i < 3 -> h' (102 + -1 * i) = Some (2 * (i + 1) + 3 * (5 - i))) /\
               (forall z, (forall i, 0 <= i < 3 -> z <> 102 + -1 * i) -> h' z = mem z)).
Proof.
  refine (C107_axpby ZOps 3 2 3 0 1 102 (-1) (fun i => i + 1) (fun i => 5 - i) mem _ _ _ _ _); try lia.
  - intros i Hi. assert (C : i = 0 \/ i = 1 \/ i = 2) by lia. destruct C as [->|[->| ->]]; reflexivity.
  - intros i Hi. assert (C : i = 0 \/ i = 1 \/ i = 2) by lia. destruct C as [->|[->| ->]]; reflexivity.
Qed.

(** ** C103: dot products *)

(** Full statement (C103): the result is the sum of the products of all
    elements.  Proved, for every schedule: the call ends, and the result is the
    sum over the elements of some of the workers, among them worker 0; nothing
    is counted twice and the old contents of the result do not matter.  That
    all workers are counted is refuted below. *)
Theorem C103_dot_partial :
  forall (O : Ops), is_ring O ->
  forall c A B a b (h : heap (car O)),
    nonneg (ddims A) -> ddims B = ddims A -> holds h A a -> holds h B b -> h c <> None -> ~ cell A c -> ~ cell B c ->
    let n := zprod (ddims A) in
    let workers := block_size n * blocks n in
    grid_spec (gpu_dot c A B) h (fun h' =>
      (exists counted : Z -> bool, counted 0 = true /\
         h' c = Some (lsum (filter (fun s => counted (s mod workers)) (zrange n))
                           (fun s => omul (a (unravel (ddims A) s)) (b (unravel (ddims A) s))))) /\
      (forall z, z <> c -> h' z = h z)).
Proof.
  intros O HR c A B a b h HN EB HA HB Hc NA NB n workers. destruct (swapped_pos n) as (H1 & H2).
  assert (P1 := block_size_pos n). assert (P2 := blocks_pos n).
  eapply grid_weaken; [|apply (dot_grid HR _ _ c n _ _ (fun s => a (unravel (ddims A) s)) (fun s => b (unravel (ddims A) s)) h H1 H2 Hc)].
  - intros h' ((P & P0 & V) & F). split; auto. exists (fun s => P (Z.to_nat s)). split; auto. rewrite V. do 2 f_equal.
    replace (Z.of_nat (Z.to_nat (block_size n) * Z.to_nat (blocks n))) with workers by (unfold workers; nia). reflexivity.
  - intros s Hs. assert (Hi := unravel_inb _ _ HN Hs). split; [|split; [apply HA; auto|split; [|apply HB; now rewrite EB]]].
    + intros E. apply NA. exists (unravel (ddims A) s). auto.
    + intros E. apply NB. exists (unravel (ddims A) s). rewrite EB. auto.
Qed.
(** Tensors of at most one element are right. *)
Theorem C103_single_partial :
  forall (O : Ops), is_ring O ->
  forall c A B a b (h : heap (car O)),
    nonneg (ddims A) -> zprod (ddims A) <= 1 -> ddims B = ddims A -> holds h A a -> holds h B b -> h c <> None -> ~ cell A c -> ~ cell B c ->
    grid_spec (gpu_dot c A B) h (fun h' => h' c = Some (lsum (indices (ddims A)) (fun i => omul (a i) (b i)))).
Proof.
  intros O HR c A B a b h HN H1 EB HA HB Hc NA NB.
  eapply grid_weaken; [|apply (C103_dot_partial O HR c A B a b h); auto].
  intros h' ((P & P0 & V) & _). rewrite V. f_equal.
  rewrite <- (lsum_perm O HR _ _ _ _ (unravel_perm _ HN)), lsum_map. f_equal.
  assert (0 <= zprod (ddims A)) by (now apply zprod_nonneg). assert (C : zprod (ddims A) = 0 \/ zprod (ddims A) = 1) by lia.
  destruct C as [-> | ->]; [reflexivity|]. change (zrange 1) with [0]. cbn [filter]. now rewrite Zmod_0_l, P0.
Qed.
(** Two elements: worker 1 adds its product before worker 0 clears the result. *)
Theorem C103_dot_refuted : exists c A B a b (h : heap Z),
  nonneg (ddims A) /\ ddims B = ddims A /\ contiguous A /\ contiguous B /\ holds h A a /\ holds h B b /\ h c <> None /\ ~ cell A c /\ ~ cell B c /\
  ~ grid_spec (O := ZOps) (gpu_dot (O := ZOps) c A B) h
      (fun h' => h' c = Some (lsum (O := ZOps) (indices (ddims A)) (fun i => a i * b i))).
Proof.
  set (A := rm 0 [2]). set (B := rm 100 [2]). exists 200, A, B, (look mem A), (look mem B), mem.
  split; [repeat constructor; lia|]. split; [reflexivity|]. split; [cbn; auto|]. split; [cbn; auto|].
  split; [apply holds_check; reflexivity|]. split; [apply holds_check; reflexivity|]. split; [discriminate|].
  split. { intros (i & Hi & E). apply inb1 in Hi as (x & -> & Hx). unfold addr, A in E. cbn in E. lia. }
  split. { intros (i & Hi & E). apply inb1 in Hi as (x & -> & Hx). unfold addr, B in E. cbn in E. lia. }
  apply (ends_refutes (O := ZOps) (map (fun b => Run b 0) ([1; 0] ++ seq 2 30)%nat) _ _
    (fun h : heap Z => match h 200 with Some v => negb (v =? 1 * 3 + 2 * 4) | None => true end)); [vm_compute; reflexivity|].
  intros h' ->. reflexivity.
Qed.
(** The kernel of the Python module, which has a barrier after the clearing, is
    right if all workers are in one block; it is launched with 32 or more. *)
Theorem C103_python_one_block_partial :
  forall (O : Ops), is_ring O ->
  forall nt c n (zA zB : Z -> Z) (fa fb : Z -> car O) h, (0 < nt)%nat -> h c <> None ->
    (forall s, 0 <= s < n -> zA s <> c /\ h (zA s) = Some (fa s) /\ zB s <> c /\ h (zB s) = Some (fb s)) ->
    grid_spec (launch 1 nt (pydot_kernel c n zA zB)) h (fun h' =>
      h' c = Some (zsum n (fun s => omul (fa s) (fb s))) /\ (forall z, z <> c -> h' z = h z)).
Proof. intros O HR nt c n zA zB fa fb h. apply (pydot_block HR). Qed.
Theorem C103_python_refuted : exists (h : heap Z) (fa fb : Z -> Z),
  (forall s, 0 <= s < 2 -> h s = Some (fa s) /\ h (100 + s) = Some (fb s)) /\
  ~ grid_spec (O := ZOps) (launch_swapped (O := ZOps) 2 (pydot_kernel (O := ZOps) 200 2 (fun s => s) (fun s => 100 + s))) h
      (fun h' => h' 200 = Some (zsum (O := ZOps) 2 (fun s => fa s * fb s))).
Proof.
  exists mem, (fun s => s + 1), (fun s => s + 3). split.
  { intros s Hs. assert (C : s = 0 \/ s = 1) by lia. destruct C as [-> | ->]; split; reflexivity. }
  apply (ends_refutes (O := ZOps) (flat_map (fun b => [Run b 0; Bar b; Run b 0]) ([1; 0] ++ seq 2 30)%nat) _ _
    (fun h : heap Z => match h 200 with Some v => negb (v =? 1 * 3 + 2 * 4) | None => true end)); [vm_compute; reflexivity|].
  intros h' ->. reflexivity.
Qed.
(** The conjugated product of views ignores their strides: A is every second
    element of a buffer, B is contiguous. *)
Theorem C103_true_dot_view_refuted : exists c A B a b (h : heap Z),
  nonneg (ddims A) /\ ddims B = ddims A /\ inj A /\ inj B /\ holds h A a /\ holds h B b /\ h c <> None /\
  ~ grid_spec (O := ZOps) (launch_swapped (O := ZOps) 2 (true_dot_kernel (O := ZOps) (fun x => x) c 2 A B)) h
      (fun h' => exists counted : Z -> bool, h' c = Some (lsum (O := ZOps) (filter counted (zrange 2)) (fun s => a [s] * b [s]))).
Proof.
  set (A := mkDesc 0 [2] [2]). set (B := rm 100 [2]). exists 200, A, B, (look mem A), (look mem B), mem.
  split; [repeat constructor; lia|]. split; [reflexivity|].
  assert (IN : forall d, (d = A \/ d = B) -> inj d).
  { intros d Hd i j Hi Hj E. assert (Ed : ddims d = [2]) by (destruct Hd as [-> | ->]; reflexivity). rewrite Ed in *.
    apply inb1 in Hi as (x & -> & Hx). apply inb1 in Hj as (y & -> & Hy). f_equal.
    destruct Hd as [-> | ->]; unfold addr, A, B in E; cbn in E; lia. }
  split; [auto|]. split; [auto|]. split; [apply holds_check; reflexivity|]. split; [apply holds_check; reflexivity|]. split; [discriminate|].
  apply (ends_refutes (O := ZOps) (map (fun b => Run b 0) (seq 0 32)) _ _
    (fun h : heap Z => match h 200 with Some v => v =? 11 | None => false end)); [vm_compute; reflexivity|].
  intros h' (P & ->). change (zrange 2) with [0; 1]. cbn [filter]. destruct (P 0), (P 1); vm_compute; reflexivity.
Qed.

Example C103_dot_case :
  let A := rm 0 [2; 3] in let B := mkDesc 100 [2; 3] [1; 2] in
  grid_spec (O := ZOps) (gpu_dot (O := ZOps) 200 A B) mem (fun h' =>
      (exists counted : Z -> bool, counted 0 = true /\
         h' 200 = Some (lsum (O := ZOps) (filter (fun s => counted (s mod 32)) (zrange 6))
                           (fun s => look mem A (unravel [2; 3] s) * look mem B (unravel [2; 3] s)))) /\
      (forall z, z <> 200 -> h' z = mem z)).
Proof.
  intros A B. apply (C103_dot_partial ZOps ZOps_ring 200 A B (look mem A) (look mem B) mem).
  - repeat constructor; lia.
  - reflexivity.
  - apply holds_check; reflexivity.
  - apply holds_check; reflexivity.
  - discriminate.
  - intros (i & Hi & E). apply in_indices in Hi. cbn in Hi. repeat (destruct Hi as [<-|Hi]; [vm_compute in E; discriminate|]). contradiction.
  - intros (i & Hi & E). apply in_indices in Hi. cbn in Hi. repeat (destruct Hi as [<-|Hi]; [vm_compute in E; discriminate|]). contradiction.
Qed.
Example C103_python_case :
  grid_spec (O := ZOps) (launch 1 256 (pydot_kernel (O := ZOps) 200 7 (fun s => s) (fun s => 100 + s))) mem (fun h' =>
      h' 200 = Some (zsum (O := ZOps) 7 (fun s => (s mod 7 + 1) * ((100 + s) mod 7 + 1))) /\ (forall z, z <> 200 -> h' z = mem z)).
Proof.
  apply (C103_python_one_block_partial ZOps ZOps_ring 256 200 7 (fun s => s) (fun s => 100 + s) (fun s => s mod 7 + 1) (fun s => (100 + s) mod 7 + 1)); [lia|discriminate|].
  intros s Hs. unfold mem. destruct (Z.leb_spec 0 s); [|lia]. destruct (Z.ltb_spec s 300); [|lia].
  destruct (Z.leb_spec 0 (100 + s)); [|lia]. destruct (Z.ltb_spec (100 + s) 300); [|lia]. repeat split; lia.
Qed.

(** ** C104: symm_gemm *)
Theorem C104_gpu_symm_gemm :
  forall (O : Ops), is_ring O ->
  forall (ta tb : bool) (A B C : desc) (m n lda ldb ldc : Z) (a b c : list Z -> car O) (h : heap (car O)),
    0 <= m -> 0 <= n -> mat A m m lda -> (if tb then mat B n m ldb else mat B m n ldb) -> mat C n n ldc ->
    holds h A a -> holds h B b -> holds h C c -> disj C A -> disj C B ->
    gpu_runs (gpu_symm_gemm ta tb A B C) h
      (only_set C (fun i => match i with
         | [x; y] => zsum m (fun p => omul (op tb b p x) (zsum m (fun q => omul (op ta a p q) (op tb b q y))))
         | _ => c i end) h).
Proof.
  intros O HR ta tb A B C m n lda ldb ldc a b c h Hm Hn (dA & sA & lA) MB (dC & sC & lC) HA HB HC DA DB.
  assert (dB : ddims B = if tb then [n; m] else [m; n]) by (destruct tb; destruct MB as (E & _); auto).
  assert (sB : dstrides B = [ldb; 1]) by (destruct tb; destruct MB as (_ & E & _); auto).
  unfold gpu_symm_gemm. cbn [gpu_runs].
  destruct (fill_run O (map (addr C) (indices (ddims C))) h) as (h1 & E1 & V1 & F1).
  { intros z Hz. apply in_map_iff in Hz as (i & <- & Hi). apply in_indices in Hi. rewrite (HC i Hi). discriminate. }
  exists h1. split; auto. rewrite dA, dC, sA, sB, sC. cbn [nth].
  assert (cellC : forall z, In z (map (addr C) (indices (ddims C))) <-> cell C z).
  { intros z. rewrite in_map_iff. split.
    - intros (i & <- & Hi). apply in_indices in Hi. exists i. auto.
    - intros (i & Hi & ->). exists i. split; auto. now apply in_indices. }
  assert (aA : forall i j, addr A [i; j] = dbase A + (i * lda + j)) by (intros; unfold addr; rewrite sA; cbn; lia).
  assert (aB : forall i j, addr B [i; j] = dbase B + (i * ldb + j)) by (intros; unfold addr; rewrite sB; cbn; lia).
  assert (aC : forall i j, addr C [i; j] = dbase C + (i * ldc + j)) by (intros; unfold addr; rewrite sC; cbn; lia).
  assert (iC : forall x y, 0 <= x < n -> 0 <= y < n -> inb [x; y] (ddims C)) by (intros; rewrite dC; repeat constructor; lia).
  assert (allC : forall i, inb i (ddims C) -> exists x y, i = [x; y] /\ 0 <= x < n /\ 0 <= y < n).
  { intros i Hi. rewrite dC in Hi. destruct i as [|x [|y [|]]]; try (apply inb_length in Hi; discriminate). rewrite !inb_cons in Hi. exists x, y. tauto. }
  assert (RO : forall d i, disj C d -> inb i (ddims d) -> (forall x y, 0 <= x < n -> 0 <= y < n -> addr d i <> dbase C + (x * ldc + y)) /\ h1 (addr d i) = h (addr d i)).
  { intros d i Hd Hi. split.
    - intros x y Hx Hy. rewrite <- aC. intros E. apply (Hd [x; y] i); auto.
    - apply F1. rewrite cellC. intros (j & Hj & E). apply (Hd j i); auto. }
  destruct (swapped_pos (m * m * n * n)) as (P1 & P2).
  eapply grid_weaken; [|apply (symm_grid HR _ _ ta tb m n (dbase A) lda (dbase B) ldb (dbase C) ldc (op ta a) (op tb b) h1 P1 P2 Hm Hn)].
  - intros h' (V & F). split.
    + intros i Hi. destruct (allC i Hi) as (x & y & -> & Hx & Hy). rewrite aC, V by auto. f_equal. apply zsum_ext. intros p Hp.
      unfold zsum at 2. rewrite <- (lsum_mul_l O HR). apply lsum_ext. intros q _.
      assert (RT := ir_rt O HR). rewrite (Rmul_assoc RT), (Rmul_comm RT (op ta a p q)), <- (Rmul_assoc RT). reflexivity.
    + intros z Hz. rewrite F.
      * apply F1. rewrite cellC. intros (j & Hj & ->). apply (Hz j); auto.
      * intros x y Hx Hy. rewrite <- aC. apply Hz. auto.
  - intros i j Hi Hj. destruct ta; unfold op; rewrite <- aA.
    + destruct (RO A [j; i] DA) as (R1 & R2); [rewrite dA; repeat constructor; lia|]. split; auto. rewrite R2. apply HA. rewrite dA; repeat constructor; lia.
    + destruct (RO A [i; j] DA) as (R1 & R2); [rewrite dA; repeat constructor; lia|]. split; auto. rewrite R2. apply HA. rewrite dA; repeat constructor; lia.
  - intros i x Hi Hx. destruct tb; unfold op; rewrite <- aB.
    + destruct (RO B [x; i] DB) as (R1 & R2); [rewrite dB; repeat constructor; lia|]. split; auto. rewrite R2. apply HB. rewrite dB; repeat constructor; lia.
    + destruct (RO B [i; x] DB) as (R1 & R2); [rewrite dB; repeat constructor; lia|]. split; auto. rewrite R2. apply HB. rewrite dB; repeat constructor; lia.
  - intros x y Hx Hy. rewrite <- aC. apply V1, cellC. exists [x; y]. auto.
  - intros x y x' y' Hx Hy Hx' Hy' E. assert (x = x') by nia. split; auto. nia.
Qed.
Example C104_case :
  let A := rm 0 [2; 2] in let B := rm 100 [2; 3] in let C := mkDesc 200 [3; 3] [4; 1] in
  gpu_runs (O := ZOps) (gpu_symm_gemm (O := ZOps) true false A B C) mem
    (only_set (O := ZOps) C (fun i => match i with
       | [x; y] => zsum (O := ZOps) 2 (fun p => look mem B [p; x] * zsum (O := ZOps) 2 (fun q => look mem A [q; p] * look mem B [q; y]))
       | _ => look mem C i end) mem).
Proof.
  intros A B C. refine (C104_gpu_symm_gemm ZOps ZOps_ring true false A B C 2 3 2 3 4 (look mem A) (look mem B) (look mem C) mem _ _ _ _ _ _ _ _ _ _);
    try lia; try (apply holds_check; reflexivity); try (apply disj_check; reflexivity); (split; [reflexivity|split; [reflexivity|cbn; lia]]).
Qed.

(** ** C105: sorting *)
Lemma inb_env : forall (ext : nat -> Z) X idx, NoDup X -> inb idx (map ext X) -> exists env, env_ok ext env X /\ idx = map env X.
Proof.
  intros ext X idx HN Hi. assert (E := inb_length _ _ Hi). rewrite map_length in E.
  exists (upds X idx (fun _ => 0)). rewrite upds_map by auto. split; auto. apply upds_ok; auto. intros l H1 H2. contradiction.
Qed.

(** Full statement (C105): C becomes cp*C + ap*(A with its axes permuted).
    Proved if cp = 0 and A is contiguous, for every schedule. *)
Theorem C105_sort_partial :
  forall (O : Ops), is_ring O ->
  forall (Ci Ai : list nat) (ext : nat -> Z) A C (a c : list Z -> car O) (ap : car O) (h : heap (car O)),
    NoDup Ci -> Permutation Ci Ai -> (forall l, In l Ci -> 0 <= ext l) ->
    consistent ext Ai A -> consistent ext Ci C -> holds h A a -> holds h C c -> inj C -> disj C A -> contiguous A ->
    grid_spec (gpu_sort Ci Ai o0 C ap A) h (fun h' =>
      (forall env, env_ok ext env Ci -> h' (addr C (map env Ci)) = Some (omul ap (a (map env Ai)))) /\
      (forall z, (forall env, env_ok ext env Ci -> z <> addr C (map env Ci)) -> h' z = h z)).
Proof.
  intros O HR Ci Ai ext A C a c ap h HN HP Hext HdA HdC HA HC HI HD CA.
  assert (Hin : forall l, In l Ci <-> In l Ai).
  { intros l. split; intros Hl; [eapply Permutation_in; eauto|eapply Permutation_in; [apply Permutation_sym|]; eauto]. }
  assert (HNA : NoDup Ai) by (eapply Permutation_NoDup; eauto).
  assert (NA : nonneg (ddims A)). { unfold nonneg. rewrite HdA. apply Forall_map, Forall_forall. intros l Hl. apply Hext, Hin, Hl. }
  set (n := zprod (ddims A)).
  set (zB := fun s => addr C (map (fun q => nth q (unravel (ddims A) s) 0) (create_perm_table Ci Ai))).
  assert (SI : forall s, sentinel_to_indices s (dstrides A) = unravel (ddims A) s).
  { intros s. apply contiguous_rowmaj in CA. rewrite CA. unfold unravel. rewrite dims_to_strides_eq. reflexivity. }
  assert (EV : forall s, 0 <= s < n -> exists env, env_ok ext env Ci /\ unravel (ddims A) s = map env Ai /\ zB s = addr C (map env Ci)).
  { intros s Hs. destruct (inb_env ext Ai (unravel (ddims A) s) HNA) as (env & He & E).
    - rewrite <- HdA. apply unravel_inb; auto.
    - exists env. split; [intros l Hl; apply He, Hin, Hl|]. split; auto. unfold zB. rewrite E, perm_table_env; auto. intros l. apply Hin. }
  assert (cellB : forall s, 0 <= s < n -> cell C (zB s)).
  { intros s Hs. destruct (EV s Hs) as (env & He & _ & ->). exists (map env Ci). split; auto. rewrite HdC. now apply inb_map_env. }
  assert (injB : forall s t, 0 <= s < n -> 0 <= t < n -> zB s = zB t -> s = t).
  { intros s t Hs Ht E. destruct (EV s Hs) as (e1 & O1 & U1 & Z1). destruct (EV t Ht) as (e2 & O2 & U2 & Z2). rewrite Z1, Z2 in E.
    apply HI in E; try (rewrite HdC; now apply inb_map_env). apply (unravel_inj (ddims A)); auto. rewrite U1, U2.
    apply map_ext_in. intros l Hl. apply Hin in Hl. clear - E Hl. induction Ci as [|x L IH]; [contradiction|]. cbn [map] in E. injection E as E1 E2.
    destruct Hl as [<-|Hl]; auto. }
  set (val := fun z => match find (fun s => zB s =? z) (zrange n) with Some s => omul ap (a (unravel (ddims A) s)) | None => o0 end).
  assert (VB : forall s, 0 <= s < n -> val (zB s) = omul ap (a (unravel (ddims A) s))).
  { intros s Hs. unfold val. destruct (find (fun t => zB t =? zB s) (zrange n)) as [t|] eqn:E.
    - apply find_some in E as (Ht & E). apply zrange_in in Ht. apply Z.eqb_eq in E. now rewrite (injB t s).
    - exfalso. apply zrange_in in Hs. apply (find_none _ _ E s) in Hs. rewrite Z.eqb_refl in Hs. discriminate. }
  set (nb := Z.to_nat (blocks n)). set (nt := Z.to_nat (block_size n)).
  assert (Hk : (0 < nb * nt)%nat). { destruct (swapped_pos n). unfold nb, nt. nia. }
  unfold gpu_sort, launch_for. fold n nb nt.
  apply grid_of_pool; [apply (launch_ok _ _ _ 0); auto|]. rewrite launch_flat. unfold sort_kernel. cbn [join].
  eapply apool_weaken; [|apply (cw_pool (cell C) val h _ (map (fun w => map zB (filter (fun s => Z.of_nat w <=? s) (zrange n))) (seq 0 (nb * nt))))].
  - assert (All : forall s, 0 <= s < n -> In (zB s) (concat (map (fun w => map zB (filter (fun s => Z.of_nat w <=? s) (zrange n))) (seq 0 (nb * nt))))).
    { intros s Hs. apply in_concat. exists (map zB (filter (fun s => Z.of_nat 0 <=? s) (zrange n))). split.
      - apply in_map_iff. exists 0%nat. split; auto. apply in_seq. lia.
      - apply in_map, filter_In. split; [now apply zrange_in|]. apply Z.leb_le. lia. }
    intros h' (V & F). split.
    + intros env He. assert (Hi : inb (map env Ai) (ddims A)). { rewrite HdA. apply inb_map_env. intros l Hl. apply He, Hin, Hl. }
      assert (Hs : exists s, 0 <= s < n /\ unravel (ddims A) s = map env Ai).
      { apply in_indices in Hi. apply (Permutation_in _ (Permutation_sym (unravel_perm _ NA))) in Hi. apply in_map_iff in Hi as (s & E & Hs).
        apply zrange_in in Hs. eauto. }
      destruct Hs as (s & Hs & E). assert (Ez : zB s = addr C (map env Ci)).
      { unfold zB. rewrite E, perm_table_env; auto. intros l. apply Hin. }
      rewrite <- Ez, V by auto. now rewrite VB, E.
    + intros z Hz. apply F. intros Hi. apply in_concat in Hi as (l & Hl & Hi). apply in_map_iff in Hl as (w & <- & _).
      apply in_map_iff in Hi as (s & <- & Hs). apply filter_In in Hs as (Hs & _). apply zrange_in in Hs.
      destruct (EV s Hs) as (env & He & _ & E). apply (Hz env He E).
  - intros z (i & Hi & ->). rewrite (HC i Hi). discriminate.
  - assert (G : forall l, (forall s, In s l -> 0 <= s < n) ->
       cw (cell C) val h (lift1 (pseq l (sort_body (create_perm_table Ci Ai) ap A o0 C))) (map zB l)).
    { induction l as [|s l IH]; intros Hl; cbn [map]; [constructor|]. assert (Hs : 0 <= s < n) by (apply Hl; simpl; auto).
      cbn [pseq]. unfold sort_body at 1. rewrite SI. fold (zB s). unfold lift1. cbn [pbind alift].
      apply cw_rdw; auto. intros v.
      assert (Hi := unravel_inb _ _ NA Hs).
      apply cw_rd with (v := a (unravel (ddims A) s)).
      - intros (j & Hj & E). apply (HD j (unravel (ddims A) s)); auto.
      - apply HA; auto.
      - assert (E : oadd (omul o0 v) (omul ap (a (unravel (ddims A) s))) = val (zB s)).
        { rewrite VB by auto. rewrite (omul_0_l HR). apply (Radd_0_l (ir_rt O HR)). }
        rewrite E. apply cw_wr; auto. apply IH. intros t Ht. apply Hl. simpl; auto. }
    clear - G. assert (H : forall ws, Forall2 (cw (cell C) val h)
       (map (fun w => lift1 (pseq (filter (fun s => Z.of_nat w <=? s) (zrange n)) (sort_body (create_perm_table Ci Ai) ap A o0 C))) ws)
       (map (fun w => map zB (filter (fun s => Z.of_nat w <=? s) (zrange n))) ws)).
    { induction ws; constructor; auto. apply G. intros s Hs. apply filter_In in Hs as (Hs & _). now apply zrange_in. }
    apply H.
Qed.
(** With cp <> 0, in every schedule in which the workers run one after the other
    (and in others), the last element is updated by every worker that starts at or before it. *)
Theorem C105_accumulate_refuted : exists (Ci Ai : list nat) (ext : nat -> Z) A C (a c : list Z -> Z) (h : heap Z),
  NoDup Ci /\ Permutation Ci Ai /\ (forall l, In l Ci -> 0 <= ext l) /\ consistent ext Ai A /\ consistent ext Ci C /\
  holds h A a /\ holds h C c /\ inj C /\ disj C A /\ contiguous A /\ contiguous C /\
  ~ grid_spec (O := ZOps) (gpu_sort (O := ZOps) Ci Ai 1 C 1 A) h (fun h' =>
      forall env, env_ok ext env Ci -> h' (addr C (map env Ci)) = Some (1 * c (map env Ci) + 1 * a (map env Ai))).
Proof.
  set (A := rm 0 [2; 2]). set (C := rm 100 [2; 2]). exists [1; 0]%nat, [0; 1]%nat, (fun _ => 2), A, C, (look mem A), (look mem C), mem.
  split; [repeat constructor; simpl; intuition discriminate|]. split; [apply perm_swap|]. split; [intros; lia|].
  split; [reflexivity|]. split; [reflexivity|]. split; [apply holds_check; reflexivity|]. split; [apply holds_check; reflexivity|].
  split; [apply rowmaj_inj; reflexivity|]. split; [apply disj_check; reflexivity|]. split; [cbn; auto|]. split; [cbn; auto|].
  apply (ends_refutes (O := ZOps) (map (fun t => Run 0 t) (seq 0 32)) _ _
    (fun h : heap Z => match h 103 with Some v => negb (v =? 1 * 6 + 1 * 4) | None => true end)); [vm_compute; reflexivity|].
  intros h' H. specialize (H (fun _ => 1)). change (addr C (map (fun _ => 1) [1; 0]%nat)) with 103 in H. rewrite H; [reflexivity|].
  intros l _. lia.
Qed.
(** A view of A whose rows are not adjacent: rows of length 2 at distance 3. *)
Theorem C105_view_refuted : exists (Ci Ai : list nat) (ext : nat -> Z) A C (a c : list Z -> Z) (h : heap Z),
  NoDup Ci /\ Permutation Ci Ai /\ (forall l, In l Ci -> 0 <= ext l) /\ consistent ext Ai A /\ consistent ext Ci C /\
  holds h A a /\ holds h C c /\ inj A /\ inj C /\ disj C A /\ contiguous C /\
  ~ grid_spec (O := ZOps) (gpu_sort (O := ZOps) Ci Ai 0 C 1 A) h (fun h' =>
      forall env, env_ok ext env Ci -> h' (addr C (map env Ci)) = Some (1 * a (map env Ai))).
Proof.
  set (A := mkDesc 0 [2; 2] [3; 1]). set (C := rm 100 [2; 2]). exists [1; 0]%nat, [0; 1]%nat, (fun _ => 2), A, C, (look mem A), (look mem C), mem.
  split; [repeat constructor; simpl; intuition discriminate|]. split; [apply perm_swap|]. split; [intros; lia|].
  split; [reflexivity|]. split; [reflexivity|]. split; [apply holds_check; reflexivity|]. split; [apply holds_check; reflexivity|].
  split.
  { intros i j Hi Hj E. destruct i as [|x [|y [|]]]; try (apply inb_length in Hi; discriminate).
    destruct j as [|x' [|y' [|]]]; try (apply inb_length in Hj; discriminate). cbn [ddims A] in Hi, Hj. rewrite !inb_cons in Hi, Hj.
    unfold addr, A in E. cbn in E. assert (x = x') by lia. subst. f_equal. f_equal. lia. }
  split; [apply rowmaj_inj; reflexivity|]. split; [apply disj_check; reflexivity|]. split; [cbn; auto|].
  apply (ends_refutes (O := ZOps) (map (fun t => Run 0 t) (seq 0 32)) _ _
    (fun h : heap Z => match h 103 with Some v => negb (v =? 1 * 5) | None => true end)); [vm_compute; reflexivity|].
  intros h' H. specialize (H (fun _ => 1)). change (addr C (map (fun _ => 1) [1; 0]%nat)) with 103 in H. rewrite H; [reflexivity|].
  intros l _. lia.
Qed.
Example C105_sort_case :
  let A := rm 0 [2; 3; 2] in let C := mkDesc 100 [3; 2; 2] [8; 4; 1] in let ext := fun l => nth l [2; 3; 2] 1 in
  grid_spec (O := ZOps) (gpu_sort (O := ZOps) [1; 0; 2]%nat [0; 1; 2]%nat 0 C 5 A) mem (fun h' =>
      (forall env, env_ok ext env [1; 0; 2]%nat -> h' (addr C (map env [1; 0; 2]%nat)) = Some (5 * look mem A (map env [0; 1; 2]%nat))) /\
      (forall z, (forall env, env_ok ext env [1; 0; 2]%nat -> z <> addr C (map env [1; 0; 2]%nat)) -> h' z = mem z)).
Proof.
  intros A C ext. apply (C105_sort_partial ZOps ZOps_ring [1; 0; 2]%nat [0; 1; 2]%nat ext A C (look mem A) (look mem C) 5 mem).
  - repeat constructor; simpl; intuition discriminate.
  - apply perm_swap.
  - intros l _. apply (ext_nonneg [2; 3; 2]); reflexivity.
  - reflexivity.
  - reflexivity.
  - apply holds_check; reflexivity.
  - apply holds_check; reflexivity.
  - intros i j Hi Hj E. destruct i as [|x [|y [|z [|]]]]; try (apply inb_length in Hi; discriminate).
    destruct j as [|x' [|y' [|z' [|]]]]; try (apply inb_length in Hj; discriminate). cbn [ddims C] in Hi, Hj. rewrite !inb_cons in Hi, Hj.
    unfold addr, C in E. cbn in E. assert (x = x' /\ y = y' /\ z = z') as (-> & -> & ->) by lia. reflexivity.
  - apply disj_check; reflexivity.
  - cbn. auto.
Qed.

(** ** C106: sums, maxima and minima *)
Lemma number_cm : forall dims s, nonneg dims -> 0 <= s < zprod dims -> number dims (cm_index dims s) = s.
Proof.
  induction dims as [|d ds IH]; intros s HN Hs; [change (zprod []) with 1 in Hs; change (0 = s); lia|].
  inversion HN as [|? ? H1 H2]; subst. unfold zprod in Hs. cbn [fold_right] in Hs. fold (zprod ds) in Hs. cbv beta in H1.
  assert (0 < d) by (destruct (Z.eq_dec d 0) as [->|]; lia). cbn [cm_index number].
  rewrite IH; auto.
  - assert (E := Z.div_mod s d). lia.
  - split; [apply Z.div_pos; lia|apply Z.div_lt_upper_bound; lia].
Qed.
Lemma filter_map_comm : forall X Y (g : X -> Y) (P : Y -> bool) l, filter P (map g l) = map g (filter (fun x => P (g x)) l).
Proof. induction l as [|x l IH]; cbn [map filter]; auto. destruct (P (g x)); cbn [map]; now rewrite IH. Qed.
Lemma filter_all : forall X (P : X -> bool) l, (forall x, In x l -> P x = true) -> filter P l = l.
Proof. induction l as [|x l IH]; intros H; cbn [filter]; auto. rewrite H, IH; simpl; auto. intros. apply H. simpl; auto. Qed.
Lemma Permutation_filter : forall X (P : X -> bool) l m, Permutation l m -> Permutation (filter P l) (filter P m).
Proof.
  intros X P l m H. induction H as [|x l m H IH|x y l|l m r H1 IH1 H2 IH2]; cbn [filter]; auto.
  - destruct (P x); auto.
  - destruct (P x), (P y); auto. constructor.
  - eapply Permutation_trans; eauto.
Qed.
Lemma log2_nat : forall k, 0 < k -> Z.of_nat (Nat.log2 (Z.to_nat k)) = Z.log2 k.
Proof.
  intros k H. symmetry. destruct (Nat.log2_spec (Z.to_nat k)) as (H1 & H2); [lia|]. apply Nat2Z.inj_le in H1. apply Nat2Z.inj_lt in H2.
  rewrite Nat2Z.inj_pow in H1, H2. rewrite (Nat2Z.inj_succ (Nat.log2 (Z.to_nat k))) in H2. rewrite Z2Nat.id in H1, H2 by lia.
  change (Z.of_nat 2) with 2 in H1, H2. apply Z.log2_unique; [apply Nat2Z.is_nonneg|]. split; [exact H1|exact H2].
Qed.
Lemma one_block : forall n, n < 512 -> blocks n = 1.
Proof.
  intros n H. unfold blocks. destruct (Z.ltb_spec n 256); auto. destruct (Z.leb_spec n 4096); [|lia].
  apply Z.le_antisymm; [apply Z.lt_succ_r, Z.div_lt_upper_bound; lia|apply Z.div_le_lower_bound; lia].
Qed.

(** Full statement (C106): the result combines all elements.  Proved for tensors
    of fewer than 512 elements, every combination (commutative, associative, with
    a neutral element) and every schedule: exactly the elements of the first
    2^(log2 workers - 1) workers are combined. *)
Theorem C106_reduce_partial :
  forall (O : Ops) (op : car O -> car O -> car O) (u : car O),
    (forall x y, op x y = op y x) -> (forall x y z, op x (op y z) = op (op x y) z) -> (forall x, op u x = x) ->
  forall (d : desc) (W out : Z) (a : list Z -> car O) (h : heap (car O)),
    nonneg (ddims d) -> zprod (ddims d) < 512 -> holds h d a ->
    let k := block_size (zprod (ddims d)) in
    (forall w, 0 <= w < k -> h (W + w) <> None /\ W + w <> out /\ ~ cell d (W + w)) -> h out <> None -> ~ cell d out ->
    grid_spec (gpu_reduce op u d W out) h (fun h' =>
      h' out = Some (fold_all op u a (filter (fun i => number (ddims d) i mod k <? 2 ^ (Z.log2 k - 1)) (indices (ddims d)))) /\
      (forall z, z <> out -> (forall w, 0 <= w < k -> z <> W + w) -> h' z = h z)).
Proof.
  intros O op u opC opA opU d W out a h HN Hn Hd k HW Ho Do. set (n := zprod (ddims d)) in *.
  assert (Pk := block_size_pos n). fold k in Pk. unfold gpu_reduce, launch_for. fold n. rewrite (one_block n Hn).
  change (Z.to_nat 1) with 1%nat. fold k.
  assert (HW' : forall w, (w < Z.to_nat k)%nat -> h (W + Z.of_nat w) <> None /\ W + Z.of_nat w <> out /\ ~ cell d (W + Z.of_nat w)) by (intros; apply HW; lia).
  eapply grid_weaken; [|apply (reduce_block op u opC opA opU d W out (Z.to_nat k) a)]; auto; try lia; try (intros; apply HW'; auto).
  intros h' (V & F). split.
  - rewrite V. f_equal.
    rewrite (fold_all_perm op u opC opA _ _ _ (filter (fun i => number (ddims d) i mod k <? 2 ^ (Z.log2 k - 1)) (map (cm_index (ddims d)) (zrange n)))).
    2: apply Permutation_filter, Permutation_sym, cm_perm, HN.
    rewrite filter_map_comm, fold_all_map. f_equal. apply filter_ext_in. intros s Hs. apply zrange_in in Hs. rewrite number_cm by auto.
    rewrite Z2Nat.id by lia. assert (B := Z.mod_pos_bound s k).
    assert (E : Z.of_nat (2 ^ reduce_rounds (Z.to_nat k)) = 2 ^ (Z.log2 k - 1)).
    { unfold reduce_rounds. rewrite Nat2Z.inj_pow. f_equal.
      assert (L : Z.of_nat (Nat.log2 (Z.to_nat k)) = Z.log2 k) by (apply log2_nat; lia).
      assert (1 <= Z.log2 k) by (apply Z.log2_le_pow2; lia). lia. }
    destruct (Nat.ltb_spec (Z.to_nat (s mod k)) (2 ^ reduce_rounds (Z.to_nat k))), (Z.ltb_spec (s mod k) (2 ^ (Z.log2 k - 1))); auto; lia.
  - intros z Hz1 Hz2. apply F; auto. intros w Hw. apply Hz2. lia.
Qed.

Theorem C106_small_partial :
  forall (O : Ops) (op : car O -> car O -> car O) (u : car O),
    (forall x y, op x y = op y x) -> (forall x y z, op x (op y z) = op (op x y) z) -> (forall x, op u x = x) ->
  forall (d : desc) (W out : Z) (a : list Z -> car O) (h : heap (car O)),
    nonneg (ddims d) -> zprod (ddims d) <= 16 -> holds h d a ->
    (forall w, 0 <= w < 32 -> h (W + w) <> None /\ W + w <> out /\ ~ cell d (W + w)) -> h out <> None -> ~ cell d out ->
    grid_spec (gpu_reduce op u d W out) h (fun h' => h' out = Some (fold_all op u a (indices (ddims d)))).
Proof.
  intros O op u opC opA opU d W out a h HN Hn Hd HW Ho Do.
  assert (Ek : block_size (zprod (ddims d)) = 32) by (unfold block_size; destruct (Z.ltb_spec (zprod (ddims d)) 32); lia).
  assert (H := C106_reduce_partial O op u opC opA opU d W out a h HN). rewrite Ek in H. eapply grid_weaken; [|apply H; auto; lia].
  intros h' (V & _). rewrite V. do 2 f_equal. apply filter_all. intros i Hi.
  apply (Permutation_in _ (Permutation_sym (cm_perm _ HN))) in Hi. apply in_map_iff in Hi as (s & <- & Hs). apply zrange_in in Hs.
  rewrite number_cm by auto. apply Z.ltb_lt. change (2 ^ (Z.log2 32 - 1)) with 16. rewrite Z.mod_small; lia.
Qed.

(** A launch with a specification has some final memory. *)
Lemma grid_some : forall (O : Ops) (g : @grid O) h Q, grid_spec g h Q -> exists h', Q h'.
Proof.
  intros O g h Q (HS & HA). remember (g, h) as s eqn:Es. revert g h Es HS. induction HA as [s _ IH]. intros g h -> HS.
  destruct (HS g h (gss_refl _)) as (_ & [D|([g' h'] & St)] & HQ); [exists h; auto|].
  apply (IH (g', h') St g' h' eq_refl). intros g2 h2 H2. apply HS. eapply gss_step; eauto.
Qed.
Lemma grid_both : forall (O : Ops) (g : @grid O) h (Q R : heap (car O) -> Prop), grid_spec g h Q -> grid_spec g h R -> grid_spec g h (fun h' => Q h' /\ R h').
Proof.
  intros O g h Q R (H1 & A) (H2 & _). split; auto. intros g' h' Hs. destruct (H1 g' h' Hs) as (F & P & HQ). destruct (H2 g' h' Hs) as (_ & _ & HR). auto 6.
Qed.

(** For every shape of 17 to 511 elements some contiguous tensor has a wrong sum, whatever the schedule. *)
Theorem C106_large_refuted : forall dims, nonneg dims -> 16 < zprod dims < 512 ->
  exists d W out (a : list Z -> Z) (h : heap Z), ddims d = dims /\ contiguous d /\ holds h d a /\
    (forall w, 0 <= w < block_size (zprod dims) -> h (W + w) <> None /\ W + w <> out /\ ~ cell d (W + w)) /\ h out <> None /\ ~ cell d out /\
    grid_spec (O := ZOps) (gpu_reduce (O := ZOps) Z.add 0 d W out) h (fun h' => h' out <> Some (lsum (O := ZOps) (indices dims) a)) /\
    ~ grid_spec (O := ZOps) (gpu_reduce (O := ZOps) Z.add 0 d W out) h (fun h' => h' out = Some (lsum (O := ZOps) (indices dims) a)).
Proof.
  intros dims HN Hn. set (n := zprod dims) in *. set (k := block_size n). set (s0 := 2 ^ (Z.log2 k - 1)).
  assert (Pk := block_size_pos n). fold k in Pk.
  assert (L5 : 5 <= Z.log2 k) by (apply Z.log2_le_pow2; lia).
  assert (Hs0 : 2 * s0 <= k). { unfold s0. rewrite <- Z.pow_succ_r by lia. replace (Z.succ (Z.log2 k - 1)) with (Z.log2 k) by lia. apply Z.log2_spec. lia. }
  assert (H16 : 16 <= s0). { unfold s0. change 16 with (2 ^ 4). apply Z.pow_le_mono_r; lia. }
  assert (Hsn : s0 < n).
  { unfold k, block_size in *. destruct (Z.ltb_spec n 32); [|]. 
    - change (Z.log2 32) with 5 in *. unfold s0. change (2 ^ (5 - 1)) with 16. lia.
    - destruct (Z.ltb_spec n 256); [|lia]. assert (Z.land n 240 <= n); [|lia].
      assert (E := Z.lor_ldiff_and n 240). assert (S := Z.add_nocarry_lxor). 
      assert (0 <= Z.ldiff n 240) by (apply Z.ldiff_nonneg; lia).
      assert (E2 : n = Z.ldiff n 240 + Z.land n 240).
      { rewrite Z.add_nocarry_lxor by (rewrite <- Z.ldiff_ldiff_l || idtac; apply Z.bits_inj'; intros b Hb; rewrite !Z.land_spec, Z.ldiff_spec, Z.bits_0; destruct (Z.testbit n b), (Z.testbit 240 b); auto).
        apply Z.bits_inj'. intros b Hb. rewrite Z.lxor_spec, Z.land_spec, Z.ldiff_spec. destruct (Z.testbit n b), (Z.testbit 240 b); auto. }
      lia. }
  set (d := rm 0 dims). set (a := fun i => if number dims i =? s0 then 1 else 0).
  set (h := fun z : Z => if z =? addr d (cm_index dims s0) then Some 1 else Some 0).
  assert (RD : rowmaj d) by reflexivity.
  assert (Cd : forall z, cell d z -> 0 <= z < n). { intros z Hz. apply (rowmaj_cell d z RD HN) in Hz. destruct Hz as (x & H1 & H2). cbn in *. fold n in H1. lia. }
  exists d, n, (-1), a, h.
  assert (Hh : forall z, h z <> None). { intros z. unfold h. destruct (z =? addr d (cm_index dims s0)); discriminate. }
  assert (Hd : holds h d a).
  { intros i Hi. unfold h, a. change (ddims d) with dims in Hi. apply in_indices in Hi.
    apply (Permutation_in _ (Permutation_sym (cm_perm _ HN))) in Hi. apply in_map_iff in Hi as (s & <- & Hs). apply zrange_in in Hs. fold n in Hs.
    rewrite number_cm by auto. destruct (Z.eqb_spec s s0) as [->|E]; [now rewrite Z.eqb_refl|].
    destruct (Z.eqb_spec (addr d (cm_index dims s)) (addr d (cm_index dims s0))) as [E1|E1]; auto.
    exfalso. apply E. apply (cm_inj dims); auto; try (fold n; lia). apply (rowmaj_inj d RD); auto; change (ddims d) with dims; apply cm_inb; auto; fold n; lia. }
  assert (HW : forall w, 0 <= w < k -> h (n + w) <> None /\ n + w <> -1 /\ ~ cell d (n + w)).
  { intros w Hw. split; auto. split; [lia|]. intros C. apply Cd in C. lia. }
  assert (Do : ~ cell d (-1)) by (intros C; apply Cd in C; lia).
  assert (Main : grid_spec (O := ZOps) (gpu_reduce (O := ZOps) Z.add 0 d n (-1)) h (fun h' => h' (-1) <> Some (lsum (O := ZOps) (indices dims) a))).
  { eapply grid_weaken; [|apply (C106_reduce_partial ZOps Z.add 0 Z.add_comm Z.add_assoc Z.add_0_l d n (-1) a h HN (proj2 Hn) Hd HW (Hh (-1)) Do)].
    intros h' (V & _) E. rewrite V in E. injection E as E. fold n k s0 in E. change (ddims d) with dims in E.
    assert (E1 : fold_all Z.add 0 a (filter (fun i => number dims i mod k <? s0) (indices dims)) = 0).
    { assert (G : forall l, fold_all Z.add 0 a (filter (fun i => number dims i mod k <? s0) l) = 0); auto.
      induction l as [|i l IH]; auto. cbn [filter]. destruct (Z.ltb_spec (number dims i mod k) s0) as [H|H]; auto.
      unfold fold_all in *. cbn [fold_right]. rewrite IH. unfold a. destruct (Z.eqb_spec (number dims i) s0) as [E2|E2]; auto.
      rewrite E2, Z.mod_small in H; lia. }
    assert (E2 : 1 <= lsum (O := ZOps) (indices dims) a).
    { assert (Hi : In (cm_index dims s0) (indices dims)) by (apply in_indices, cm_inb; auto; fold n; lia).
      assert (G : forall l, 0 <= lsum (O := ZOps) l a /\ (In (cm_index dims s0) l -> 1 <= lsum (O := ZOps) l a)).
      { induction l as [|i l (G1 & G2)]; [split; [reflexivity|contradiction]|].
        assert (Ha : 0 <= a i) by (unfold a; destruct (number dims i =? s0); lia).
        change (lsum (O := ZOps) (i :: l) a) with (a i + lsum (O := ZOps) l a). split; [lia|]. intros [->|Hl].
        - unfold a at 1. rewrite number_cm, Z.eqb_refl by (auto; fold n; lia). lia.
        - specialize (G2 Hl). lia. }
      apply G, Hi. }
    change (car ZOps) with Z in *. rewrite E1 in E. lia. }
  split; [reflexivity|]. split; [now apply contiguous_rowmaj|]. split; auto. split; auto. split; auto. split; auto. split; auto.
  intros H. destruct (grid_some _ _ _ _ (grid_both _ _ _ _ _ Main H)) as (h' & H1 & H2). auto.
Qed.
Example C106_case :
  grid_spec (O := ZOps) (gpu_reduce (O := ZOps) Z.add 0 (mkDesc 0 [4; 3] [20; 2]) 100 99) mem (fun h => h 99 = Some 46) /\
  grid_spec (O := ZOps) (gpu_reduce (O := ZOps) Z.add 0 (rm 0 [6; 8]) 100 99) mem (fun h => exists r, h 99 = Some r /\ r <> lsum (O := ZOps) (indices [6; 8]) (look mem (rm 0 [6; 8]))).
Proof.
  assert (HW : forall d k, forallb (fun z => (0 <=? z) && (z <? 99)) (map (addr d) (indices (ddims d))) = true -> 0 <= k <= 200 ->
     (forall w, 0 <= w < k -> mem (100 + w) <> None /\ 100 + w <> 99 /\ ~ cell d (100 + w)) /\ ~ cell d 99).
  { intros d k H Hk. rewrite forallb_forall in H.
    assert (C : forall z, cell d z -> z < 99).
    { intros z (i & Hi & ->). apply in_indices in Hi. specialize (H _ (in_map (addr d) _ _ Hi)). apply andb_prop in H as (_ & H). now apply Z.ltb_lt. }
    split; [|intros Hc; apply C in Hc; lia]. intros w Hw. split; [|split; [lia|intros Hc; apply C in Hc; lia]].
    unfold mem. destruct (Z.leb_spec 0 (100 + w)); [|lia]. destruct (Z.ltb_spec (100 + w) 300); [discriminate|lia]. }
  split.
  - set (d := mkDesc 0 [4; 3] [20; 2]). destruct (HW d 32 eq_refl) as (H1 & H2); [lia|].
    eapply grid_weaken; [|apply (C106_small_partial ZOps Z.add 0 Z.add_comm Z.add_assoc Z.add_0_l d 100 99 (look mem d) mem); auto].
    + intros h' ->. reflexivity.
    + repeat constructor; lia.
    + cbn. lia.
    + apply holds_check; reflexivity.
    + discriminate.
  - set (d := rm 0 [6; 8]). destruct (HW d 48 eq_refl) as (H1 & H2); [lia|].
    eapply grid_weaken; [|apply (C106_reduce_partial ZOps Z.add 0 Z.add_comm Z.add_assoc Z.add_0_l d 100 99 (look mem d) mem); auto].
    + intros h' (-> & _). eexists. split; [reflexivity|]. vm_compute. discriminate.
    + repeat constructor; lia.
    + cbn. lia.
    + apply holds_check; reflexivity.
    + discriminate.
Qed.
Print Assumptions C107_gpu_map.
Print Assumptions C107_assign_op.
Print Assumptions C107_copy.
Print Assumptions C107_set_all_partial.
Print Assumptions C107_scalar_op_partial.
Print Assumptions C107_direct_product.
Print Assumptions C107_axpby.
Print Assumptions C107_view_scalar_refuted.
Print Assumptions C107_view_set_all_refuted.
Print Assumptions C103_dot_partial.
Print Assumptions C103_single_partial.
Print Assumptions C103_dot_refuted.
Print Assumptions C103_python_one_block_partial.
Print Assumptions C103_python_refuted.
Print Assumptions C103_true_dot_view_refuted.
Print Assumptions C104_gpu_symm_gemm.
Print Assumptions C105_sort_partial.
Print Assumptions C105_accumulate_refuted.
Print Assumptions C105_view_refuted.
Print Assumptions C106_reduce_partial.
Print Assumptions C106_small_partial.
Print Assumptions C106_large_refuted.
