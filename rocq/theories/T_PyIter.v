(** * T_PyIter: iteration over tensors and views with new extents (C83, C84). *)
From Coq Require Import List ZArith Lia Bool Permutation.
From Verif Require Import Base Heap Conc M_Addr S_Addr L_Addr M_Elt L_Elt S_Einsum S_Fun M_Runtime S_Runtime T_Runtime M_PyTensor S_PyTensor.
Import ListNotations.
Open Scope Z_scope.

Lemma ptrdiff_inb : forall idx dims, inb idx dims -> Forall extent dims -> map to_ptrdiff idx = idx.
Proof.
  intros idx dims H. induction H as [|i d idx ds Hi H IH]; intros HE; auto. inversion HE; subst. simpl. rewrite IH by auto. f_equal.
  apply to_ptrdiff_id. unfold extent, int64 in *. lia.
Qed.

(** Positions in row-major order. *)
Definition in_order (v : rview) : list Z :=
  map (fun s => addr (rv_desc v) (at_sentinel (ddims (rv_desc v)) s)) (zrange (zprod (ddims (rv_desc v)))).

Lemma next_ok : forall v s stop rev, rs_ok (RV v) -> 0 <= s < zprod (ddims (rv_desc v)) -> zprod (ddims (rv_desc v)) < 2 ^ 31 -> stop = false ->
  it_next (mkIter s (rv_size v) (fst (dims_to_strides (ddims (rv_desc v)))) v stop rev) =
  let cur := if rev : bool then to_size (s - 1) else to_size (s + 1) in
  Ok (Some (addr (rv_desc v) (at_sentinel (ddims (rv_desc v)) s),
            mkIter cur (rv_size v) (fst (dims_to_strides (ddims (rv_desc v)))) v (rv_size v <=? cur) rev)).
Proof.
  intros v s stop rev HV Hs Hn ->. unfold it_next. cbn [it_stop it_view it_cur it_istr it_rev it_n]. rewrite dims_to_strides_eq. cbn [fst].
  fold (at_sentinel (ddims (rv_desc v)) s). assert (HF := extent_nonneg _ (proj1 HV)). cbn [rs_desc] in HF.
  assert (Hi : inb (at_sentinel (ddims (rv_desc v)) s) (ddims (rv_desc v))) by now apply rm_sti_inb.
  rewrite (ptrdiff_inb _ _ Hi (proj1 HV)), subscript_at by auto. cbn [bind orb]. cbv zeta. f_equal. f_equal. f_equal. f_equal.
  match goal with |- (?c <? 0) || _ = _ => assert (0 <= c) by (destruct rev; unfold to_size; apply Z.mod_pos_bound; lia) end.
  match goal with |- (?c <? 0) || _ = _ => destruct (Z.ltb_spec c 0); [lia|reflexivity] end.
Qed.
Lemma zrange_snoc : forall n, 0 <= n -> zrange (n + 1) = zrange n ++ [n].
Proof.
  intros n Hn. unfold zrange. replace (Z.to_nat (n + 1)) with (Z.to_nat n + 1)%nat by lia. rewrite seq_app, map_app. simpl. now rewrite Z2Nat.id.
Qed.
(** Numbers from [s] on. *)
Lemma collect_up : forall v k s fuel, rs_ok (RV v) -> zprod (ddims (rv_desc v)) < 2 ^ 31 -> 0 <= s -> s + Z.of_nat k = zprod (ddims (rv_desc v)) -> (k < fuel)%nat ->
  it_collect fuel (mkIter s (rv_size v) (fst (dims_to_strides (ddims (rv_desc v)))) v (rv_size v <=? s) false) =
  Ok (map (fun j => addr (rv_desc v) (at_sentinel (ddims (rv_desc v)) (s + j))) (zrange (Z.of_nat k)), true).
Proof.
  intros v k. induction k as [|k IH]; intros s fuel HV Hn Hs Hk Hf; assert (Hz : rv_size v = zprod (ddims (rv_desc v))) by (apply HV; auto).
  - destruct fuel as [|fuel]; [lia|]. cbn [it_collect]. unfold it_next. cbn [it_stop]. rewrite (proj2 (Z.leb_le _ _)) by lia. reflexivity.
  - destruct fuel as [|fuel]; [lia|]. cbn [it_collect]. rewrite (proj2 (Z.leb_gt (rv_size v) s)) by lia. rewrite next_ok by (auto; lia). cbn [bind]. cbv zeta.
    rewrite to_size_nonneg by lia. rewrite IH by (auto; lia). cbn [bind fst snd]. f_equal. f_equal.
    replace (Z.of_nat (S k)) with (1 + Z.of_nat k) by lia.
    unfold zrange. replace (Z.to_nat (1 + Z.of_nat k)) with (S (Z.to_nat (Z.of_nat k))) by lia.
    cbn [seq map]. rewrite Z.add_0_r. f_equal. rewrite <- seq_shift, !map_map. apply map_ext. intros j. f_equal. f_equal. lia.
Qed.
Lemma collect_down : forall v k fuel, rs_ok (RV v) -> zprod (ddims (rv_desc v)) < 2 ^ 31 -> Z.of_nat k <= zprod (ddims (rv_desc v)) -> (k < fuel)%nat ->
  it_collect fuel (mkIter (to_size (Z.of_nat k - 1)) (rv_size v) (fst (dims_to_strides (ddims (rv_desc v)))) v (rv_size v <=? to_size (Z.of_nat k - 1)) true) =
  Ok (rev (map (fun j => addr (rv_desc v) (at_sentinel (ddims (rv_desc v)) j)) (zrange (Z.of_nat k))), true).
Proof.
  intros v k. induction k as [|k IH]; intros fuel HV Hn Hk Hf; assert (Hz : rv_size v = zprod (ddims (rv_desc v))) by (apply HV; auto).
  - destruct fuel as [|fuel]; [lia|]. cbn [it_collect]. unfold it_next. cbn [it_stop].
    rewrite (proj2 (Z.leb_le _ _)) by (rewrite to_size_neg by lia; lia). reflexivity.
  - destruct fuel as [|fuel]; [lia|]. replace (Z.of_nat (S k) - 1) with (Z.of_nat k) by lia. rewrite to_size_nonneg by lia.
    cbn [it_collect]. rewrite (proj2 (Z.leb_gt (rv_size v) (Z.of_nat k))) by lia. rewrite next_ok by (auto; lia). cbn [bind]. cbv zeta.
    rewrite IH by (auto; lia). cbn [bind fst snd]. f_equal. f_equal.
    replace (Z.of_nat (S k)) with (Z.of_nat k + 1) by lia. rewrite zrange_snoc by lia. rewrite map_app, rev_app_distr. reflexivity.
Qed.

(** C83.  for x in t: every element once, in row-major order (element [idx] is
    number [dotp idx (row_major_strides dims)]), then StopIteration; reversed(t):
    in the opposite order.  For every tensor or view (also strided) with at
    least one element and fewer than 2^31.  What is missing: tensors without
    elements ([C83_empty_refuted]). *)
Theorem C83_iteration_partial : forall v, rs_ok (RV v) ->
  let dims := ddims (rv_desc v) in
  let n := zprod dims in
  0 < n < 2 ^ 31 -> exists l,
  length l = Z.to_nat n /\
  (forall idx, inb idx dims -> nth_error l (Z.to_nat (dotp idx (row_major_strides dims))) = Some (addr (rv_desc v) idx)) /\
  (forall fuel, (Z.to_nat n < fuel)%nat ->
     it_collect fuel (it_ctor v false) = Ok (l, true) /\ it_collect fuel (it_ctor v true) = Ok (rev l, true)).
Proof.
  intros v HV dims n Hn. exists (in_order v). assert (Hz : rv_size v = n) by (apply HV; exact (proj2 Hn)).
  assert (HF : Forall (fun d => 0 <= d) dims) by (apply extent_nonneg; apply HV).
  split; [unfold in_order; now rewrite map_length, zrange_length|]. split.
  - intros idx Hi. assert (Hr := rm_range _ _ Hi). unfold in_order. fold dims. fold n.
    rewrite nth_error_map. unfold zrange. rewrite nth_error_map.
    rewrite (nth_error_nth' _ 0%nat) by (rewrite seq_length; unfold n; lia). rewrite seq_nth by (unfold n; lia). cbn [option_map Nat.add].
    rewrite Z2Nat.id by lia. unfold at_sentinel. now rewrite rm_roundtrip.
  - intros fuel Hf. split.
    + assert (E := collect_up v (Z.to_nat n) 0 fuel HV ltac:(fold dims; fold n; lia) ltac:(lia) ltac:(fold dims; fold n; lia) ltac:(lia)).
      rewrite Hz, (proj2 (Z.leb_gt n 0)) in E by lia. unfold it_ctor. rewrite Hz. etransitivity; [exact E|].
      f_equal. f_equal. rewrite Z2Nat.id by lia. reflexivity.
    + assert (E := collect_down v (Z.to_nat n) fuel HV ltac:(fold dims; fold n; lia) ltac:(fold dims; fold n; lia) ltac:(lia)).
      rewrite Z2Nat.id in E by lia. rewrite to_size_nonneg in E by lia. rewrite Hz in E. rewrite (proj2 (Z.leb_gt n (n - 1))) in E by lia.
      unfold it_ctor. rewrite Hz, to_size_nonneg by lia. exact E.
Qed.

(** C83.  iter(it) of an iterator goes on where [it] is: after any number of calls
    of next(it). *)
Fixpoint advance (k : nat) (i : pyiter) : res pyiter :=
  match k with
  | O => Ok i
  | S k => r <- it_next i ;; match r with None => Ok i | Some (_, j) => advance k j end
  end.
Theorem C83_copy_partial : forall v reverse k i, rs_ok (RV v) -> 0 < zprod (ddims (rv_desc v)) < 2 ^ 31 ->
  advance k (it_ctor v reverse) = Ok i -> it_copy i false = i.
Proof.
  intros v reverse k i HV Hn. assert (Hz : rv_size v = zprod (ddims (rv_desc v))) by (apply HV; lia).
  assert (G : forall j, it_stop j = ((it_cur j <? 0) || (it_n j <=? it_cur j)) -> advance k j = Ok i -> it_copy i false = i).
  { induction k as [|k IH]; intros j Hj E; cbn [advance] in E.
    - inversion E; subst. unfold it_copy. rewrite <- Hj. destruct i as [c n0 q w st rv]; simpl. destruct rv; reflexivity.
    - unfold it_next in E. destruct (it_stop j) eqn:Es; cbn [bind] in E.
      + inversion E; subst. unfold it_copy. rewrite <- Hj, <- Es. destruct i as [c n0 q w st rv]; simpl. destruct rv; reflexivity.
      + destruct (rv_subscript _ _); try discriminate. cbn [bind] in E. eapply IH; [|exact E]. reflexivity. }
  apply G. unfold it_ctor. cbn [it_stop it_cur it_n]. rewrite Hz.
  destruct reverse; [rewrite to_size_nonneg by lia|]; symmetry; apply orb_false_iff; split; try apply Z.ltb_ge; try apply Z.leb_gt; lia.
Qed.

(** C83 fails for tensors without elements: the loop ends with an error instead of
    StopIteration. *)
Theorem C83_empty_refuted :
  let v := rv_whole (rt_ctor 0 [0]) in
  rs_ok (RV v) /\ zprod (ddims (rv_desc v)) = 0 /\ (forall fuel, it_collect (S fuel) (it_ctor v false) = Throw).
Proof.
  cbv zeta. split; [|split; [reflexivity|intros; reflexivity]]. split; [|repeat split].
  simpl. constructor; [unfold extent; lia|constructor].
Qed.

(** Case: the second column of a 3 x 2 tensor. *)
Example C83_case :
  let v := mkRv (mkDesc 1 [3] [2]) 3 [1] in
  rs_ok (RV v) /\ it_collect 4 (it_ctor v false) = Ok ([1; 3; 5], true) /\ it_collect 9 (it_ctor v true) = Ok ([5; 3; 1], true).
Proof.
  cbv zeta. split; [|split; reflexivity]. split; [|repeat split]. simpl. constructor; [unfold extent; lia|constructor].
Qed.

(** ** C84 *)

(** A view of a tensor with new extents of the same product: elements with the same
    number in row-major order are the same element. *)
Theorem C84_tensor_partial : forall base old dims, Forall extent dims -> Forall extent old -> zprod dims = zprod old ->
  let w := rv_reshape (RT (rt_ctor base old)) dims in
  ddims (rv_desc w) = dims /\ rs_ok (RV w) /\
  (forall i j, inb i dims -> inb j old ->
     (dotp i (row_major_strides dims) = dotp j (row_major_strides old) <-> addr (rv_desc w) i = addr (tensor_ctor base old) j)) /\
  (forall a, cell (rv_desc w) a <-> cell (tensor_ctor base old) a).
Proof.
  intros base old dims HE HO Hz w. unfold w, rv_reshape. cbn [rs_desc rv_desc ddims]. rewrite rt_ctor_desc, dims_to_strides_eq. cbn [fst snd].
  assert (Ex : forall l, Forall extent l -> forall s, 0 <= s < zprod l -> exists idx, inb idx l /\ dotp idx (row_major_strides l) = s).
  { intros l Hl s Hs. exists (at_sentinel l s). split; [apply rm_sti_inb; auto using extent_nonneg|]. apply rm_sti_ordinal; auto using extent_nonneg. }
  split; auto. split; [split; [exact HE|]; repeat split; auto; apply rms_length|]. split.
  - intros i j Hi Hj. unfold addr. cbn [tensor_ctor dbase dstrides]. lia.
  - intros a. split; intros (idx & Hi & ->).
    + cbn [ddims] in Hi. destruct (Ex old HO (dotp idx (row_major_strides dims))) as (j & Hj & E). { rewrite <- Hz. now apply rm_range. }
      exists j. split; auto. unfold addr. cbn [tensor_ctor dbase dstrides]. lia.
    + cbn [tensor_ctor ddims] in Hi. destruct (Ex dims HE (dotp idx (row_major_strides old))) as (j & Hj & E). { rewrite Hz. now apply rm_range. }
      exists j. split; auto. unfold addr. cbn [tensor_ctor dbase dstrides]. lia.
Qed.
(** to_rank_1_view of a tensor with axes: the vector of all its elements. *)
Theorem C84_rank1_partial : forall base d ds, Forall extent (d :: ds) -> extent (zprod (d :: ds)) ->
  let w := rt_rank1 (rt_ctor base (d :: ds)) in
  ddims (rv_desc w) = [zprod (d :: ds)] /\ rs_ok (RV w) /\
  (forall idx, inb idx (d :: ds) ->
     addr (rv_desc w) [dotp idx (row_major_strides (d :: ds))] = addr (tensor_ctor base (d :: ds)) idx).
Proof.
  intros base d ds HE HZ w.
  assert (Ew : w = rv_reshape (RT (rt_ctor base (d :: ds))) [zprod (d :: ds)]).
  { unfold w, rt_rank1. rewrite rt_ctor_desc. cbn [tensor_ctor dstrides ddims]. rewrite rms_cons. f_equal. f_equal. cbn [zprod]. apply Z.mul_comm. }
  rewrite Ew. destruct (C84_tensor_partial base (d :: ds) [zprod (d :: ds)]) as (E1 & E2 & E3 & _); auto.
  { cbn [zprod]. lia. }
  split; auto. split; auto. intros idx Hi. apply E3; auto.
  - constructor; [now apply rm_range|constructor].
  - change (row_major_strides [zprod (d :: ds)]) with [1]. cbn [dotp]. lia.
Qed.

(** C84 fails for views: their strides are ignored.  The second column of a 3 x 2
    tensor, seen with extents 3: element 1 is at position 2, not 3. *)
Theorem C84_view_refuted :
  let v := mkRv (mkDesc 1 [3] [2]) 3 [1] in
  rs_ok (RV v) /\ addr (rv_desc v) [1] = 3 /\ addr (rv_desc (rv_reshape (RV v) [3])) [1] = 2 /\ ~ cell (rv_desc v) 2.
Proof.
  cbv zeta. split; [|split; [reflexivity|split; [reflexivity|]]].
  - split; [|repeat split]. simpl. constructor; [unfold extent; lia|constructor].
  - intros (idx & Hi & E). inversion Hi as [|i ? r ? H1 H2]; subst. inversion H2; subst. unfold addr in E. cbn in E. lia.
Qed.
(** C84 fails for extents of another product: they are not checked.  A view with 5
    elements of a tensor with 2 reaches past its end. *)
Theorem C84_size_refuted :
  let w := rv_reshape (RT (rt_ctor 0 [2])) [5] in
  rv_subscript w [4] = Ok 4 /\ ~ cell (tensor_ctor 0 [2]) 4.
Proof. cbv zeta. split; [reflexivity|]. intros H. apply tensor_cell_inside in H. unfold inside in H. cbn in H. lia. Qed.
(** C84 fails for tensors without axes: they have one element, their rank-1 view
    none. *)
Theorem C84_no_axis_refuted : forall base, rt_len (rt_ctor base []) = 1 /\ ddims (rv_desc (rt_rank1 (rt_ctor base []))) = [0].
Proof. intros. split; reflexivity. Qed.

Example C84_case :
  let w := rv_reshape (RT (rt_ctor 10 [2; 6])) [3; 4] in
  zprod [3; 4] = zprod [2; 6] /\ addr (rv_desc w) [2; 1] = 19 /\ addr (tensor_ctor 10 [2; 6]) [1; 3] = 19.
Proof. cbv zeta. repeat split. Qed.

Print Assumptions C83_iteration_partial.
Print Assumptions C83_copy_partial.
Print Assumptions C83_empty_refuted.
Print Assumptions C84_tensor_partial.
Print Assumptions C84_rank1_partial.
Print Assumptions C84_view_refuted.
Print Assumptions C84_size_refuted.
Print Assumptions C84_no_axis_refuted.
