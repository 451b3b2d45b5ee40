(** * T_Addr: property theorems C01-C10. *)
From Coq Require Import List ZArith Lia Bool Permutation.
From Verif Require Import Base Heap Conc M_Addr M_Elt S_Addr L_Addr L_Elt.
Import ListNotations.
Open Scope Z_scope.

(** ** C01 *)

(** Addresses of a constructed tensor are exactly [base .. base+size-1], each once,
    in row-major (lexicographic) order. *)
Theorem C01_row_major_bijection : forall base dims,
  Forall (fun d => 0 <= d) dims ->
  let t := tensor_ctor base dims in
  (forall i, inb i dims -> base <= addr t i < base + zprod dims) /\
  (forall i j, inb i dims -> inb j dims -> addr t i = addr t j -> i = j) /\
  (forall a, base <= a < base + zprod dims -> exists i, inb i dims /\ addr t i = a) /\
  (forall i j, inb i dims -> inb j dims -> (lexlt i j <-> addr t i < addr t j)) /\
  (dims <> [] -> data_size dims = zprod dims).
Proof.
  intros base dims HF t. split; [|split; [|split; [|split]]].
  - intros i Hi. apply (tensor_cell base dims); auto. exists i. auto.
  - apply (rm_inj base dims).
  - intros a Ha. apply (tensor_cell base dims) in Ha; auto. destruct Ha as (i & Hi & ->). eauto.
  - intros i j Hi Hj. unfold t, addr. simpl. rewrite (rm_lex dims i j Hi Hj). lia.
  - apply data_size_eq.
Qed.
Print Assumptions C01_row_major_bijection.

(** Flat position <-> multi-index conversions are inverse of each other, with
    either way of computing the strides. *)
Theorem C01_flat_position_roundtrip : forall dims,
  Forall (fun d => 0 <= d) dims ->
  forall strides, strides = row_major_strides dims \/ strides = fst (dims_to_strides dims) ->
  (forall idx, inb idx dims -> sentinel_to_indices (indices_to_sentinel strides idx) strides = idx) /\
  (forall n, 0 <= n < zprod dims ->
     inb (sentinel_to_indices n strides) dims /\
     indices_to_sentinel strides (sentinel_to_indices n strides) = n) /\
  snd (dims_to_strides dims) = zprod dims.
Proof.
  intros dims HF strides Hs.
  assert (strides = row_major_strides dims) as ->.
  { destruct Hs as [->| ->]; auto. now rewrite dims_to_strides_eq. }
  split; [|split].
  - intros idx Hi. rewrite indices_to_sentinel_dotp. now apply rm_roundtrip.
  - intros n Hn. rewrite indices_to_sentinel_dotp. split; [now apply rm_sti_inb|now apply rm_sti_ordinal].
  - now rewrite dims_to_strides_eq.
Qed.
Print Assumptions C01_flat_position_roundtrip.

Example C01_case :
  map (addr (tensor_ctor 100 [2; 3; 2])) (indices [2; 3; 2])
  = [100;101;102;103;104;105;106;107;108;109;110;111]
  /\ sentinel_to_indices 7 (row_major_strides [2; 3; 2]) = [1; 0; 1].
Proof. split; reflexivity. Qed.

(** ** C02 *)

(** Any valid spelling of the index of an element of an allocated, injective
    descriptor: the write succeeds, changes that one cell, and every spelling of
    the same element reads the new value while all other elements read as before. *)
Theorem C02_read_write : forall T (h : heap T) d ks idx v,
  alloc h d -> inj d -> spell (ddims d) ks idx ->
  exists h', tset h d ks v = Ok h' /\
    (forall ks', spell (ddims d) ks' idx -> tget h' d ks' = Ok v) /\
    (forall ks' idx', spell (ddims d) ks' idx' -> idx' <> idx -> tget h' d ks' = tget h d ks') /\
    (forall a, a <> addr d idx -> h' a = h a).
Proof.
  intros T h d ks idx v Ha Hi Hs. destruct (spell_wrap _ _ _ Hs) as (E & Hin).
  destruct (Ha idx Hin) as (w & Hw). unfold tset, tget, subscript. rewrite E.
  exists (upd h (addr d idx) v). split; [now apply wr_some with w|]. split; [|split].
  - intros ks' Hs'. rewrite (proj1 (spell_wrap _ _ _ Hs')). apply rd_some, upd_same.
  - intros ks' idx' Hs' Hne. destruct (spell_wrap _ _ _ Hs') as (E' & Hin'). rewrite E'.
    unfold rd. rewrite upd_other; auto.
  - intros a Hne. now apply upd_other.
Qed.
Print Assumptions C02_read_write.

(** Constructed tensors satisfy the hypotheses. *)
Theorem C02_constructed_tensor_ok : forall T (zero : T) base dims h,
  dims <> [] -> Forall (fun d => 0 <= d) dims ->
  let h' := alloc_buffer zero base (data_size dims) h in
  alloc h' (tensor_ctor base dims) /\ inj (tensor_ctor base dims) /\
  (forall ks, Forall2 (fun k d => - d <= k < d) ks dims -> exists idx, spell dims ks idx).
Proof.
  intros T zero base dims h Hne HF h'. split; [|split].
  - intros i Hi. exists zero. unfold h'. rewrite data_size_eq by auto. apply alloc_buffer_cell.
    apply (tensor_cell base dims); auto. exists i. auto.
  - apply rm_inj.
  - intros ks. apply spell_exists.
Qed.
Print Assumptions C02_constructed_tensor_ok.

Example C02_case : spell [2; 3] [1; -1] [1; 2] /\
  match tset (alloc_buffer 0 10 6 (fun _ => None)) (tensor_ctor 10 [2; 3]) [1; -1] 7 with
  | Ok h => tget h (tensor_ctor 10 [2; 3]) [-1; 2] = Ok 7 /\ tget h (tensor_ctor 10 [2; 3]) [1; 1] = Ok 0
            /\ h 16 = None
  | _ => False end.
Proof. split; [repeat constructor; lia|]. vm_compute. auto. Qed.

(** ** C03 *)

(** Run-time tensors: the address of the element if there is one index per axis
    and every index lies in [-d, d), an exception otherwise; never undefined. *)
Theorem C03_checked_subscript : forall d ks,
  length (dstrides d) = length (ddims d) ->
  (forall idx, spell (ddims d) ks idx -> runtime_subscript d ks = Ok (addr d idx)) /\
  ((~ exists idx, spell (ddims d) ks idx) -> runtime_subscript d ks = Throw).
Proof.
  intros d ks HL. split.
  - intros idx Hs.
    assert (HLk : length ks = length (ddims d)) by (clear - Hs; induction Hs; simpl; auto).
    unfold runtime_subscript, indices_to_sentinel_negative_check.
    destruct (Nat.ltb_spec (length ks) (length (ddims d))); [lia|].
    destruct (Nat.ltb_spec (length (dstrides d)) (length ks)); [lia|].
    destruct (Nat.ltb_spec (length (ddims d)) (length ks)); [lia|]. simpl.
    rewrite (negative_check_ok _ _ _ Hs) by auto. simpl. unfold addr. f_equal.
  - intros Hn. unfold runtime_subscript, indices_to_sentinel_negative_check.
    destruct (Nat.ltb_spec (length ks) (length (ddims d))) as [|H1]; auto.
    destruct (Nat.ltb_spec (length (dstrides d)) (length ks)) as [|H2]; auto.
    destruct (Nat.ltb_spec (length (ddims d)) (length ks)) as [|H3]; auto. simpl.
    rewrite negative_check_throw; auto; [lia|].
    intros HF. apply Hn. now apply spell_exists.
Qed.
Print Assumptions C03_checked_subscript.

(** Static tensors indexed by a container: an exception exactly when the number
    of indices differs from the rank; the right address for valid indices. *)
Theorem C03_container_subscript : forall d ks,
  (container_subscript d ks = Throw <-> length ks <> length (ddims d)) /\
  (forall idx, spell (ddims d) ks idx -> container_subscript d ks = Ok (addr d idx)).
Proof.
  intros d ks. unfold container_subscript. split.
  - destruct (Nat.ltb_spec (length ks) (length (ddims d))); [split; [lia|auto]|].
    destruct (Nat.ltb_spec (length (ddims d)) (length ks)); [split; [lia|auto]|].
    split; [discriminate|lia].
  - intros idx Hs. assert (HLk : length ks = length (ddims d)) by (clear - Hs; induction Hs; simpl; auto).
    rewrite HLk, Nat.ltb_irrefl. unfold subscript. now rewrite (proj1 (spell_wrap _ _ _ Hs)).
Qed.
Print Assumptions C03_container_subscript.

(** The container accessor of static tensors does not reject out-of-range
    indices: it silently addresses another element. *)
Theorem C03_container_range_refuted :
  exists d ks a, container_subscript d ks = Ok a /\ (~ exists idx, spell (ddims d) ks idx) /\
    a = addr d [1; 0] /\ ddims d = [2; 3].
Proof.
  exists (tensor_ctor 0 [2; 3]), [0; 3], 3. split; [reflexivity|]. split; [|auto].
  intros (idx & H). repeat match goal with X : spell _ _ _ |- _ => inversion X; clear X; subst end.
  unfold spells in *. lia.
Qed.
Print Assumptions C03_container_range_refuted.

Example C03_case : runtime_subscript (tensor_ctor 0 [2; 3]) [-1; -3] = Ok 3 /\
  runtime_subscript (tensor_ctor 0 [2; 3]) [-1; 3] = Throw /\
  runtime_subscript (tensor_ctor 0 [2; 3]) [1] = Throw /\
  runtime_subscript (tensor_ctor 0 [2; 3]) [1; 1; 1] = Throw.
Proof. repeat split. Qed.

(** ** C04 *)

(** Full property: for all in-range arguments.  Proved for argument lists in
    which no integer stands before a Range (missing: integer before Range, where
    the property is false, see [C04_slice_refuted]).  The view has the extents the
    arguments say; each view element is the cell of the selected parent element;
    the view elements and the selected parent elements correspond one to one. *)
Theorem C04_slice_partial : forall d args,
  length (dstrides d) = length (ddims d) ->
  Forall2 arg_ok args (ddims d) -> int_after_range args ->
  ddims (slice d args) = slice_dims args (ddims d) /\
  (forall j, inb j (ddims (slice d args)) ->
     exists p, selects args (ddims d) j p /\ inb p (ddims d) /\ addr (slice d args) j = addr d p) /\
  (forall j p, selects args (ddims d) j p ->
     inb j (ddims (slice d args)) /\ addr (slice d args) j = addr d p).
Proof.
  intros d args HL HF HI. destruct (slice_correct d args HL HF HI) as (E & HP). split; auto. split.
  - intros j Hj. rewrite E in Hj. destruct (selects_total _ _ HF j Hj) as (p & Hp).
    exists p. split; auto. split; [apply (selects_inb _ _ _ _ Hp)|auto].
  - intros j p Hp. rewrite E. split; [apply (selects_inb _ _ _ _ Hp)|auto].
Qed.
Print Assumptions C04_slice_partial.

(** All-Range slices: no restriction. *)
Theorem C04_all_ranges : forall d rs,
  length (dstrides d) = length (ddims d) ->
  let args := map (fun r => SRange (fst r) (snd r)) rs in
  Forall2 arg_ok args (ddims d) ->
  ddims (slice_ranges d rs) = slice_dims args (ddims d) /\
  (forall j, inb j (ddims (slice_ranges d rs)) ->
     exists p, selects args (ddims d) j p /\ inb p (ddims d) /\ addr (slice_ranges d rs) j = addr d p) /\
  (forall j p, selects args (ddims d) j p ->
     inb j (ddims (slice_ranges d rs)) /\ addr (slice_ranges d rs) j = addr d p).
Proof.
  intros d rs HL args HF. destruct (slice_ranges_correct d rs HL HF) as (E & HP). split; auto. split.
  - intros j Hj. rewrite E in Hj. destruct (selects_total _ _ HF j Hj) as (p & Hp).
    exists p. split; auto. split; [apply (selects_inb _ _ _ _ Hp)|auto].
  - intros j p Hp. rewrite E. split; [apply (selects_inb _ _ _ _ Hp)|auto].
Qed.
Print Assumptions C04_all_ranges.

(** T(1, Range{2,4}, All) on a 3x5x2 tensor addresses T(2,0,..) instead of T(1,2,..). *)
Theorem C04_slice_refuted :
  exists d args, length (dstrides d) = length (ddims d) /\ Forall2 arg_ok args (ddims d) /\
    exists j p, selects args (ddims d) j p /\ addr (slice d args) j <> addr d p.
Proof.
  exists (tensor_ctor 0 [3; 5; 2]), [SInt 1; SRange 2 4; SAll]. split; [reflexivity|]. split.
  - simpl. repeat constructor; lia.
  - exists [0; 0], [1; 2; 0]. split.
    + apply sel_int; [split; [lia|left; reflexivity]|]. change 2 with (2 + 0) at 3.
      eapply sel_range with (e := 4); try lia.
      apply sel_all; [lia|]. apply sel_nil.
    + vm_compute. discriminate.
Qed.
Print Assumptions C04_slice_refuted.

Example C04_case :
  let d := tensor_ctor 0 [4; 5; 3] in
  let args := [SRange 1 (-1); SAll; SInt (-1)] in
  Forall2 arg_ok args (ddims d) /\ int_after_range args /\
  ddims (slice d args) = [2; 5] /\ addr (slice d args) [1; 3] = addr d [2; 3; 2].
Proof.
  simpl. split; [|vm_compute; auto]. constructor; [apply ok_range_neg; lia|].
  constructor; [apply ok_all; lia|]. constructor; [apply ok_int; lia|constructor].
Qed.

(** ** C05 *)

(** Offset/extent views: the sub-view of a view is the view of the original at
    the summed offsets; a fitting view addresses only elements of its parent. *)
Theorem C05_view_of_view : forall d o1 n1 o2 n2,
  fits o1 n1 (ddims d) -> fits o2 n2 n1 ->
  exists v1 v2, view_ctor d n1 (Some o1) None = Ok v1 /\
    view_ctor v1 n2 (Some o2) None = Ok v2 /\
    view_ctor d n2 (Some (vadd o1 o2)) None = Ok v2 /\
    ddims v2 = n2 /\
    (forall j, inb j n2 -> inb (vadd o1 (vadd o2 j)) (ddims d) /\
       addr v2 j = addr d (vadd o1 (vadd o2 j))).
Proof.
  intros d o1 n1 o2 n2 F1 F2.
  destruct (fits_length _ _ _ F1) as (L1 & L2). destruct (fits_length _ _ _ F2) as (L3 & L4).
  eexists. eexists. split; [apply view_ctor_same_rank; [eapply fits_nonneg; eauto|auto]|].
  split; [rewrite view_ctor_same_rank; [reflexivity|eapply fits_nonneg; eauto|auto]|]. simpl.
  split; [|split; auto].
  - rewrite view_ctor_same_rank; [|eapply fits_nonneg; eauto|lia].
    f_equal. f_equal. rewrite dotp_vadd by lia. lia.
  - intros j Hj. assert (HI := fits_inb _ _ _ F2 j Hj). split.
    + eapply fits_inb; eauto.
    + unfold addr. simpl. assert (HLj := inb_length _ _ Hj).
      rewrite !dotp_vadd; try lia. rewrite vadd_length; lia.
Qed.
Print Assumptions C05_view_of_view.

Example C05_case : fits [1; 2] [3; 2] [5; 4] /\ fits [1; 0] [2; 1] [3; 2] /\
  match view_ctor (tensor_ctor 0 [5; 4]) [3; 2] (Some [1; 2]) None with
  | Ok v => match view_ctor v [2; 1] (Some [1; 0]) None with
            | Ok v2 => addr v2 [1; 0] = addr (tensor_ctor 0 [5; 4]) [3; 2]
            | _ => False end
  | _ => False end.
Proof. split; [|split]; [repeat constructor; lia|repeat constructor; lia|reflexivity]. Qed.

(** ** C06 *)

(** Full property: all requested shapes.  Proved except for a -1 together with
    a zero extent (missing case: the code divides by zero, [C06_reshape_refuted]).
    The reshape succeeds exactly when the request has at most one -1 and can be
    completed to a shape with the same number of elements; the result is that
    shape over the same buffer, so the k-th element in row-major order keeps its
    cell; otherwise the call throws. *)
Theorem C06_reshape_partial : forall base edims spec,
  edims <> [] -> spec <> [] ->
  Forall (fun d => 0 < d) edims -> Forall (fun s => -1 <= s) spec ->
  known_product spec <> 0 \/ wildcards spec <> 1%nat ->
  let fillable dims := (wildcards spec <= 1)%nat /\ fills spec dims /\ zprod dims = zprod edims in
  (forall dims, fillable dims ->
     reshape (tensor_ctor base edims) spec = Ok (tensor_ctor base dims) /\
     forall k i j, nth_error (indices edims) k = Some i -> nth_error (indices dims) k = Some j ->
       addr (tensor_ctor base dims) j = addr (tensor_ctor base edims) i) /\
  ((forall dims, ~ fillable dims) -> reshape (tensor_ctor base edims) spec = Throw) /\
  (forall t, reshape (tensor_ctor base edims) spec = Ok t ->
     exists dims, fillable dims /\ t = tensor_ctor base dims).
Proof.
  intros base edims spec Hen Hsn Hep Hsp Hk fillable.
  destruct (reshape_ok_iff base edims spec Hen Hsn Hep Hsp Hk) as (HO & HT).
  assert (Hkth : forall dims k i, Forall (fun d => 0 <= d) dims -> nth_error (indices dims) k = Some i ->
     addr (tensor_ctor base dims) i = base + Z.of_nat k).
  { intros dims k i HF Hn. assert (Hin : inb i dims) by (apply in_indices; eapply nth_error_In; eauto).
    assert (Hn' := nth_error_indices dims i Hin).
    assert (HR := rm_range dims i Hin). unfold addr. simpl.
    assert (Hkk : k = Z.to_nat (dotp i (row_major_strides dims))).
    { apply (proj1 (NoDup_nth_error (indices dims)) (indices_NoDup dims)).
      - apply nth_error_Some. congruence.
      - congruence. }
    subst k. lia. }
  split; [|split].
  - intros dims (Hw & Hf & Hz). split.
    + apply HO. split; auto. exists dims. auto.
    + intros k i j Hi Hj. rewrite (Hkth edims k i), (Hkth dims k j); auto.
      * clear - Hf. induction Hf; constructor; auto. lia.
      * eapply Forall_impl; [|exact Hep]. simpl. lia.
  - intros Hn. apply HT. intros (Hw & dims & Hf & Hz). apply (Hn dims). repeat split; auto.
  - intros t Ht. apply HO in Ht as (Hw & dims & Hf & Hz & ->). exists dims. repeat split; auto.
Qed.
Print Assumptions C06_reshape_partial.

(** Reshaping a 6-element tensor to (0, -1) divides by zero. *)
Theorem C06_reshape_refuted : exists base edims spec,
  Forall (fun d => 0 < d) edims /\ wildcards spec = 1%nat /\ reshape (tensor_ctor base edims) spec = UB.
Proof. exists 0, [6], [0; -1]. repeat split; repeat constructor. Qed.
Print Assumptions C06_reshape_refuted.

Example C06_case :
  reshape (tensor_ctor 5 [27]) [3; -1; 3] = Ok (tensor_ctor 5 [3; 3; 3]) /\
  reshape (tensor_ctor 5 [27]) [3; -1; -1] = Throw /\
  reshape (tensor_ctor 5 [27]) [3; -1; 2] = Throw /\
  reshape (tensor_ctor 5 [27]) [3; 8] = Throw.
Proof. repeat split. Qed.

(** ** C07 *)

(** Full property: for every tensor.  Proved for fewer than 2^31 elements
    (missing: the [int] accumulator wraps above, [C07_size_refuted]). *)
Theorem C07_size_partial : forall dims, Forall (fun d => 0 <= d) dims -> zprod dims < 2 ^ 31 ->
  size_model dims = zprod dims /\ size_model dims = Z.of_nat (length (indices dims)).
Proof.
  intros dims HF Hs. rewrite indices_length by auto. split; now apply size_model_correct.
Qed.
Print Assumptions C07_size_partial.

Theorem C07_size_refuted : exists dims, Forall (fun d => 0 < d) dims /\ zprod dims < 2 ^ 63 /\
  size_model dims <> zprod dims.
Proof. exists [65536; 65536]. split; [repeat constructor|]. vm_compute. split; [reflexivity|discriminate]. Qed.
Print Assumptions C07_size_refuted.

Example C07_case : size_model [46340; 46341] = 46340 * 46341 /\ size_model [2; 0; 5] = 0.
Proof. split; reflexivity. Qed.

(** ** C08 *)

(** [Tensor OP= scalar] with any number of threads and any interleaving of their
    single reads and writes: terminates without fault, every element [v] becomes
    [op v b] once, nothing else changes.  The scalar is passed by reference and
    must not itself be an element of the tensor. *)
Theorem C08_scalar_update : forall T (op : T -> T -> T) base dims sa nt (h : heap T) b,
  dims <> [] -> Forall (fun d => 0 <= d) dims -> 0 < nt ->
  alloc h (tensor_ctor base dims) -> h sa = Some b -> ~ cell (tensor_ctor base dims) sa ->
  par_spec (scalar_op op base (data_size dims) sa nt) h (fun h' =>
    (forall idx v, inb idx dims -> h (addr (tensor_ctor base dims) idx) = Some v ->
       h' (addr (tensor_ctor base dims) idx) = Some (op v b)) /\
    (forall a, ~ cell (tensor_ctor base dims) a -> h' a = h a)).
Proof.
  intros T op base dims sa nt h b Hne HF Hnt Ha Hsa Hc. rewrite data_size_eq by auto.
  rewrite tensor_cell in Hc by auto.
  assert (Hb : buffer h base (zprod dims)).
  { intros k Hk. assert (Hcl : cell (tensor_ctor base dims) (base + k)) by (apply tensor_cell; auto; lia).
    destruct Hcl as (i & Hi & ->). apply Ha. auto. }
  apply par_spec_weaken with (2 := scalar_op_spec T op base (zprod dims) sa nt h b
     (zprod_nonneg _ HF) Hnt Hb Hsa Hc).
  intros h' (H1 & H2). split.
  - intros idx v Hi Hv. assert (HR := rm_range dims idx Hi).
    replace (addr (tensor_ctor base dims) idx) with (base + dotp idx (row_major_strides dims)) by reflexivity.
    apply H1; auto.
  - intros a Hn. apply H2. now rewrite <- tensor_cell by auto.
Qed.
Print Assumptions C08_scalar_update.

(** [Tensor OP= Tensor] (another tensor, or the tensor itself); tensors of
    different size are rejected. *)
Theorem C08_tensor_update : forall T (op : T -> T -> T) base bbase dims bdims nt (h : heap T),
  dims <> [] -> Forall (fun d => 0 <= d) dims -> bdims = dims -> 0 < nt ->
  let A := tensor_ctor base dims in let B := tensor_ctor bbase bdims in
  alloc h A -> alloc h B -> (bbase = base \/ bbase + zprod dims <= base \/ base + zprod dims <= bbase) ->
  exists ps, tensor_op op base (zprod dims) bbase (zprod bdims) nt = Ok ps /\
  par_spec ps h (fun h' =>
    (forall idx v b, inb idx dims -> h (addr A idx) = Some v -> h (addr B idx) = Some b ->
       h' (addr A idx) = Some (op v b)) /\
    (forall a, ~ cell A a -> h' a = h a)).
Proof.
  intros T op base bbase dims bdims nt h Hne HF -> Hnt A B Ha Hb Hdis.
  assert (HbA : buffer h base (zprod dims)).
  { intros k Hk. assert (Hcl : cell A (base + k)) by (apply tensor_cell; auto; lia).
    destruct Hcl as (i & Hi & ->). apply Ha. auto. }
  assert (HbB : buffer h bbase (zprod dims)).
  { intros k Hk. assert (Hcl : cell B (bbase + k)) by (apply tensor_cell; auto; lia).
    destruct Hcl as (i & Hi & ->). apply Hb. auto. }
  destruct (tensor_op_spec T op base bbase (zprod dims) nt h (zprod_nonneg _ HF) Hnt HbA HbB Hdis)
    as (ps & E & HP). exists ps. split; auto.
  apply par_spec_weaken with (2 := HP). intros h' (H1 & H2). split.
  - intros idx v b Hi Hv Hbv. assert (HR := rm_range dims idx Hi).
    unfold A, B, addr in *. simpl in *. eapply H1; eauto.
  - intros a Hn. apply H2. unfold A in Hn. now rewrite <- tensor_cell by auto.
Qed.
Print Assumptions C08_tensor_update.

Theorem C08_size_mismatch_throws : forall T (op : T -> T -> T) base size bbase bsize nt,
  size <> bsize -> tensor_op op base size bbase bsize nt = Throw.
Proof. intros. unfold tensor_op. destruct (Z.eqb_spec size bsize); [contradiction|reflexivity]. Qed.
Print Assumptions C08_size_mismatch_throws.

(** View updates and fills (OpenMP parallel-for): any distribution of the
    elements over threads, any interleaving. *)
Theorem C08_view_update : forall T (op : T -> T -> T) d sa (h : heap T) b threads,
  inj d -> alloc h d -> h sa = Some b -> ~ cell d sa ->
  Permutation (concat threads) (indices (ddims d)) ->
  par_spec (map (fun r => pseq r (view_op_body op d sa)) threads) h (fun h' =>
    (forall idx v, inb idx (ddims d) -> h (addr d idx) = Some v -> h' (addr d idx) = Some (op v b)) /\
    (forall a, ~ cell d a -> h' a = h a)) /\
  par_spec (map (fun r => pseq r (view_fill_body d sa)) threads) h (fun h' =>
    (forall idx, inb idx (ddims d) -> h' (addr d idx) = Some b) /\
    (forall a, ~ cell d a -> h' a = h a)).
Proof.
  intros T op d sa h b threads Hi Ha Hs Hc HP. split;
    [now apply view_op_spec|now apply view_fill_spec].
Qed.
Print Assumptions C08_view_update.

(** Passing an element of the tensor as the scalar ([A /= A(0)] on {2,4}) gives
    {1,4} instead of {1,2}: the condition above is needed. *)
Theorem C08_aliased_scalar_refuted :
  let h := upd (upd (fun _ => None) 0 2) 1 4 in
  exists h', psteps (scalar_op Z.div 0 2 0 1, h) ([PRet tt], h') /\ h' 0 = Some 1 /\ h' 1 = Some 4.
Proof.
  simpl. eexists. split.
  - assert (E : scalar_op Z.div 0 2 0 1 = [pseq [0; 1] (scalar_body Z.div 0 0)]) by reflexivity.
    rewrite E. simpl.
    repeat (eapply pss_step; [first [eapply ps_rd with (i := 0%nat); reflexivity
                                    |eapply ps_wr with (i := 0%nat); reflexivity]|simpl]).
    apply pss_refl.
  - split; reflexivity.
Qed.
Print Assumptions C08_aliased_scalar_refuted.

Example C08_case :
  chunk 10 3 0 = [0;1;2] /\ chunk 10 3 1 = [3;4;5] /\ chunk 10 3 2 = [6;7;8;9] /\ chunk 2 4 3 = [0;1].
Proof. repeat split. Qed.

(** ** C09 *)

(** Construction from a view: same extents, each element equal to the view's,
    row-major storage disjoint from everything allocated before, nothing else changed.
    Hence later writes through either are invisible to the other. *)
Theorem C09_copy_from_view : forall T (zero : T) base src (h : heap T),
  ddims src <> [] -> Forall (fun d => 0 <= d) (ddims src) -> alloc h src ->
  (forall a, base <= a < base + zprod (ddims src) -> h a = None) ->
  exists d h', copy_from_view zero base src h = Ok (d, h') /\
    d = tensor_ctor base (ddims src) /\
    (forall idx, inb idx (ddims src) -> elem h' d idx = elem h src idx) /\
    (forall a, ~ cell d a -> h' a = h a) /\
    (forall i v a, inb i (ddims d) -> cell src a -> upd h' (addr d i) v a = h a) /\
    (forall i v j, inb i (ddims src) -> inb j (ddims d) -> upd h' (addr src i) v (addr d j) = h' (addr d j)).
Proof.
  intros T zero base src h Hne HF Ha Hfr.
  destruct (copy_from_view_spec T zero base src h Hne HF Ha Hfr) as (d & h' & E & Ed & H1 & H2 & H3).
  exists d, h'. split; auto. split; auto. split; [exact H1|].
  assert (H2' : forall a, ~ cell d a -> h' a = h a).
  { intros a Hn. apply H2. subst d. now rewrite <- tensor_cell by auto. }
  split; [auto|]. split.
  - intros i v a Hi (j & Hj & ->). rewrite upd_other by (intros Hc; eapply H3; eauto).
    apply H2'. intros (k & Hk & Ek). eapply H3; eauto.
  - intros i v j Hi Hj. apply upd_other. apply H3; auto.
Qed.
Print Assumptions C09_copy_from_view.

(** Assignment between equally shaped tensors/views with disjoint cells,
    sequential or under any parallel schedule. *)
Theorem C09_assign : forall T dst src (h : heap T),
  inj dst -> ddims src = ddims dst -> alloc h dst -> alloc h src -> disj dst src ->
  let post h' := (forall idx, inb idx (ddims dst) -> elem h' dst idx = elem h src idx) /\
                 (forall a, ~ cell dst a -> h' a = h a) in
  (exists h', assign_from_view dst src h = Ok h' /\ post h') /\
  (forall threads, Permutation (concat threads) (indices (ddims dst)) ->
     par_spec (map (fun r => pseq r (copy_body dst src)) threads) h post).
Proof.
  intros T dst src h Hi Hd Ha Hs Hdis post. split.
  - destruct (copy_seq_spec T dst src h Hi Hd Ha Hs Hdis) as (h' & E & H1 & H2).
    exists h'. unfold assign_from_view. rewrite E. simpl. split; auto. split; auto.
  - intros threads HP. now apply copy_par_spec.
Qed.
Print Assumptions C09_assign.

Example C09_case :
  let h : heap Z := fun a => if (0 <=? a) && (a <? 12) then Some (a * a) else None in
  let v := slice (tensor_ctor 0 [3; 4]) [SAll; SInt 1] in
  match copy_from_view 0 100 v h with
  | Ok (d, h') => map (fun i => h' (addr d [i])) [0; 1; 2] = [Some 1; Some 25; Some 81]
  | _ => False end.
Proof. reflexivity. Qed.

(** ** C10 *)

(** Full property includes: -- undoes ++.  Proved: [k] applications of ++ to the
    start give the [k]-th index in row-major order, and after [size] steps the
    one-past-the-end index.  Missing: -- (false of the code, [C10_decrement_refuted]). *)
Theorem C10_iterator_partial : forall dims, dims <> [] -> Forall (fun d => 0 < d) dims ->
  (forall k idx, nth_error (indices dims) k = Some idx -> iter_advance k dims (iter_begin dims) = idx) /\
  iter_advance (length (indices dims)) dims (iter_begin dims)
    = hd 0 dims :: repeat 0 (length dims - 1).
Proof.
  intros dims Hne HF.
  assert (HF' : Forall (fun d => 0 <= d) dims) by (eapply Forall_impl; [|exact HF]; simpl; lia).
  assert (HB : iter_begin dims = sentinel_to_indices 0 (row_major_strides dims))
    by (symmetry; now apply rm_sti_zero).
  assert (HL := indices_length dims HF').
  split.
  - intros k idx Hk. rewrite HB.
    assert (Hlt : (k < length (indices dims))%nat) by (apply nth_error_Some; congruence).
    rewrite iter_advance_sti by (auto; lia).
    assert (Hin : inb idx dims) by (apply in_indices; eapply nth_error_In; eauto).
    assert (HR := rm_range dims idx Hin).
    assert (Hkk : k = Z.to_nat (dotp idx (row_major_strides dims))).
    { apply (proj1 (NoDup_nth_error (indices dims)) (indices_NoDup dims)); auto.
      rewrite (nth_error_indices dims idx Hin). congruence. }
    replace (0 + Z.of_nat k) with (dotp idx (row_major_strides dims)) by lia. now apply rm_roundtrip.
  - rewrite HB, iter_advance_sti by (auto; lia). rewrite HL. simpl (0 + _).
    destruct dims as [|d ds]; [congruence|]. rewrite rms_cons. simpl.
    inversion HF as [|? ? Hd HFd]; subst. assert (0 < zprod ds) by (now apply zprod_pos).
    destruct (Z.eqb_spec (zprod ds) 0); [lia|].
    rewrite Z.add_0_l, Z.div_mul, Z.mod_mul by lia. rewrite rm_sti_zero by auto. rewrite Nat.sub_0_r. reflexivity.
Qed.
Print Assumptions C10_iterator_partial.

Theorem C10_decrement_refuted : exists dims idx, inb idx dims /\ inb (iter_next dims idx) dims /\
  iter_prev dims (iter_next dims idx) <> idx /\ ~ inb (iter_prev dims (iter_next dims idx)) dims.
Proof.
  exists [2; 3], [0; 2]. assert (E : iter_next [2; 3] [0; 2] = [1; 0]) by reflexivity.
  assert (E2 : iter_prev [2; 3] [1; 0] = [0; 3]) by reflexivity. rewrite E, E2.
  split; [repeat constructor; lia|]. split; [repeat constructor; lia|]. split; [discriminate|].
  intros H. apply inb_cons in H as (_ & H). apply inb_cons in H as (H & _). lia.
Qed.
Print Assumptions C10_decrement_refuted.

(** When no borrow is needed, -- does undo ++. *)
Theorem C10_decrement_no_borrow : forall dims idx, inb idx dims -> dims <> [] ->
  last idx 0 + 1 < last dims 0 -> iter_prev dims (iter_next dims idx) = idx.
Proof.
  intros dims idx Hi Hne Hl. unfold iter_prev, iter_next.
  destruct idx as [|i0 idx0 _] using rev_ind; [inversion Hi; subst; congruence|].
  destruct dims as [|d0 dims0 _] using rev_ind; [congruence|].
  rewrite !last_last in Hl. rewrite !rev_app_distr. change (rev [i0]) with [i0]. change (rev [d0]) with [d0].
  cbn [app]. assert (HLn := inb_length _ _ Hi). rewrite !app_length in HLn. simpl in HLn.
  apply inb_app_inv in Hi; [|lia]. destruct Hi as (_ & Hi). apply inb_cons in Hi as (Hi & _).
  assert (E : carry (i0 + 1 :: rev idx0) (d0 :: rev dims0) = i0 + 1 :: rev idx0).
  { destruct (rev idx0); simpl; auto. destruct (Z.geb_spec (i0 + 1) d0); [lia|auto]. }
  rewrite E, rev_involutive. replace (i0 + 1 - 1) with i0 by lia.
  assert (E2 : borrow (i0 :: rev idx0) (d0 :: rev dims0) = i0 :: rev idx0).
  { destruct (rev idx0); simpl; auto. destruct (Z.ltb_spec i0 0); [lia|auto]. }
  rewrite E2. simpl. now rewrite rev_involutive.
Qed.
Print Assumptions C10_decrement_no_borrow.

Example C10_case : map (fun k => iter_advance k [2; 2] (iter_begin [2; 2])) (seq 0 5)
  = [[0;0];[0;1];[1;0];[1;1];[2;0]].
Proof. reflexivity. Qed.
