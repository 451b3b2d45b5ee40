(** * M_Addr: storage layout, element addressing, slicing, views, reshape,
      iteration.  Model definitions only.

    All line numbers refer to /repo/src.  [Tensor.hpp], [RuntimeTensor.hpp] are
    in include/einsums, [IndexUtils.hpp] and [TensorIterator.hpp] in
    include/einsums/utility.

    Simplification used throughout this file unless stated otherwise: the
    [size_t]/[int64_t] arithmetic on extents, strides and offsets is done in
    [Z] (no wrap-around); [size_model] models the one place where a narrower
    type is used. *)
From Coq Require Import List ZArith Lia Bool.
From Verif Require Import Base Heap.
Import ListNotations.
Open Scope Z_scope.

(** Tensor.hpp 194-205 (and the copies of the same functor at 242-250, 296-304,
    322-330, 358-366, 709-717, 752-760, 1330-1338, 1399-1407): the stateful
    [Stride] functor returns the running product and then multiplies it by the
    extent it is given. *)
Fixpoint stride_scan (value : Z) (dims : list Z) : list Z :=
  match dims with
  | [] => []
  | dim :: r => value :: stride_scan (value * dim) r
  end.

(** Tensor.hpp 205: [std::transform(dims.rbegin(), dims.rend(),
    strides.rbegin(), Stride())]. *)
Definition row_major_strides (dims : list Z) : list Z :=
  rev (stride_scan 1 (rev dims)).

(** Tensor.hpp 206: [size = strides.size()==0 ? 0 : strides[0]*dims[0]]. *)
Definition data_size (dims : list Z) : Z :=
  match row_major_strides dims, dims with
  | s :: _, d :: _ => s * d
  | _, _ => 0
  end.

(** Tensor.hpp 190-210 and 295-312: constructed tensor whose buffer starts at
    [base].  The buffer occupies the addresses [base .. base + data_size - 1]. *)
Definition tensor_ctor (base : Z) (dims : list Z) : desc :=
  mkDesc base dims (row_major_strides dims).

(** [std::vector::resize] on an empty vector (Tensor.hpp 209, 311, 337): the [n]
    cells from [base] become allocated and value-initialised. *)
Definition alloc_buffer {T} (zero : T) (base n : Z) (h : heap T) : heap T :=
  fun a => if (base <=? a) && (a <? base + n) then Some zero else h a.

(** Utils.cpp 5-16 and IndexUtils.hpp 345-356: [dims_to_strides]; the loop runs
    from the last extent to the first, storing the running stride; returns the
    strides and the total. *)
Fixpoint dims_to_strides (dims : list Z) : list Z * Z :=
  match dims with
  | [] => ([], 1)
  | d :: ds => let '(out, stride) := dims_to_strides ds in (stride :: out, stride * d)
  end.

(** IndexUtils.hpp 260-294: [indices_to_sentinel]. *)
Fixpoint indices_to_sentinel_from (out : Z) (strides inds : list Z) : Z :=
  match strides, inds with
  | s :: ss, i :: is => indices_to_sentinel_from (out + i * s) ss is
  | _, _ => out
  end.
Definition indices_to_sentinel (strides inds : list Z) : Z :=
  indices_to_sentinel_from 0 strides inds.

(** IndexUtils.hpp 120-167: [sentinel_to_indices] (array, pointer and container
    versions); [hold] is the remaining sentinel. *)
Fixpoint sentinel_to_indices (hold : Z) (strides : list Z) : list Z :=
  match strides with
  | [] => []
  | s :: ss => if s =? 0 then 0 :: sentinel_to_indices hold ss
               else hold / s :: sentinel_to_indices (hold mod s) ss
  end.

(** IndexUtils.hpp 317-331: loop of [indices_to_sentinel_negative_check]. *)
Fixpoint negative_check_loop (out : Z) (strides dims inds : list Z) : res Z :=
  match inds, strides, dims with
  | [], _, _ => Ok out
  | i :: is, s :: ss, d :: ds =>
      let ind := if i <? 0 then i + d else i in
      if (ind <? 0) || (ind >=? d) then Throw
      else negative_check_loop (out + ind * s) ss ds is
  | _ :: _, _, _ => UB
  end.

(** IndexUtils.hpp 303-334: [indices_to_sentinel_negative_check]. *)
Definition indices_to_sentinel_negative_check (strides dims inds : list Z) : res Z :=
  if (Nat.ltb (length strides) (length inds)) || (Nat.ltb (length dims) (length inds))
  then Throw
  else negative_check_loop 0 strides dims inds.

(** RuntimeTensor.hpp 171-187 and 211-221: [operator()(index)] of a run-time
    tensor: element address, or exception. *)
Definition runtime_subscript (d : desc) (inds : list Z) : res Z :=
  if Nat.ltb (length inds) (length (ddims d)) then Throw
  else s <- indices_to_sentinel_negative_check (dstrides d) (ddims d) inds ;; Ok (dbase d + s).

(** Tensor.hpp 529-534: negative indices are replaced by [_dims[i] + index]. *)
Fixpoint wrap_negative (dims inds : list Z) : list Z :=
  match inds, dims with
  | i :: is, d :: ds => (if i <? 0 then d + i else i) :: wrap_negative ds is
  | is, [] => is
  | [], _ => []
  end.

(** Tensor.hpp 494-537, 1213-1236: [operator()(index...)]: address of the
    element; no range check (the [assert] on the number of indices is inactive
    in release builds; the number is fixed by the caller's template arguments). *)
Definition subscript (d : desc) (inds : list Z) : Z :=
  addr d (wrap_negative (ddims d) inds).

(** Tensor.hpp 652-698, 1238-1284: container version of [operator()]: throws
    when the number of indices differs from the rank; no range check. *)
Definition container_subscript (d : desc) (inds : list Z) : res Z :=
  if Nat.ltb (length inds) (length (ddims d)) then Throw
  else if Nat.ltb (length (ddims d)) (length inds) then Throw
  else Ok (subscript d inds).

(** Read and write of an element through [operator()]. *)
Definition tget {T} (h : heap T) (d : desc) (inds : list Z) : res T := rd h (subscript d inds).
Definition tset {T} (h : heap T) (d : desc) (inds : list Z) (v : T) : res (heap T) :=
  wr h (subscript d inds) v.

(** Tensor.hpp 921 and 1324: [size()]: [std::accumulate(dims, 1, multiplies<>)]
    with an [int] accumulator: each partial product (computed in 64 bits) is
    converted to 32-bit [int]; the result is converted to [size_t]. *)
Definition to_int32 (x : Z) : Z := (x + 2 ^ 31) mod 2 ^ 32 - 2 ^ 31.
Definition size_model (dims : list Z) : Z :=
  (fold_left (fun acc d => to_int32 (acc * d)) dims 1) mod 2 ^ 64.

(** ** Slicing: [operator()(MultiIndex...)] with [All], [Range] and integers *)

Inductive sarg := SInt (k : Z) | SAll | SRange (a b : Z).

(** [array[i] = v]. *)
Fixpoint set_at (i : nat) (v : Z) (l : list Z) : list Z :=
  match i, l with
  | O, _ :: r => v :: r
  | S j, x :: r => x :: set_at j v r
  | _, [] => []
  end.

(** Body of the [for_sequence] loop, Tensor.hpp 555-578 / 601-624.  State:
    offsets, extents and strides of the result (appended: position [counter]
    is the length of the list), [i] the argument position.  The offset of a
    [Range] is stored at position [counter], as in line 569/615. *)
Fixpoint slice_loop (i : nat) (args : list sarg) (dims strides : list Z)
    (offs vdims vstrides : list Z) : list Z * list Z * list Z :=
  match args with
  | [] => (offs, vdims, vstrides)
  | a :: r =>
      let di := nth i dims 0 in
      let si := nth i strides 0 in
      match a with
      | SInt k =>
          let tmp := if k <? 0 then di + k else k in
          slice_loop (S i) r dims strides (set_at i tmp offs) vdims vstrides
      | SAll =>
          slice_loop (S i) r dims strides offs (vdims ++ [di]) (vstrides ++ [si])
      | SRange lo hi =>
          let counter := length vdims in
          let hi' := if hi <? 0 then di + hi else hi in
          slice_loop (S i) r dims strides (set_at counter lo offs)
                     (vdims ++ [hi' - lo]) (vstrides ++ [si])
      end
  end.

(** Tensor.hpp 540-582 / 584-628, and the view constructor called at 580
    (1421-1429 with explicit offsets and strides). *)
Definition slice (d : desc) (args : list sarg) : desc :=
  let '(offs, vdims, vstrides) :=
    slice_loop 0 args (ddims d) (dstrides d) (repeat 0 (length (ddims d))) [] [] in
  mkDesc (dbase d + dotp offs (dstrides d)) vdims vstrides.

(** Tensor.hpp 630-650: version taking only Ranges, one per dimension. *)
Fixpoint slice_ranges_loop (rs : list (Z * Z)) (dims : list Z) : list Z * list Z :=
  match rs, dims with
  | (lo, hi) :: r, di :: ds =>
      let '(offs, vdims) := slice_ranges_loop r ds in
      let hi' := if hi <? 0 then di + hi else hi in
      (lo :: offs, hi' - lo :: vdims)
  | _, _ => ([], [])
  end.
Definition slice_ranges (d : desc) (rs : list (Z * Z)) : desc :=
  let '(offs, vdims) := slice_ranges_loop rs (ddims d) in
  mkDesc (dbase d + dotp offs (dstrides d)) vdims (dstrides d).

(** ** View constructor: Tensor.hpp 1348-1430 [common_initialization] *)

Definition count_m1 (dims : list Z) : nat := length (filter (fun d => d =? -1) dims).

(** [offs], [strs]: the optional [Offset]/[Stride] arguments.
    Simplification: the inferred rank-1 extent (1377-1385) is computed as an
    exact ceiling; the code divides in [float] (see [C07] notes in DESIGN.md).
    A [Stride] argument whose first entry is -1 (the code's error marker) is
    not treated specially.  1397: the products are compared in [double]; here exactly. *)
Definition view_ctor (other : desc) (dims : list Z) (offs strs : option (list Z)) : res desc :=
  let orank := length (ddims other) in
  if Nat.ltb 1 (count_m1 dims) then Throw
  else if (Nat.eqb (count_m1 dims) 1) && negb (Nat.eqb (length dims) 1) then Throw
  else
    let dims' :=
      if Nat.eqb (count_m1 dims) 1 then
        let o := match offs with Some (o0 :: _) => o0 | _ => 0 end in
        let s := match strs with Some (s0 :: _) => s0 | _ => 1 end in
        [ - ((o - zprod (ddims other)) / s) ]
      else dims in
    let mk strides :=
      let o := match offs with Some o => o | None => repeat 0 orank end in
      Ok (mkDesc (dbase other + dotp o (dstrides other)) dims' strides) in
    if Nat.eqb (length dims') orank then
      mk (match strs with Some s => s | None => dstrides other end)
    else if zprod dims' =? zprod (ddims other) then
      mk (match strs with Some s => s | None => row_major_strides dims' end)
    else match strs with
         | Some s => mk s
         | None => Throw
         end.

(** Tensor.hpp 1058-1070: view over a raw pointer with given extents; the
    strides come from [dims_to_strides]. *)
Definition pointer_view (p : Z) (dims : list Z) : desc := mkDesc p dims (fst (dims_to_strides dims)).

(** Tensor.hpp 1079-1098: [_full_view_of_underlying] of a pointer view with
    explicit strides: equality with the row-major strides. *)
Definition pointer_view_full (dims strides : list Z) : bool :=
  if list_eq_dec Z.eq_dec strides (fst (dims_to_strides dims)) then true else false.

(** Tensor.hpp 1304-1320: [TensorView::to_rank_1_view]. *)
Definition view_to_rank_1 (d : desc) : res desc :=
  if Nat.eqb (length (ddims d)) 1 then Ok d
  else if negb (last (dstrides d) 0 =? 1) then Throw
  else view_ctor d [ match dstrides d, ddims d with s :: _, n :: _ => s * n | _, _ => 0 end ]
                 None (Some [1]).

(** Tensor.hpp 913-918: [Tensor::to_rank_1_view]. *)
Definition tensor_to_rank_1 (d : desc) : res desc :=
  view_ctor d [data_size (ddims d)] None None.

(** ** Reshape: Tensor.hpp 237-288, moving [existing] (extents [edims], buffer
    at [base]) into new extents.  [size()] of the moved-from tensor is taken as
    the exact product (it is below 2^31; see [size_model] otherwise).  Division
    by a zero product is undefined behaviour. *)
Fixpoint product_except (loc : nat) (dims : list Z) : Z :=
  match dims with
  | [] => 1
  | d :: ds => match loc with
               | O => zprod ds
               | S l => d * product_except l ds
               end
  end.
Fixpoint last_m1 (i : nat) (dims : list Z) (acc : nat) : nat :=
  match dims with
  | [] => acc
  | d :: ds => last_m1 (S i) ds (if d =? -1 then i else acc)
  end.
Definition reshape (existing : desc) (dims : list Z) : res desc :=
  let edims := ddims existing in
  let nfound := count_m1 dims in
  if Nat.ltb 1 nfound then Throw
  else
    dims' <- (if Nat.eqb nfound 1 then
                let location := last_m1 0 dims 0 in
                let size := product_except location dims in
                if size >? zprod edims then Throw
                else if size =? 0 then UB
                else Ok (set_at location (zprod edims / size) dims)
              else Ok dims) ;;
    if data_size dims' =? data_size edims then Ok (tensor_ctor (dbase existing) dims')
    else Throw.

(** ** Iterator: TensorIterator.hpp *)

(** Carry loop of [operator++], 26-29, on the reversed index (last position
    first): while not at position 0 and the index reached the extent, reset it
    and increment the next. *)
Fixpoint carry (ridx rdims : list Z) : list Z :=
  match ridx, rdims with
  | i :: j :: r, d :: ds => if i >=? d then 0 :: carry (j + 1 :: r) ds else i :: j :: r
  | l, _ => l
  end.
(** TensorIterator.hpp 23-32 [operator++]. *)
Definition iter_next (dims idx : list Z) : list Z :=
  match rev idx with
  | i :: r => rev (carry (i + 1 :: r) (rev dims))
  | [] => []
  end.

(** Borrow loop of [operator--], 49-52: the index is set to [dims(i)]. *)
Fixpoint borrow (ridx rdims : list Z) : list Z :=
  match ridx, rdims with
  | i :: j :: r, d :: ds => if i <? 0 then d :: borrow (j - 1 :: r) ds else i :: j :: r
  | l, _ => l
  end.
(** TensorIterator.hpp 46-55 [operator--]. *)
Definition iter_prev (dims idx : list Z) : list Z :=
  match rev idx with
  | i :: r => rev (borrow (i - 1 :: r) (rev dims))
  | [] => []
  end.

(** TensorIterator.hpp 18: the iterator starts at the all-zero index. *)
Definition iter_begin (dims : list Z) : list Z := repeat 0 (length dims).

(** [k] applications of [operator++]. *)
Fixpoint iter_advance (k : nat) (dims idx : list Z) : list Z :=
  match k with
  | O => idx
  | S k' => iter_advance k' dims (iter_next dims idx)
  end.
