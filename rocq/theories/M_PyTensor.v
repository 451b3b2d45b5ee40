(** * M_PyTensor: run-time tensors and views seen from Python.  Model
    definitions only.  Files: /repo/src/include/einsums/python/PyTensor.hpp (cited
    by line numbers alone), RuntimeTensor.hpp.
    Methods overridden by a Python subclass are not modelled. *)
From Coq Require Import List ZArith Lia Bool String Ascii.
From Verif Require Import Base Heap Conc M_Addr M_Elt M_Runtime.
Import ListNotations.
Open Scope string_scope.
Open Scope Z_scope.

(** ** Subscripts *)

(** Objects inside the brackets: a Python int, another object with an
    [__index__] (such as a NumPy integer), a slice, anything else. *)
Inductive pyobj := PInt (k : Z) | PIndex (k : Z) | PSlice (start stop step : option Z) | POther.
(** What stands in the brackets: a tuple or one object. *)
Inductive pykey := KTuple (l : list pyobj) | KOne (a : pyobj).

(** [pybind11::cast<size_t>]: [cast_error] unless the integer fits. *)
Definition cast_size (a : pyobj) : res Z :=
  match a with
  | PInt k | PIndex k => if (0 <=? k) && (k <? 2 ^ 64) then Ok k else Throw
  | _ => Throw
  end.

(** [pybind11::slice::compute] (CPython's PySlice_Unpack and
    PySlice_AdjustIndices) for step 1, and the test of the step in lines 239, 264,
    447, 971, 991, 1131.  With step 0 the call fails, leaving step 0.  Bounds
    that are not integers are not modelled. *)
Definition adjust (len x : Z) : Z := if x <? 0 then Z.max 0 (x + len) else Z.min x len.
Definition slice_bounds (len : Z) (start stop step : option Z) : res (Z * Z) :=
  if match step with None => 1 | Some s => s end =? 1
  then Ok (adjust len (match start with None => 0 | Some s => s end),
           match stop with None => len | Some s => adjust len s end)
  else Throw.

(** 960-978 (also 228-246, 253-271, 980-998): the ranges; an object that is
    neither int nor slice leaves the [Range] value-initialised. *)
Fixpoint py_ranges (dims : list Z) (args : list pyobj) : res (list (Z * Z)) :=
  match args, dims with
  | a :: r, d :: ds =>
      p <- match a with
           | PInt _ => k <- cast_size a ;; Ok (-1, to_ptrdiff k)
           | PSlice x y s => slice_bounds d x y s
           | _ => Ok (0, 0)
           end ;;
      q <- py_ranges ds r ;; Ok (p :: q)
  | _, _ => Ok []
  end.
Definition subscript_to_view (v : rview) (args : list pyobj) : res rview :=
  rs <- py_ranges (ddims (rv_desc v)) args ;; rslice (RV v) rs.

(** 938-947 (also 196-205, 212-221, 949-958). *)
Fixpoint cast_sizes (args : list pyobj) : res (list Z) :=
  match args with [] => Ok [] | a :: r => k <- cast_size a ;; ks <- cast_sizes r ;; Ok (k :: ks) end.
Definition subscript_to_val (v : rview) (args : list pyobj) : res Z :=
  ks <- cast_sizes args ;; rv_subscript v (List.map to_ptrdiff ks).

(** The result of a subscript: an element (its position in units of elements),
    or a view. *)
Inductive pyres := Elem (a : Z) | View (v : rview).

Definition is_slice (a : pyobj) : bool := match a with PSlice _ _ _ => true | _ => false end.
(** 1019-1047 (also 315-343). *)
Definition subscript_tuple (v : rview) (args : list pyobj) : res pyres :=
  let rank := List.length (ddims (rv_desc v)) in
  if Nat.ltb (List.length args) rank then w <- subscript_to_view v args ;; Ok (View w)
  else if Nat.ltb rank (List.length args) then Throw
  else if existsb is_slice args then w <- subscript_to_view v args ;; Ok (View w)
  else a <- subscript_to_val v args ;; Ok (Elem a).
(** 1115-1139 (also 431-455): [_dims[0]] of a view without axes does not exist. *)
Definition subscript_slice (v : rview) (start stop step : option Z) : res pyres :=
  match ddims (rv_desc v) with
  | [] => UB
  | d :: _ => b <- slice_bounds d start stop step ;; w <- rslice (RV v) [b] ;; Ok (View w)
  end.
(** 1193-1211 (also 529-547). *)
Definition subscript_int (v : rview) (k : Z) : res pyres :=
  match ddims (rv_desc v) with
  | [_] => a <- rv_subscript v [k] ;; Ok (Elem a)
  | _ => w <- rslice (RV v) [(-1, k)] ;; Ok (View w)
  end.
(** 1513-1527, 1605-1607 [__getitem__] (a tensor is taken as its whole view,
    [rv_whole]): a C++ int for a single integer; TypeError for other objects. *)
Definition py_getitem (v : rview) (k : pykey) : res pyres :=
  match k with
  | KTuple l => subscript_tuple v l
  | KOne (PSlice a b s) => subscript_slice v a b s
  | KOne (PInt k) | KOne (PIndex k) => if (- 2 ^ 31 <=? k) && (k <? 2 ^ 31) then subscript_int v k else Throw
  | KOne POther => Throw
  end.

(** ** Buffers *)

(** Element types of buffers. *)
Inductive item := I8 | U8 | I16 | U16 | I32 | U32 | I64 | U64 | F32 | F64 | F80 | C64 | C128 | C160.
Definition item_size (i : item) : Z :=
  match i with
  | I8 | U8 => 1 | I16 | U16 => 2 | I32 | U32 | F32 => 4 | I64 | U64 | F64 | C64 => 8
  | F80 | C128 => 16 | C160 => 32
  end.
(** 703-779 and 1279-1355: the switch over the format. *)
Definition fmt_item (fmt : string) (isz : Z) : option item :=
  match fmt with
  | EmptyString => None
  | String c r =>
      if Nat.ltb 2 (String.length fmt) then None
      else if Ascii.eqb c "b" then Some I8
      else if Ascii.eqb c "B" then Some U8
      else if Ascii.eqb c "h" then Some I16
      else if Ascii.eqb c "H" then Some U16
      else if Ascii.eqb c "i" then Some I32
      else if Ascii.eqb c "I" then Some U32
      else if Ascii.eqb c "q" then Some I64
      else if Ascii.eqb c "Q" then Some U64
      else if Ascii.eqb c "l" then (if isz =? 4 then Some I32 else if isz =? 8 then Some I64 else None)
      else if Ascii.eqb c "L" then (if isz =? 4 then Some U32 else if isz =? 8 then Some U64 else None)
      else if Ascii.eqb c "f" then Some F32
      else if Ascii.eqb c "d" then Some F64
      else if Ascii.eqb c "g" then Some F80
      else if Ascii.eqb c "Z" then
        match r with
        | String d _ => if Ascii.eqb d "f" then Some C64 else if Ascii.eqb d "d" then Some C128
                        else if Ascii.eqb d "g" then Some C160 else None
        | EmptyString => None
        end
      else None
  end.

(** [pybind11::buffer_info]: address of the first item in bytes, size of an
    item, format, extents, strides in bytes, whether it may be written. *)
Record pybuf := mkBuf { b_ptr : Z; b_isz : Z; b_fmt : string; b_shape : list Z; b_strides : list Z; b_writable : bool }.

Section Buffers.
  Context {T : Type}.
  (** The element type of the tensor ([F32], [F64], [C64] or [C128]) and the
      conversions to it of 681-701 and 1270-1276. *)
  Variable te : item.
  Variable conv : item -> T -> T.

  Definition tsz : Z := item_size te.
  (** [pybind11::format_descriptor<T>::format()]. *)
  Definition te_fmt : string := match te with F32 => "f" | F64 => "d" | C64 => "Zf" | C128 => "Zd" | _ => "" end.
  (** [buffer_info::item_type_is_equivalent_to<T>()]. *)
  Definition same_type (b : pybuf) : bool := (String.eqb (b_fmt b) te_fmt && (b_isz b =? tsz))%bool.

  (** Memory is a map from byte addresses to the value read there; an element of a
      tensor at position [a] (in units of elements) is at byte [tsz * a]. *)

  (** 142-152, 622-632, 819-828: [strides[i] / itemsize] (C++ division of signed
      numbers), and whether some stride differs from the tensor's. *)
  Definition b_steps (b : pybuf) : list Z := List.map (fun s => Z.quot s (b_isz b)) (b_strides b).
  Definition is_view (strides : list Z) (b : pybuf) : bool :=
    if list_eq_dec Z.eq_dec strides (b_steps b) then false else true.

  (** [x = conv v], [x OP= conv v]. *)
  Definition buf_body (op : option (T -> T -> T)) (c : T -> T) (p : Z * Z) : prog T unit :=
    PRd (snd p) (fun v =>
      match op with
      | None => PWr (fst p) (c v) (PRet tt)
      | Some f => PRd (fst p) (fun w => PWr (fst p) (f w (c v)) (PRet tt))
      end).

  (** 159-167, 641-649, 833-841, 671-679 (strided) and 169, 651, 844-846, 692-693:
      written and read byte address of an iteration; [isz] is the size of the C++
      type the pointer is cast to. *)
  Definition pt_addr (t : rtensor) (b : pybuf) (isz : Z) (s : Z) : res (Z * Z) :=
    if is_view (dstrides (rt_desc t)) b
    then o <- ord_loop s (dstrides (rt_desc t)) (b_steps b) 0 ;;
         Ok (tsz * (dbase (rt_desc t) + s), b_ptr b + isz * o)
    else Ok (tsz * (dbase (rt_desc t) + s), b_ptr b + isz * s).

  (** 156-173, 638-655, 830-850: the copy of all items into tensor [t].  A
      contiguous buffer of the same type is copied by memcpy, on one thread. *)
  Definition pt_loop (op : option (T -> T -> T)) (t : rtensor) (b : pybuf) (parts : list (list Z)) : res (list (prog T unit)) :=
    if same_type b then
      loop_pool (pt_addr t b tsz) (buf_body op (fun x => x))
        (if is_view (dstrides (rt_desc t)) b then parts
         else match op with None => [zrange (rt_len t)] | Some _ => parts end)
    else match fmt_item (b_fmt b) (b_isz b) with
         | None => Throw
         | Some i => loop_pool (pt_addr t b (item_size i)) (buf_body op (conv i)) parts
         end.

  (** New memory for [len] elements from position [base]. *)
  Definition alloc_elems (zero : T) (base len : Z) (h : heap T) : heap T :=
    fun a => if (a mod tsz =? 0) && (base <=? a / tsz) && (a / tsz <? base + len) then Some zero else h a.

  (** 135-174 [PyTensor(buffer)]. *)
  Definition pt_from_buffer (zero : T) (base : Z) (b : pybuf) (parts : list (list Z)) (h : heap T)
    : res (rtensor * heap T * list (prog T unit)) :=
    let t := rt_ctor base (b_shape b) in
    ps <- pt_loop None t b parts ;; Ok (t, alloc_elems zero base (rt_len t) h, ps).

  (** [std::vector::resize] ([vec_resize]) at positions of elements. *)
  Definition resize_elems (zero : T) (newbase base len newlen : Z) (h : heap T) : Z * heap T :=
    if len =? newlen then (base, h)
    else (newbase, fun a =>
      if a mod tsz =? 0 then
        let e := a / tsz in
        if (newbase <=? e) && (e <? newbase + newlen)
        then (if e - newbase <? len then h (tsz * (base + (e - newbase))) else Some zero)
        else if (base <=? e) && (e <? base + len) then None else h a
      else h a).

  (** 613-657, 1561 [assign]: the tensor takes the buffer's shape and items. *)
  Definition pt_assign_buffer (zero : T) (newbase : Z) (t : rtensor) (b : pybuf) (parts : list (list Z)) (h : heap T)
    : res (rtensor * heap T * list (prog T unit)) :=
    let len := snd (dims_to_strides (b_shape b)) in
    let '(base, h') := resize_elems zero newbase (dbase (rt_desc t)) (rt_len t) len h in
    let t' := rt_ctor base (b_shape b) in
    ps <- pt_loop None t' b parts ;; Ok (t', h', ps).

  (** 804-854 [t OP= buffer]. *)
  Definition pt_op_buffer (op : T -> T -> T) (t : rtensor) (b : pybuf) (parts : list (list Z)) : res (list (prog T unit)) :=
    if list_eq_dec Z.eq_dec (ddims (rt_desc t)) (b_shape b) then pt_loop (Some op) t b parts else Throw.

  (** 1260-1278, 1379-1390, 1431-1442: the loop into a view. *)
  Definition pv_addr (v : rview) (b : pybuf) (isz : Z) (s : Z) : res (Z * Z) :=
    a <- rv_ord v s ;; o <- ord_loop s (rv_istr v) (b_steps b) 0 ;; Ok (tsz * a, b_ptr b + isz * o).
  Definition pv_loop (op : option (T -> T -> T)) (v : rview) (b : pybuf) (parts : list (list Z)) : res (list (prog T unit)) :=
    if same_type b then loop_pool (pv_addr v b tsz) (buf_body op (fun x => x)) parts
    else match fmt_item (b_fmt b) (b_isz b) with
         | None => Throw
         | Some i => loop_pool (pv_addr v b (item_size i)) (buf_body op (conv i)) parts
         end.
  (** 1366-1395 [view = buffer], 1411-1447 [view OP= buffer]: the ranks and
      extents must agree. *)
  Definition pv_buffer (op : option (T -> T -> T)) (v : rview) (b : pybuf) (parts : list (list Z)) : res (list (prog T unit)) :=
    if list_eq_dec Z.eq_dec (ddims (rv_desc v)) (b_shape b) then pv_loop op v b parts else Throw.

  (** RuntimeTensor.hpp 849-861, 1289-1292 [view = value]. *)
  Definition pv_fill (v : rview) (x : T) (parts : list (list Z)) : res (list (prog T unit)) :=
    loop_pool (fun s => a <- rv_ord v s ;; Ok (tsz * a, tsz * a)) (fun p => pwrite (fst p) x) parts.

  (** 1080-1113, 1012-1016, 1528-1532, 1608 [x[key] = value]: only a tuple is
      accepted as key (TypeError otherwise). *)
  Definition py_set_value (v : rview) (k : pykey) (x : T) (parts : list (list Z)) : res (list (prog T unit)) :=
    match k with
    | KOne _ => Throw
    | KTuple l =>
        let rank := List.length (ddims (rv_desc v)) in
        if Nat.ltb (List.length l) rank || (existsb is_slice l && Nat.eqb (List.length l) rank)
        then w <- subscript_to_view v l ;; pv_fill w x parts
        else if Nat.ltb rank (List.length l) then Throw
        else a <- subscript_to_val v l ;; Ok [pwrite (tsz * a) x]
    end.
  (** 1049-1078, 1006-1010, 1533-1537, 1609-1610 [x[key] = buffer]. *)
  Definition py_set_buffer (v : rview) (k : pykey) (b : pybuf) (parts : list (list Z)) : res (list (prog T unit)) :=
    match k with
    | KOne _ => Throw
    | KTuple l =>
        let rank := List.length (ddims (rv_desc v)) in
        if Nat.ltb (List.length l) rank || (existsb is_slice l && Nat.eqb (List.length l) rank)
        then w <- subscript_to_view v l ;; pv_buffer None w b parts
        else Throw
    end.

  (** 907-929 [PyTensorView(buffer)]: a writable buffer of the same type.  The
      pointer is used as a [T *], which must be aligned; [shape[0]] is read also
      when there are no axes.  Negative strides wrap around modulo 2^64 in the
      code, as do the addresses computed from them. *)
  Definition pv_from_buffer (b : pybuf) : res rview :=
    if negb (b_writable b) then Throw
    else if negb (same_type b) then Throw
    else match b_shape b with
         | [] => UB
         | _ => if b_ptr b mod tsz =? 0
                then Ok (mkRv (mkDesc (b_ptr b / tsz) (b_shape b) (b_steps b))
                              (snd (dims_to_strides (b_shape b))) (fst (dims_to_strides (b_shape b))))
                else UB
         end.
  (** 1585-1593, 1646-1654 [def_buffer]: the buffer a tensor or view offers. *)
  Definition buf_of (d : desc) : pybuf :=
    mkBuf (tsz * dbase d) tsz te_fmt (ddims d) (List.map (Z.mul tsz) (dstrides d)) true.
End Buffers.

(** ** Iteration: 38-117 *)
Record pyiter := mkIter { it_cur : Z; it_n : Z; it_istr : list Z; it_view : rview; it_stop : bool; it_rev : bool }.
(** 60-84: from a tensor ([rv_whole]) or a view; [size() - 1] wraps around. *)
Definition it_ctor (v : rview) (reverse : bool) : pyiter :=
  mkIter (if reverse then to_size (rv_size v - 1) else 0) (rv_size v)
         (fst (dims_to_strides (ddims (rv_desc v)))) v false reverse.
(** 48-51 copy constructor, used by [__iter__] (with [reverse = false]) and
    [__reversed__] (with [true]) of an iterator. *)
Definition it_copy (i : pyiter) (reverse : bool) : pyiter :=
  mkIter (it_cur i) (it_n i) (it_istr i) (it_view i) ((it_cur i <? 0) || (it_n i <=? it_cur i)) (xorb reverse (it_rev i)).
(** 90-114 [next]: [Ok None] is StopIteration, otherwise the position of the
    element returned. *)
Definition it_next (i : pyiter) : res (option (Z * pyiter)) :=
  if it_stop i then Ok None
  else
    a <- rv_subscript (it_view i) (List.map to_ptrdiff (sentinel_to_indices (it_cur i) (it_istr i))) ;;
    let cur := if it_rev i then to_size (it_cur i - 1) else to_size (it_cur i + 1) in
    Ok (Some (a, mkIter cur (it_n i) (it_istr i) (it_view i) (it_stop i || (cur <? 0) || (it_n i <=? cur)) (it_rev i))).
(** [for x in ...]: call [next] until StopIteration, at most [fuel] times. *)
Fixpoint it_collect (fuel : nat) (i : pyiter) : res (list Z * bool) :=
  match fuel with
  | O => Ok ([], false)
  | S n => r <- it_next i ;;
           match r with
           | None => Ok ([], true)
           | Some (a, j) => l <- it_collect n j ;; Ok (a :: fst l, snd l)
           end
  end.

(** ** Views with new extents: RuntimeTensor.hpp 683-737 [RuntimeTensorView(x,
    dims)], 1599-1602; 627-632 [to_rank_1_view]. *)
Definition rv_reshape (x : rsrc) (dims : list Z) : rview :=
  mkRv (mkDesc (dbase (rs_desc x)) dims (fst (dims_to_strides dims))) (snd (dims_to_strides dims)) (fst (dims_to_strides dims)).
Definition rt_rank1 (t : rtensor) : rview :=
  rv_reshape (RT t) [match dstrides (rt_desc t), ddims (rt_desc t) with
                     | s :: _, d :: _ => s * d | _, _ => 0 end].

(** ** In-place arithmetic of run-time tensors *)
Section Ops.
  Context {T : Type}.
  (** RuntimeTensor.hpp 540-557 [t OP= value]: each thread has a block of the
      vector of [size / threads] elements, the last one the rest. *)
  Definition rt_op_scalar (op : T -> T -> T) (t : rtensor) (x : T) (nthreads : Z) : list (prog T unit) :=
    List.map (fun tid => pseq (chunk (rt_len t) nthreads tid) (fun k =>
      PRd (dbase (rt_desc t) + k) (fun v => PWr (dbase (rt_desc t) + k) (op v x) (PRet tt)))) (zrange nthreads).
  (** RuntimeTensor.hpp 558-577 [t OP= tensor]: only the sizes are compared. *)
  Definition rt_op_tensor (op : T -> T -> T) (t u : rtensor) (parts : list (list Z)) : res (list (prog T unit)) :=
    if rt_len t =? rt_len u
    then loop_pool (fun s => Ok (dbase (rt_desc t) + s, dbase (rt_desc u) + s)) (op_body op) parts
    else Throw.
  (** RuntimeTensor.hpp 579-601 [t OP= view]: by subscripts. *)
  Definition rt_op_view (op : T -> T -> T) (t : rtensor) (v : rview) (parts : list (list Z)) : res (list (prog T unit)) :=
    if list_eq_dec Z.eq_dec (ddims (rv_desc v)) (ddims (rt_desc t))
    then loop_pool (fun s => let idx := sentinel_to_indices s (dstrides (rt_desc t)) in
                             a <- rs_data (RT t) idx ;; b <- rv_subscript v (List.map to_ptrdiff idx) ;; Ok (a, b))
                   (op_body op) parts
    else Throw.
End Ops.

(** Which overload takes a Python number: 1538-1560, registered in the order
    float, double, complex float, complex double, long; pybind11 (2.x) tries them
    in this order, first without conversions, then with.  Integers are within the
    range of long.  [r32] rounds a double to
    a float. *)
Inductive pynum (R : Type) := NFloat (x : R) | NInt (n : R) | NComplex (re im : R).
Arguments NFloat {R}. Arguments NInt {R}. Arguments NComplex {R}.
Inductive ovl := OFloat | ODouble | OCFloat | OCDouble | OLong.
Definition overloads : list ovl := [OFloat; ODouble; OCFloat; OCDouble; OLong].
Definition takes {R} (convert : bool) (o : ovl) (x : pynum R) : bool :=
  match o, x with
  | (OFloat | ODouble), NFloat _ => true
  | (OFloat | ODouble), NInt _ => convert
  | (OFloat | ODouble), NComplex _ _ => false
  | (OCFloat | OCDouble), NComplex _ _ => true
  | (OCFloat | OCDouble), _ => convert
  | OLong, NInt _ => true
  | OLong, _ => false
  end.
Definition chosen {R} (x : pynum R) : option ovl :=
  match find (fun o => takes false o x) overloads with
  | Some o => Some o
  | None => find (fun o => takes true o x) overloads
  end.
(** The number as the chosen overload receives it (real and imaginary part). *)
Definition received {R} (zero : R) (r32 : R -> R) (x : pynum R) : option (R * R) :=
  let parts := match x with NFloat a | NInt a => (a, zero) | NComplex a b => (a, b) end in
  match chosen x with
  | Some OFloat | Some OCFloat => Some (r32 (fst parts), r32 (snd parts))
  | Some _ => Some parts
  | None => None
  end.
(** RuntimeTensor.hpp 540-557, 1538-1560: [t OP= number] for a tensor of real
    numbers; of a complex number only the real part is used. *)
Definition rt_op_number {R} (zero : R) (r32 : R -> R) (op : R -> R -> R) (t : rtensor) (x : pynum R) (nthreads : Z)
  : res (list (prog R unit)) :=
  match received zero r32 x with
  | Some p => Ok (rt_op_scalar op t (fst p) nthreads)
  | None => Throw
  end.
