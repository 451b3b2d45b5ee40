(** * M_Runtime: tensors and views whose rank is a run-time value.  Model
    definitions only.  File: /repo/src/include/einsums/RuntimeTensor.hpp. *)
From Coq Require Import List ZArith Lia Bool.
From Verif Require Import Base Heap Conc M_Addr.
Import ListNotations.
Open Scope Z_scope.

(** Conversions of C++ integers: to [size_t], to [ptrdiff_t]. *)
Definition to_size (x : Z) : Z := x mod 2 ^ 64.
Definition to_ptrdiff (x : Z) : Z := (x + 2 ^ 63) mod 2 ^ 64 - 2 ^ 63.

(** 75-79 members [_data], [_dims], [_strides], [_rank]; [rt_len] is
    [_data.size()]. *)
Record rtensor := mkRt { rt_desc : desc; rt_len : Z }.
(** 660-664 members [_data], [_dims], [_strides], [_size], [_index_strides]. *)
Record rview := mkRv { rv_desc : desc; rv_size : Z; rv_istr : list Z }.

(** 91-112 constructors from extents: strides and number of elements from the
    last axis to the first; [_data.resize] gives the buffer at [base]. *)
Definition rt_ctor (base : Z) (dims : list Z) : rtensor :=
  mkRt (mkDesc base dims (fst (dims_to_strides dims))) (snd (dims_to_strides dims)).

(** 671-681 view of a whole run-time tensor. *)
Definition rv_whole (t : rtensor) : rview :=
  mkRv (rt_desc t) (rt_len t) (fst (dims_to_strides (ddims (rt_desc t)))).

(** 739-781: view with given extents, strides and first element [p].  [_size] is
    accumulated in [int]. *)
Definition rv_make (p : Z) (dims strides : list Z) : rview :=
  mkRv (mkDesc p dims strides) (size_model dims) (fst (dims_to_strides dims)).

(** What can be sliced: a run-time tensor or a run-time view. *)
Inductive rsrc := RT (t : rtensor) | RV (v : rview).
Definition rs_desc (x : rsrc) : desc := match x with RT t => rt_desc t | RV v => rv_desc v end.

(** 159-169 and 869-879 [data(index)] with a vector of [size_t]: every entry is
    converted to [ptrdiff_t], wrapped if negative and checked; a tensor uses
    [_data.at], which checks the position too. *)
Definition rs_data (x : rsrc) (inds : list Z) : res Z :=
  s <- indices_to_sentinel_negative_check (dstrides (rs_desc x)) (ddims (rs_desc x)) (map to_ptrdiff inds) ;;
  match x with
  | RT t => if rt_len t <=? s then Throw else Ok (dbase (rt_desc t) + s)
  | RV v => Ok (dbase (rv_desc v) + s)
  end.

(** 284-315 (also 325-356, 1045-1076, 1086-1117): the loop over the axes.
    Returns extents, offsets, strides. *)
Fixpoint rslice_loop (dims strides : list Z) (slices : list (Z * Z)) : res (list Z * list Z * list Z) :=
  match dims, strides with
  | d :: ds, s :: ss =>
      match slices with
      | [] => r <- rslice_loop ds ss [] ;;
              let '(vd, vo, vs) := r in Ok (d :: vd, 0 :: vo, s :: vs)
      | (a, b) :: rest =>
          let start := to_size a in
          let stop := to_size b in
          if (start =? to_size (-1)) && (0 <=? stop) then
            r <- rslice_loop ds ss rest ;;
            let '(vd, vo, vs) := r in Ok (vd, stop :: vo, vs)
          else
            let start' := if start <? 0 then to_size (start + d) else start in
            let stop' := if stop <? 0 then to_size (stop + d) else stop in
            if (start' <? 0) || (stop' <? 0) || (d <=? start') || (d <? stop') || (stop' <=? start') then Throw
            else r <- rslice_loop ds ss rest ;;
                 let '(vd, vo, vs) := r in Ok (stop' - start' :: vd, start' :: vo, s :: vs)
      end
  | _, _ => Ok ([], [], [])
  end.

(** 280-319, 321-360, 1041-1080, 1082-1121 [operator()(vector<Range>)]. *)
Definition rslice (x : rsrc) (slices : list (Z * Z)) : res rview :=
  if Nat.ltb (length (ddims (rs_desc x))) (length slices) then Throw
  else
    r <- rslice_loop (ddims (rs_desc x)) (dstrides (rs_desc x)) slices ;;
    let '(vd, vo, vs) := r in
    p <- rs_data x vo ;; Ok (rv_make p vd vs).

(** 255-272 (also 972-989, 1002-1019): [All], [Range] and integers turned into
    ranges.  The integer is of a signed type wide enough for the sum. *)
Fixpoint rarg_ranges (dims : list Z) (args : list sarg) : list (Z * Z) :=
  match args, dims with
  | a :: r, d :: ds =>
      (match a with
       | SAll => (0, d)
       | SRange lo hi => (lo, hi)
       | SInt k => (-1, if k <? 0 then k + d else k)
       end) :: rarg_ranges ds r
  | _, _ => []
  end.
(** 245-275, 962-1020 [operator()(Args...)], not all of them integers. *)
Definition rsub (x : rsrc) (args : list sarg) : res rview :=
  if Nat.ltb (length (ddims (rs_desc x))) (length args) then Throw
  else rslice x (rarg_ranges (ddims (rs_desc x)) args).

(** A slice of a slice of ... *)
Fixpoint rchain (x : rsrc) (argss : list (list sarg)) : res rsrc :=
  match argss with [] => Ok x | a :: r => v <- rsub x a ;; rchain (RV v) r end.

(** 881-891 [operator()(index)] of a view. *)
Definition rv_subscript (v : rview) (inds : list Z) : res Z :=
  s <- indices_to_sentinel_negative_check (dstrides (rv_desc v)) (ddims (rv_desc v)) inds ;;
  Ok (dbase (rv_desc v) + s).

(** 840-846, 1190-1199, 1216-1225 and others: the position belonging to a
    sentinel, [ord += strides[i] * (hold / istr[i]); hold %= istr[i]]. *)
Fixpoint ord_loop (hold : Z) (istr strides : list Z) (ord : Z) : res Z :=
  match istr, strides with
  | q :: qs, s :: ss => if q =? 0 then UB else ord_loop (hold mod q) qs ss (ord + s * (hold / q))
  | _, _ => Ok ord
  end.
Definition rv_ord (v : rview) (sentinel : Z) : res Z :=
  o <- ord_loop sentinel (rv_istr v) (dstrides (rv_desc v)) 0 ;; Ok (dbase (rv_desc v) + o).

Section Copy.
  Context {T : Type}.

  (** A parallel loop over sentinels: [f] gives the written and the read address
      of an iteration (they do not depend on the contents), [body] what it does.
      [parts]: the sentinels each thread executes. *)
  Fixpoint addresses (f : Z -> res (Z * Z)) (l : list Z) : res (list (Z * Z)) :=
    match l with [] => Ok [] | s :: r => p <- f s ;; ps <- addresses f r ;; Ok (p :: ps) end.
  Fixpoint loop_pool (f : Z -> res (Z * Z)) (body : Z * Z -> prog T unit) (parts : list (list Z)) : res (list (prog T unit)) :=
    match parts with
    | [] => Ok []
    | p :: r => l <- addresses f p ;; ps <- loop_pool f body r ;; Ok (pseq l body :: ps)
    end.
  (** [dst = src] and [dst OP= src]. *)
  Definition put_body (p : Z * Z) : prog T unit := PRd (snd p) (fun v => PWr (fst p) v (PRet tt)).
  Definition op_body (op : T -> T -> T) (p : Z * Z) : prog T unit :=
    PRd (snd p) (fun b => PRd (fst p) (fun v => PWr (fst p) (op v b) (PRet tt))).

  (** [std::vector::resize]: nothing when the length stays; otherwise the buffer
      is at [newbase], the old cells are gone, the first elements are kept. *)
  Definition vec_resize (zero : T) (newbase base len newlen : Z) (h : heap T) : Z * heap T :=
    if len =? newlen then (base, h)
    else (newbase, fun a => if (newbase <=? a) && (a <? newbase + newlen)
                            then (if a - newbase <? len then h (base + (a - newbase)) else Some zero)
                            else if (base <=? a) && (a <? base + len) then None else h a).

  (** 126-147 [RuntimeTensor(const TensorView&)]: the new tensor, the memory
      after the allocation, and the copy loop. *)
  Definition rt_from_view (zero : T) (base : Z) (src : desc) (parts : list (list Z)) (h : heap T)
    : res (rtensor * heap T * list (prog T unit)) :=
    let t := rt_ctor base (ddims src) in
    ps <- loop_pool (fun s => o <- ord_loop s (dstrides (rt_desc t)) (dstrides src) 0 ;; Ok (base + s, dbase src + o))
                    put_body parts ;;
    Ok (t, alloc_buffer zero base (rt_len t) h, ps).

  (** 453-481 [RuntimeTensor = RuntimeTensorView] (same element type). *)
  Definition rt_shape (zero : T) (newbase : Z) (t : rtensor) (v : rview) (h : heap T) : rtensor * heap T :=
    let dims := ddims (rv_desc v) in
    if list_eq_dec Z.eq_dec (ddims (rt_desc t)) dims then (t, h)
    else let '(b, h') := vec_resize zero newbase (dbase (rt_desc t)) (rt_len t) (rv_size v) h in
         (mkRt (mkDesc b dims (fst (dims_to_strides dims))) (rv_size v), h').
  Definition rt_copy_addr (t : rtensor) (v : rview) (s : Z) : res (Z * Z) :=
    a <- rv_subscript v (sentinel_to_indices s (dstrides (rt_desc t))) ;; Ok (dbase (rt_desc t) + s, a).
  Definition rt_assign_view (zero : T) (newbase : Z) (t : rtensor) (v : rview) (parts : list (list Z)) (h : heap T)
    : res (rtensor * heap T * list (prog T unit)) :=
    let '(t', h') := rt_shape zero newbase t v h in
    ps <- loop_pool (rt_copy_addr t' v) put_body parts ;; Ok (t', h', ps).

  (** 506-531 [RuntimeTensor<T> = RuntimeTensorView<TOther>] (another element
      type; the conversion of an element is not modelled): the strides of the
      view are copied too. *)
  Definition rt_assign_cast (zero : T) (newbase : Z) (t : rtensor) (v : rview) (parts : list (list Z)) (h : heap T)
    : res (rtensor * heap T * list (prog T unit)) :=
    let '(b, h') := vec_resize zero newbase (dbase (rt_desc t)) (rt_len t) (rv_size v) h in
    let t' := mkRt (mkDesc b (ddims (rv_desc v)) (dstrides (rv_desc v))) (rv_size v) in
    ps <- loop_pool (rt_copy_addr t' v) put_body parts ;; Ok (t', h', ps).

  (** 1207-1232 [RuntimeTensorView = RuntimeTensorView]. *)
  Definition rv_pair_addr (v w : rview) (s : Z) : res (Z * Z) :=
    o <- rv_ord v s ;; p <- ord_loop s (rv_istr v) (dstrides (rv_desc w)) 0 ;; Ok (o, dbase (rv_desc w) + p).
  Definition rv_assign_view (v w : rview) (parts : list (list Z)) : res (list (prog T unit)) :=
    if list_eq_dec Z.eq_dec (ddims (rv_desc v)) (ddims (rv_desc w))
    then loop_pool (rv_pair_addr v w) put_body parts else Throw.
  (** 1181-1205 [RuntimeTensorView = RuntimeTensor]: the source is read by the
      sentinel itself. *)
  Definition rv_assign_tensor (v : rview) (t : rtensor) (parts : list (list Z)) : res (list (prog T unit)) :=
    if list_eq_dec Z.eq_dec (ddims (rv_desc v)) (ddims (rt_desc t))
    then loop_pool (fun s => o <- rv_ord v s ;; Ok (o, dbase (rt_desc t) + s)) put_body parts else Throw.
  (** 1345-1372 [RuntimeTensorView OP= RuntimeTensorView] (1319-1343 for a
      [RuntimeTensor] operand is the same loop: it uses [b.stride(i)]). *)
  Definition rv_op_view (op : T -> T -> T) (v w : rview) (parts : list (list Z)) : res (list (prog T unit)) :=
    if list_eq_dec Z.eq_dec (ddims (rv_desc v)) (ddims (rv_desc w))
    then loop_pool (rv_pair_addr v w) (op_body op) parts else Throw.
  (** 849-861, 1289-1292 [set_all], [RuntimeTensorView = value]. *)
  Definition rv_fill (v : rview) (x : T) (parts : list (list Z)) : res (list (prog T unit)) :=
    loop_pool (fun s => o <- rv_ord v s ;; Ok (o, o)) (fun p => pwrite (fst p) x) parts.
End Copy.
