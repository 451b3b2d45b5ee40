(** * M_Elt: element-wise updates, fills and copies of dense tensors and views.
    Model definitions only.  Line numbers: /repo/src/include/einsums/Tensor.hpp. *)
From Coq Require Import List ZArith Lia Bool.
From Verif Require Import Base Heap Conc M_Addr.
Import ListNotations.
Open Scope Z_scope.

(** Flat positions processed by thread [tid] of [nt] in the chunked loops,
    856-859 and 872-877: [chunksize = size / nt], begin [chunksize*tid], end
    [size] for the last thread and [begin + chunksize] otherwise. *)
Definition chunk_begin (size nt tid : Z) : Z := size / nt * tid.
Definition chunk_end (size nt tid : Z) : Z :=
  if tid =? nt - 1 then size else chunk_begin size nt tid + size / nt.
Definition chunk (size nt tid : Z) : list Z :=
  map (fun k => chunk_begin size nt tid + k)
      (zrange (chunk_end size nt tid - chunk_begin size nt tid)).

Section Elt.
  Context {T : Type}.

  (** 859-861 [*i OP b]: [b] is passed by reference, hence read from its own
      address [sa] at every element. *)
  Definition scalar_body (op : T -> T -> T) (base sa : Z) (i : Z) : prog T unit :=
    PRd sa (fun b => PRd (base + i) (fun v => PWr (base + i) (op v b) (PRet tt))).

  (** 853-864 [Tensor OP= scalar] with [nt] threads: one program per thread. *)
  Definition scalar_op (op : T -> T -> T) (base size sa nt : Z) : list (prog T unit) :=
    map (fun tid => pseq (chunk size nt tid) (scalar_body op base sa)) (zrange nt).

  (** 877-880 [*i OP *j]. *)
  Definition tensor_body (op : T -> T -> T) (base bbase : Z) (i : Z) : prog T unit :=
    PRd (bbase + i) (fun b => PRd (base + i) (fun v => PWr (base + i) (op v b) (PRet tt))).

  (** 866-883 [Tensor OP= Tensor]: throws when the sizes differ. *)
  Definition tensor_op (op : T -> T -> T) (base size bbase bsize nt : Z) : res (list (prog T unit)) :=
    if negb (size =? bsize) then Throw
    else Ok (map (fun tid => pseq (chunk size nt tid) (tensor_body op base bbase)) (zrange nt)).

  (** 1174-1183 [TensorView OP= value], body for one multi-index; the loop is an
      OpenMP parallel-for over the cartesian product of the extents. *)
  Definition view_op_body (op : T -> T -> T) (d : desc) (sa : Z) (idx : list Z) : prog T unit :=
    PRd sa (fun b => PRd (subscript d idx) (fun v => PWr (subscript d idx) (op v b) (PRet tt))).

  (** 1157-1168 [TensorView = value]. *)
  Definition view_fill_body (d : desc) (sa : Z) (idx : list Z) : prog T unit :=
    PRd sa (fun b => PWr (subscript d idx) b (PRet tt)).

  (** Body of the element copy loops: 341-345, 773-777, 790-794, 801-806,
      1129-1132, 1149-1152. *)
  Definition copy_body (dst src : desc) (idx : list Z) : prog T unit :=
    PRd (subscript src idx) (fun v => PWr (subscript dst idx) v (PRet tt)).

  (** 321-346 [Tensor(const TensorView&)]: new row-major tensor at the fresh
      address [base], then the copy loop in row-major order. *)
  Definition copy_from_view (zero : T) (base : Z) (src : desc) (h : heap T) : res (desc * heap T) :=
    let d := tensor_ctor base (ddims src) in
    r <- run (pseq (indices (ddims src)) (copy_body d src))
             (alloc_buffer zero base (data_size (ddims src)) h) ;;
    Ok (d, snd r).

  (** 799-809 [Tensor = TensorView]: loop over the extents of the target; the
      extents of the source are not compared. *)
  Definition assign_from_view (dst src : desc) (h : heap T) : res (heap T) :=
    r <- run (pseq (indices (ddims dst)) (copy_body dst src)) h ;; Ok (snd r).

  (** 409-419 [set_all] / 392-402 [zero]: fill of the whole buffer. *)
  Definition set_all (base size : Z) (v : T) (h : heap T) : res (heap T) :=
    forM (zrange size) (fun i h => wr h (base + i) v) h.

  (** 353-376 [resize]: no-op for equal extents; otherwise new extents and
      strides, and [std::vector::resize]: the first [min] elements of the old
      buffer are kept, new ones are value-initialised.  The buffer is moved to
      [newbase] (fresh) with the old cells freed. *)
  Definition resize (zero : T) (newbase : Z) (d : desc) (dims : list Z) (h : heap T) : desc * heap T :=
    if list_eq_dec Z.eq_dec (ddims d) dims then (d, h)
    else
      let n := data_size (ddims d) in
      let m := data_size dims in
      (tensor_ctor newbase dims,
       fun a => if (newbase <=? a) && (a <? newbase + m)
                then (if a - newbase <? n then h (dbase d + (a - newbase)) else Some zero)
                else if (dbase d <=? a) && (a <? dbase d + n) then None
                else h a).
End Elt.
