(** * M_Block: block-diagonal tensors.  Model definitions only.
    Files: /repo/src/include/einsums/BlockTensor.hpp (lines without a file name),
    linear_algebra_imp/BlockLinearAlgebra.hpp (BLA). *)
From Coq Require Import List ZArith Lia Bool.
From Verif Require Import Base Heap Conc M_Addr M_Elt M_Einsum M_Blas.
Import ListNotations.
Open Scope Z_scope.

(** 34-39: the members.  A block is a dense tensor (descriptor); [bt_zero] is the
    address of [_zero_value].  Names are omitted; [_dims] is always the list of
    the first extents stored next to the ranges. *)
Record bt := mkBt { bt_blocks : list desc; bt_ranges : list (Z * Z); bt_dims : list Z; bt_dim : Z; bt_zero : Z }.

Definition empty_bt (zero : Z) : bt := mkBt [] [] [] 0 zero.

(** 48-65 [update_dims]: the loop over the blocks with the running [sum]. *)
Fixpoint update_loop (sum : Z) (bs : list desc) : list Z * list (Z * Z) * Z :=
  match bs with
  | [] => ([], [], sum)
  | b :: r => let d := tdim b 0 in
              let '(ds, rs, total) := update_loop (sum + d) r in
              (d :: ds, (sum, sum + d) :: rs, total)
  end.
Definition update_dims (t : bt) : bt :=
  let '(ds, rs, total) := update_loop 0 (bt_blocks t) in
  mkBt (bt_blocks t) rs ds total (bt_zero t).

(** 257-262: every extent equals extent 0 ([rank] extents). *)
Definition square (b : desc) : bool := forallb (fun x => x =? tdim b 0) (ddims b).

(** 256-265, 286-295 [push_block]. *)
Definition push_block (b : desc) (t : bt) : res bt :=
  if square b then Ok (update_dims (mkBt (bt_blocks t ++ [b]) (bt_ranges t) (bt_dims t) (bt_dim t) (bt_zero t)))
  else Throw.

(** 270-281, 300-311 [insert_block]; [std::next]/[insert] outside the vector is undefined. *)
Definition insert_block (pos : Z) (b : desc) (t : bt) : res bt :=
  if square b then
    if (pos <? 0) || (Z.of_nat (length (bt_blocks t)) <? pos) then UB
    else let p := Z.to_nat pos in
         Ok (update_dims (mkBt (firstn p (bt_blocks t) ++ b :: skipn p (bt_blocks t))
                               (bt_ranges t) (bt_dims t) (bt_dim t) (bt_zero t)))
  else Throw.

(** 219 [block(id)] followed by [resize] of the returned reference to extents
    [d, ..., d]; [at] throws out of range.  The ranges are not touched.  Only
    the extents matter here; the new buffer is at [base]. *)
Definition resize_block (id : Z) (base : Z) (dims : list Z) (t : bt) : res bt :=
  if (id <? 0) || (Z.of_nat (length (bt_blocks t)) <=? id) then Throw
  else let p := Z.to_nat id in
       Ok (mkBt (firstn p (bt_blocks t) ++ tensor_ctor base dims :: skipn (S p) (bt_blocks t))
                (bt_ranges t) (bt_dims t) (bt_dim t) (bt_zero t)).

(** 105-121, 139-153: constructors from a list of block sizes; block [i] is placed at [bases i]. *)
Definition bt_ctor (rank : nat) (zero : Z) (bases sizes : list Z) : bt :=
  update_dims (mkBt (map (fun p => tensor_ctor (fst p) (repeat (snd p) rank)) (combine bases sizes)) [] [] 0 zero).

(** 181-189 [block_of], also the search loops 339-344, 388-393, 435-440: first
    range containing the index. *)
Fixpoint find_range (k : nat) (rs : list (Z * Z)) (x : Z) : option nat :=
  match rs with
  | [] => None
  | (lo, hi) :: r => if (lo <=? x) && (x <? hi) then Some k else find_range (S k) r x
  end.
Definition block_of (t : bt) (index : Z) : res Z :=
  match find_range 0 (bt_ranges t) index with Some i => Ok (Z.of_nat i) | None => Throw end.

(** 429-453: the index loop.  [blk] is [block] ([None] for -1), [acc] the
    remapped indices so far (reversed).  Results: the element (block and
    in-block index), or [None]: outside every block.  [miss] is what indexing
    the ranges with -1 gives: [Throw] for [at] (443), [UB] for [[]] (396).
    [_index] is a reference to the array element ([std::tie] in STL.hpp 97), so
    it shows the wrapped value. *)
Fixpoint index_loop (miss : res (option (nat * list Z))) (t : bt) (blk : option nat) (acc : list Z) (inds : list Z)
    : res (option (nat * list Z)) :=
  match inds with
  | [] => match blk with Some b => Ok (Some (b, rev acc)) | None => miss end
  | i :: r =>
      let x := if i <? 0 then bt_dim t + i else i in
      let blk := match blk with Some b => Some b | None => find_range 0 (bt_ranges t) x end in
      match blk with
      | None => miss
      | Some b => let '(lo, hi) := nth b (bt_ranges t) (0, 0) in
                  if (lo <=? x) && (x <? hi) then index_loop miss t (Some b) (x - lo :: acc) r
                  else Ok None
      end
  end.

Section Access.
  Context {O : Ops}.
  Notation T := (car O).

  (** 423-456: non-const [operator()]: address of the referenced element and
      the memory after the possible reset of [_zero_value]. *)
  Definition bt_subscript (t : bt) (inds : list Z) (h : heap T) : res (Z * heap T) :=
    p <- index_loop Throw t None [] inds ;;
    match p with
    | Some (b, idx) => match nth_error (bt_blocks t) b with
                       | Some d => Ok (subscript d idx, h)
                       | None => Throw
                       end
    | None => z <- rd h (bt_zero t) ;;
              if oeqb z o0 then Ok (bt_zero t, h)
              else h' <- wr h (bt_zero t) o0 ;; Ok (bt_zero t, h')
    end.
  (** Reading or writing through the returned reference. *)
  Definition bt_read (t : bt) (inds : list Z) (h : heap T) : res (T * heap T) :=
    r <- bt_subscript t inds h ;; v <- rd (snd r) (fst r) ;; Ok (v, snd r).
  Definition bt_write (t : bt) (inds : list Z) (v : T) (h : heap T) : res (heap T) :=
    r <- bt_subscript t inds h ;; wr (snd r) (fst r) v.

  (** 376-406: const [operator()].  Line 400 returns a reference to a temporary:
      reading it is undefined. *)
  Definition bt_read_const (t : bt) (inds : list Z) (h : heap T) : res T :=
    p <- index_loop UB t None [] inds ;;
    match p with
    | Some (b, idx) => match nth_error (bt_blocks t) b with
                       | Some d => rd h (dbase d + dotp idx (dstrides d))
                       | None => Throw
                       end
    | None => UB
    end.

  (** 673-724: conversion to a dense tensor at [base]: [out] is zeroed, then the
      parallel loop assigns each non-empty block to a slice of [out].  The work
      items of the loop are the pairs (block, element); all interleavings of the
      element copies are allowed.  ([Tensor.hpp] 1140-1155: the assignment.) *)
  Definition dense_desc (rank : nat) (t : bt) (base : Z) : desc := tensor_ctor base (repeat (bt_dim t) rank).
  Definition dense_items (t : bt) (b : nat) : list (nat * list Z) :=
    let '(lo, hi) := nth b (bt_ranges t) (0, 0) in
    match nth_error (bt_blocks t) b with
    | Some d => if tdim d 0 =? 0 then []
                else map (pair b) (indices (repeat (hi - lo) (length (ddims d))))
    | None => []
    end.
  Definition dense_body (out : desc) (t : bt) (item : nat * list Z) : prog T unit :=
    match nth_error (bt_blocks t) (fst item) with
    | Some d => copy_body (slice_ranges out (repeat (nth (fst item) (bt_ranges t) (0, 0)) (length (ddims d)))) d (snd item)
    | None => PRet tt
    end.
  Definition dense_start (rank : nat) (t : bt) (base : Z) (h : heap T) : heap T :=
    alloc_buffer o0 base (data_size (repeat (bt_dim t) rank)) h.

  (** ** Block linear algebra.  The parallel loops over blocks are modelled as
      a sequential loop over the blocks in an arbitrary order [order]; calls on
      different blocks touch different memory. *)

  (** BLA 18-60 [gemm]. *)
  Definition bt_gemm (TransA TransB : bool) (alpha : T) (A B : bt) (beta : T) (C : bt) (order : list nat)
      (h : heap T) : res (heap T) :=
    if negb (Nat.eqb (length (bt_blocks A)) (length (bt_blocks B))) ||
       negb (Nat.eqb (length (bt_blocks A)) (length (bt_blocks C))) then Throw
    else forM order (fun i h =>
      match nth_error (bt_blocks A) i, nth_error (bt_blocks B) i, nth_error (bt_blocks C) i with
      | Some a, Some b, Some c => if tdim a 0 =? 0 then Ok h else la_gemm TransA TransB alpha a b beta c h
      | _, _, _ => Throw
      end) h.

  (** BLA 164-172 [scale]. *)
  Definition bt_scale (alpha : T) (A : bt) (order : list nat) (h : heap T) : res (heap T) :=
    forM order (fun i h => match nth_error (bt_blocks A) i with
                           | Some a => if tdim a 0 =? 0 then Ok h else la_scale alpha a h
                           | None => Throw end) h.

  (** BLA 174-190 [scale_row], [scale_column]: a slice of the block containing
      the row or column, scaled by the vector version of [scale]. *)
  Definition bt_scale_row (row : Z) (alpha : T) (A : bt) (h : heap T) : res (heap T) :=
    k <- block_of A row ;;
    match nth_error (bt_blocks A) (Z.to_nat k) with
    | Some a => la_scale alpha (slice a [SInt (row - fst (nth (Z.to_nat k) (bt_ranges A) (0, 0))); SAll]) h
    | None => Throw
    end.
  Definition bt_scale_column (col : Z) (alpha : T) (A : bt) (h : heap T) : res (heap T) :=
    k <- block_of A col ;;
    match nth_error (bt_blocks A) (Z.to_nat k) with
    | Some a => la_scale alpha (slice a [SAll; SInt (col - fst (nth (Z.to_nat k) (bt_ranges A) (0, 0)))]) h
    | None => Throw
    end.

  (** BLA 193-215 [dot] with equal block structure; the reduction adds the
      block results in the order [order].  [None]: different structures; the
      call then converts both operands ([dense_start], [dense_body]) and calls
      [la_dot] on the copies. *)
  Definition bt_dot (A B : bt) (order : list nat) (h : heap T) : option (res T) :=
    if negb (Nat.eqb (length (bt_blocks A)) (length (bt_blocks B))) then None
    else if list_eq_dec (fun x y : Z * Z => ltac:(decide equality; apply Z.eq_dec)) (bt_ranges A) (bt_ranges B)
    then Some (forM order (fun i s =>
      match nth_error (bt_blocks A) i, nth_error (bt_blocks B) i with
      | Some a, Some b => if tdim a 0 =? 0 then Ok s else d <- la_dot true true a b h ;; Ok (oadd s d)
      | _, _ => Throw
      end) o0)
    else None.

  (** BLA 269-307 [axpy], [axpby]. *)
  Definition bt_axpy_like (f : desc -> desc -> heap T -> res (heap T)) (X Y : bt) (order : list nat) (h : heap T)
      : res (heap T) :=
    if negb (Nat.eqb (length (bt_blocks X)) (length (bt_blocks Y))) then Throw
    else if list_eq_dec (fun x y : Z * Z => ltac:(decide equality; apply Z.eq_dec)) (bt_ranges X) (bt_ranges Y)
    then forM order (fun i h =>
      match nth_error (bt_blocks X) i, nth_error (bt_blocks Y) i with
      | Some x, Some y => if tdim x 0 =? 0 then Ok h else f x y h
      | _, _ => Throw
      end) h
    else Throw.
  Definition bt_axpy (alpha : T) := bt_axpy_like (la_axpy alpha).
  Definition bt_axpby (alpha beta : T) := bt_axpy_like (fun x y => la_axpby alpha x beta y).
End Access.
