(** * M_Tiled: tiled tensors.  Model definitions only.
    Files: /repo/src/include/einsums/TiledTensor.hpp (lines without a file name),
    linear_algebra_imp/TiledLinearAlgebra.hpp (TLA).  Index and size arithmetic is
    on unbounded integers. *)
From Coq Require Import List ZArith Lia Bool.
From Verif Require Import Base Heap Conc M_Addr M_Elt M_Einsum M_Blas.
Import ListNotations.
Open Scope Z_scope.

(** 46-50: tile sizes and offsets for every axis, the tiles (an [unordered_map]
    from tile coordinates to dense tensors; here an association list, whose order
    stands for the unspecified iteration order), the extents. *)
Record tt := mkTT { tt_sizes : list (list Z); tt_offsets : list (list Z); tt_dims : list Z;
                    tt_tiles : list (list Z * desc) }.

(** 95-100, 117-122: running sum over the tile sizes of one axis. *)
Fixpoint offset_loop (sum : Z) (sizes : list Z) : list Z * Z :=
  match sizes with
  | [] => ([], sum)
  | n :: r => let '(os, total) := offset_loop (sum + n) r in (sum :: os, total)
  end.
(** 111-131: constructor from the tile sizes of every axis; no tiles. *)
Definition tt_ctor (sizes : list (list Z)) : tt :=
  mkTT sizes (map (fun s => fst (offset_loop 0 s)) sizes) (map (fun s => snd (offset_loop 0 s)) sizes) [].

(** 315-324: the search along one axis, with the [at] of an empty vector throwing. *)
Fixpoint tile_search (j : Z) (offs : list Z) (x : Z) : Z :=
  match offs with
  | o :: ((o' :: _) as r) => if (x <? o') && (o <=? x) then j else tile_search (j + 1) r x
  | _ => 0
  end.
Definition tile_of_axis (offs : list Z) (dim k : Z) : res Z :=
  let x := if k <? 0 then k + dim else k in
  if (x <? 0) || (x >=? dim) then Throw
  else match offs with
       | [] => Throw
       | _ => if x >=? last offs 0 then Ok (Z.of_nat (length offs) - 1) else Ok (tile_search 0 offs x)
       end.
(** 300-327, 360-388 [tile_of]. *)
Fixpoint tile_of_loop (offs : list (list Z)) (dims ks : list Z) : res (list Z) :=
  match offs, dims, ks with
  | o :: os, d :: ds, k :: r => c <- tile_of_axis o d k ;; cs <- tile_of_loop os ds r ;; Ok (c :: cs)
  | _, _, _ => Ok []
  end.
Definition tile_of (t : tt) (ks : list Z) : res (list Z) := tile_of_loop (tt_offsets t) (tt_dims t) ks.

(** [unordered_map::find]. *)
Fixpoint find_tile (c : list Z) (l : list (list Z * desc)) : option desc :=
  match l with
  | [] => None
  | (k, d) :: r => if list_eq_dec Z.eq_dec k c then Some d else find_tile c r
  end.

(** 281-289: wrapping and range check of tile coordinates; [None] = outside. *)
Fixpoint wrap_coords (sizes : list (list Z)) (c : list Z) : option (list Z) :=
  match sizes, c with
  | s :: ss, k :: r =>
      let n := Z.of_nat (length s) in
      let x := if k <? 0 then k + n else k in
      if (x >=? n) || (x <? 0) then None
      else match wrap_coords ss r with Some cs => Some (x :: cs) | None => None end
  | _, _ => Some []
  end.
(** 276-292 [has_tile] with integer arguments. *)
Definition has_tile (t : tt) (c : list Z) : bool :=
  match wrap_coords (tt_sizes t) c with
  | Some x => match find_tile x (tt_tiles t) with Some _ => true | None => false end
  | None => false
  end.
(** 335-352 [has_tile] with a container: line 343 adds the grid size to the
    container's entry instead of the local copy that is tested. *)
Fixpoint coords_in (sizes : list (list Z)) (c : list Z) : bool :=
  match sizes, c with
  | s :: ss, k :: r => if (k >=? Z.of_nat (length s)) || (k <? 0) then false else coords_in ss r
  | _, _ => true
  end.
Definition has_tile_c (t : tt) (c : list Z) : bool :=
  if coords_in (tt_sizes t) c then
    match find_tile c (tt_tiles t) with Some _ => true | None => false end
  else false.

(** 200-237: const [tile]: wrap, assert, [at]. *)
Definition const_tile (t : tt) (c : list Z) : res desc :=
  match wrap_coords (tt_sizes t) c with
  | Some x => match find_tile x (tt_tiles t) with Some d => Ok d | None => Throw end
  | None => Throw
  end.

(** 838-868 [has_zero_size]; the tile coordinates are in range where it is used. *)
Definition tile_extent (s : list Z) (k : Z) : Z := nth (Z.to_nat k) s 0.
Fixpoint tile_dims (sizes : list (list Z)) (c : list Z) : list Z :=
  match sizes, c with
  | s :: ss, k :: r => tile_extent s k :: tile_dims ss r
  | _, _ => []
  end.
Definition has_zero_size (t : tt) (c : list Z) : bool := existsb (fun n => n =? 0) (tile_dims (tt_sizes t) c).

(** 407-409, 432-437: position inside the tile. *)
Fixpoint local_index (offs : list (list Z)) (dims ks c : list Z) : list Z :=
  match offs, dims, ks, c with
  | o :: os, d :: ds, k :: r, j :: js =>
      (if k <? 0 then k + d else k) - nth (Z.to_nat j) o 0 :: local_index os ds r js
  | _, _, _, _ => []
  end.

Section Tiled.
  Context {O : Ops}.
  Notation T := (car O).

  (** The allocator: given the memory and a number of cells, the base address of
      a free region of that size, or none ([std::bad_alloc]).  External. *)
  Variable al : heap T -> Z -> option Z.

  (** 892-908 [add_tile] for a position that has no tile: new dense tensor with
      the extents of the tile, zeroed. *)
  Definition add_tile (c : list Z) (s : tt * heap T) : res (desc * (tt * heap T)) :=
    let '(t, h) := s in
    let dims := tile_dims (tt_sizes t) c in
    match al h (data_size dims) with
    | None => Throw
    | Some b =>
        let d := tensor_ctor b dims in
        h1 <- set_all b (data_size dims) o0 (alloc_buffer o0 b (data_size dims) h) ;;
        Ok (d, (mkTT (tt_sizes t) (tt_offsets t) (tt_dims t) ((c, d) :: tt_tiles t), h1))
    end.

  (** 168-192, 245-268: non-const [tile]: creates a missing tile. *)
  Definition tile (c : list Z) (s : tt * heap T) : res (desc * (tt * heap T)) :=
    match wrap_coords (tt_sizes (fst s)) c with
    | None => Throw
    | Some x => match find_tile x (tt_tiles (fst s)) with
                | Some d => Ok (d, s)
                | None => add_tile x s
                end
    end.

  (** 396-416, 451-478: const [operator()]. *)
  Definition tt_read (t : tt) (ks : list Z) (h : heap T) : res T :=
    c <- tile_of t ks ;;
    if has_tile_c t c then
      d <- const_tile t c ;; rd h (subscript d (local_index (tt_offsets t) (tt_dims t) ks c))
    else Ok o0.

  (** 424-441, 488-512: non-const [operator()] and an assignment through the
      returned reference. *)
  Definition tt_write (ks : list Z) (v : T) (s : tt * heap T) : res (tt * heap T) :=
    c <- tile_of (fst s) ks ;;
    r <- tile c s ;;
    h' <- wr (snd (snd r)) (subscript (fst r) (local_index (tt_offsets (fst s)) (tt_dims (fst s)) ks c)) v ;;
    Ok (fst (snd r), h').

  (** Destruction of a dense tensor: its cells are no longer allocated. *)
  Definition free (d : desc) (h : heap T) : heap T :=
    fun a => if (dbase d <=? a) && (a <? dbase d + data_size (ddims d)) then None else h a.
  (** 517 [zero]. *)
  Definition tt_zero (s : tt * heap T) : tt * heap T :=
    (mkTT (tt_sizes (fst s)) (tt_offsets (fst s)) (tt_dims (fst s)) [],
     fold_left (fun h p => free (snd p) h) (tt_tiles (fst s)) (snd s)).

  (** Tensor.hpp 853-864 [*=], [+=], [-=] with a scalar held in a variable of the
      caller; sequential form of M_Elt.scalar_op (C08: every interleaving of the
      threads has this effect). *)
  Definition tile_op (op : T -> T -> T) (v : T) (d : desc) (h : heap T) : res (heap T) :=
    forM (zrange (data_size (ddims d))) (fun i h => x <- rd h (dbase d + i) ;; wr h (dbase d + i) (op x v)) h.
  Definition tile_fill (v : T) (d : desc) (h : heap T) : res (heap T) := set_all (dbase d) (data_size (ddims d)) v h.
  (** Tensor.hpp 866-883 with a tensor. *)
  Definition tile_op2 (op : T -> T -> T) (e d : desc) (h : heap T) : res (heap T) :=
    if negb (data_size (ddims d) =? data_size (ddims e)) then Throw
    else forM (zrange (data_size (ddims d)))
           (fun i h => y <- rd h (dbase e + i) ;; x <- rd h (dbase d + i) ;; wr h (dbase d + i) (op x y)) h.

  Definition for_tiles (f : desc -> heap T -> res (heap T)) (s : tt * heap T) : res (tt * heap T) :=
    h' <- forM (tt_tiles (fst s)) (fun p h => f (snd p) h) (snd s) ;; Ok (fst s, h').
  (** 522-526 [zero_no_clear] *)
  Definition tt_zero_no_clear (s : tt * heap T) : res (tt * heap T) := for_tiles (tile_fill o0) s.
  (** 567-571 [set_all_existing] *)
  Definition tt_set_existing (v : T) (s : tt * heap T) : res (tt * heap T) := for_tiles (tile_fill v) s.
  (** 670-679 [*=] *)
  Definition tt_scale (v : T) (s : tt * heap T) : res (tt * heap T) :=
    if oeqb v o0 then Ok (tt_zero s) else for_tiles (tile_op omul v) s.

  (** 540-559, 619-638, 647-666: loop over all positions of the grid; [order] is
      the order in which the parallel loop completes the iterations (the tiles
      share no memory).  A missing tile makes [at] throw. *)
  Fixpoint col_decode (grid : list Z) (n : Z) : list Z :=
    match grid with [] => [] | g :: r => n mod g :: col_decode r (n / g) end.
  Definition grid (t : tt) : list Z := map (fun s => Z.of_nat (length s)) (tt_sizes t).
  Definition for_grid (f : desc -> heap T -> res (heap T)) (order : list Z) (t : tt) (h : heap T) : res (heap T) :=
    forM order (fun i h => match find_tile (col_decode (grid t) i) (tt_tiles t) with
                           | Some d => f d h
                           | None => Throw
                           end) h.
  (** 534-560 [set_all] *)
  Definition tt_set_all (v : T) (order : list Z) (s : tt * heap T) : res (tt * heap T) :=
    if oeqb v o0 then Ok (tt_zero s)
    else h' <- for_grid (tile_fill v) order (fst s) (snd s) ;; Ok (fst s, h').
  (** 614-640 [+=], 642-668 [-=] *)
  Definition tt_shift (op : T -> T -> T) (v : T) (order : list Z) (s : tt * heap T) : res (tt * heap T) :=
    if oeqb v o0 then Ok s
    else h' <- for_grid (tile_op op v) order (fst s) (snd s) ;; Ok (fst s, h').

  (** Tensor = Tensor of the same extents (Tensor.hpp 754-782): element copy. *)
  Definition tile_copy (e d : desc) (h : heap T) : res (heap T) := tile_op2 (fun _ y => y) e d h.

  Definition same_layout (t u : tt) : bool :=
    if list_eq_dec (list_eq_dec Z.eq_dec) (tt_sizes t) (tt_sizes u) then true else false.
  (** 688-703 [+=] with a tiled tensor. *)
  Definition tt_add (u : tt) (s : tt * heap T) : res (tt * heap T) :=
    if negb (same_layout (fst s) u) then Throw
    else forM (tt_tiles u) (fun p s =>
      if has_tile_c (fst s) (fst p) then
        d <- const_tile (fst s) (fst p) ;; h' <- tile_op2 oadd (snd p) d (snd s) ;; Ok (fst s, h')
      else
        r <- add_tile (fst p) s ;; h' <- tile_copy (snd p) (fst r) (snd (snd r)) ;; Ok (fst (snd r), h')) s.
  (** 705-721 [-=] with a tiled tensor. *)
  Definition tt_sub (u : tt) (s : tt * heap T) : res (tt * heap T) :=
    if negb (same_layout (fst s) u) then Throw
    else forM (tt_tiles u) (fun p s =>
      if has_tile_c (fst s) (fst p) then
        d <- const_tile (fst s) (fst p) ;; h' <- tile_op2 osub (snd p) d (snd s) ;; Ok (fst s, h')
      else
        r <- add_tile (fst p) s ;; h1 <- tile_copy (snd p) (fst r) (snd (snd r)) ;;
        h' <- tile_op omul (oopp o1) (fst r) h1 ;; Ok (fst (snd r), h')) s.

  (** 573-588 assignment; [u] is the right-hand side: the tensor itself
      ([None], self-assignment: [zero] has emptied it) or another one. *)
  Definition tt_assign (u : option tt) (s : tt * heap T) : res (tt * heap T) :=
    let s0 := tt_zero s in
    let u' := match u with Some u => u | None => fst s0 end in
    forM (tt_tiles u') (fun p s => r <- add_tile (fst p) s ;; h' <- tile_copy (snd p) (fst r) (snd (snd r)) ;;
                                   Ok (fst (snd r), h'))
      (mkTT (tt_sizes u') (tt_offsets u') (tt_dims u') [], snd s0).

  (** 873-884: conversion to a dense tensor at the fresh address [base]. *)
  Definition tt_to_dense (base : Z) (t : tt) (h : heap T) : res (desc * heap T) :=
    let d := tensor_ctor base (tt_dims t) in
    h0 <- set_all base (data_size (tt_dims t)) o0 (alloc_buffer o0 base (data_size (tt_dims t)) h) ;;
    h' <- forM (indices (tt_dims t)) (fun idx h => v <- tt_read t idx h ;; wr h (subscript d idx) v) h0 ;;
    Ok (d, h').

  (** TLA 14-48 [dot].  The strides are stored in reversed places (line 26). *)
  Definition dot_strides (grid : list Z) : list Z := rev (stride_scan 1 grid).
  Definition present (A B : tt) (c : list Z) : bool :=
    has_tile_c A c && has_tile_c B c && negb (has_zero_size A c) && negb (has_zero_size B c).
  Definition dot_tile (A B : tt) (h : heap T) (c : list Z) : res T :=
    if present A B c then
      a <- const_tile A c ;; b <- const_tile B c ;; la_dot true true a b h
    else Ok o0.
  (** [order]: the order in which the iterations are added up; the private sums
      of an OpenMP reduction are a re-association of it. *)
  Definition tt_dot (A B : tt) (order : list Z) (h : heap T) : res T :=
    if negb (if list_eq_dec Z.eq_dec (grid A) (grid B) then true else false) then Throw
    else forM order (fun i out => v <- dot_tile A B h (sentinel_to_indices i (dot_strides (grid A))) ;; Ok (oadd out v)) o0.
  (** TLA 52-86 [true_dot], real elements: line 76 takes the remainder by the grid
      size instead of the stride. *)
  Fixpoint true_dot_decode (strides grid : list Z) (n : Z) : list Z :=
    match strides, grid with
    | s :: ss, g :: gs => n / s :: true_dot_decode ss gs (n mod g)
    | _, _ => []
    end.
  Definition tt_true_dot (A B : tt) (order : list Z) (h : heap T) : res T :=
    if negb (if list_eq_dec Z.eq_dec (grid A) (grid B) then true else false) then Throw
    else forM order (fun i out =>
           v <- dot_tile A B h (true_dot_decode (dot_strides (grid A)) (grid A) i) ;; Ok (oadd out v)) o0.

  (** TLA 94-185 [gemm].  Coordinates of the tiles of op(A), op(B). *)
  Definition op_coords (trans : bool) (i k : Z) : list Z := if trans then [k; i] else [i; k].
  Definition op_sizes (trans : bool) (t : tt) (axis : nat) : list Z :=
    nth (if trans then (1 - axis)%nat else axis) (tt_sizes t) [].
  Definition gemm_present (TA TB : bool) (A B : tt) (i j k : Z) : bool :=
    has_tile A (op_coords TA i k) && has_tile B (op_coords TB k j) &&
    negb (has_zero_size A (op_coords TA i k)) && negb (has_zero_size B (op_coords TB k j)).
  Definition list_eqb (l m : list Z) : bool := if list_eq_dec Z.eq_dec l m then true else false.
  Definition gemm_tile (TA TB : bool) (alpha : T) (A B : tt) (beta : T) (zs : Z) (ij : list Z) (s : tt * heap T)
      : res (tt * heap T) :=
    let i := nth 0 ij 0 in let j := nth 1 ij 0 in
    if has_zero_size (fst s) [i; j] then Ok s
    else if existsb (gemm_present TA TB A B i j) (zrange zs) then
      let created := negb (has_tile (fst s) [i; j]) in
      r <- tile [i; j] s ;;
      h1 <- (if oeqb beta o0 || created then tile_fill o0 (fst r) (snd (snd r))
             else tile_op omul beta (fst r) (snd (snd r))) ;;
      h2 <- forM (zrange zs) (fun k h =>
              if gemm_present TA TB A B i j k then
                a <- const_tile A (op_coords TA i k) ;; b <- const_tile B (op_coords TB k j) ;;
                la_gemm TA TB alpha a b o1 (fst r) h
              else Ok h) h1 ;;
      Ok (fst (snd r), h2)
    else if has_tile (fst s) [i; j] then
      d <- const_tile (fst s) [i; j] ;;
      h1 <- (if oeqb beta o0 then tile_fill o0 d (snd s) else tile_op omul beta d (snd s)) ;;
      Ok (fst s, h1)
    else Ok s.
  (** [order]: any order of the positions of the grid of C (collapsed parallel
      loops over positions with disjoint memory; the lock makes tile creation atomic). *)
  Definition tt_gemm (TA TB : bool) (alpha : T) (A B : tt) (beta : T) (order : list (list Z)) (s : tt * heap T)
      : res (tt * heap T) :=
    if negb (list_eqb (nth 0 (tt_sizes (fst s)) []) (op_sizes TA A 0)) then Throw
    else if negb (list_eqb (nth 1 (tt_sizes (fst s)) []) (op_sizes TB B 1)) then Throw
    else if negb (list_eqb (op_sizes TA A 1) (op_sizes TB B 0)) then Throw
    else forM order (gemm_tile TA TB alpha A B beta (Z.of_nat (length (op_sizes TA A 1)))) s.

  (** TLA 350-356 [scale]: BLAS scaling of every tile. *)
  Definition tt_la_scale (alpha : T) (s : tt * heap T) : res (tt * heap T) := for_tiles (la_scale alpha) s.
End Tiled.
