(** * M_TileConc: linear algebra with tiled matrices, the loops over tiles shared
    between threads.

    TLA = src/include/einsums/linear_algebra_imp/TiledLinearAlgebra.hpp. *)
From Coq Require Import List ZArith Lia Bool.
From Verif Require Import Base Heap M_Addr M_Elt M_Einsum M_Blas M_Block M_Tiled.
Import ListNotations.
Open Scope Z_scope.

Section TileConc.
  Context {O : Ops}.
  Notation T := (car O).
  Variable al : heap T -> Z -> option Z.

  (** ** TLA 120-184 [gemm]: one thread per tile of C.

      Where the thread of one position of the grid of C is: not started; past the
      first critical section, with the tile it got and whether it was missing
      (143-146); about to do inner tile [k] (153-172); finished. *)
  Inductive gphase := GStart | GInit (d : desc) (created : bool) | GMul (d : desc) (k : Z) | GDone.

  (** Phases of all positions, C and the memory. *)
  Definition gstate := ((list Z -> gphase) * (tt * heap T))%type.
  Definition set_phase (ph : list Z -> gphase) (ij : list Z) (p : gphase) : list Z -> gphase :=
    fun x => if list_eq_dec Z.eq_dec x ij then p else ph x.

  (** One step of the thread of position [ij].  A step is a critical section
      (143-146 or 174-181), the zeroing or scaling of the tile (147-151) or the
      product of one pair of inner tiles (153-172): the steps between which other
      threads can run.  Simplification: a step is atomic; outside the critical
      sections it writes only the thread's own tile. *)
  Definition gemm_step (TA TB : bool) (alpha : T) (A B : tt) (beta : T) (zs : Z) (ij : list Z) (s : gstate) : res gstate :=
    let i := nth 0 ij 0 in let j := nth 1 ij 0 in
    let ph := fst s in let t := fst (snd s) in let h := snd (snd s) in
    match ph ij with
    | GStart =>
        (* 124-126 *)
        if has_zero_size t [i; j] then Ok (set_phase ph ij GDone, (t, h))
        else if existsb (gemm_present TA TB A B i j) (zrange zs) then
          (* 143-146 *)
          let created := negb (has_tile t [i; j]) in
          r <- tile al [i; j] (t, h) ;;
          Ok (set_phase ph ij (GInit (fst r) created), snd r)
        else if has_tile t [i; j] then
          (* 174-181 *)
          d <- const_tile t [i; j] ;;
          h1 <- (if oeqb beta o0 then tile_fill o0 d h else tile_op omul beta d h) ;;
          Ok (set_phase ph ij GDone, (t, h1))
        else Ok (set_phase ph ij GDone, (t, h))
    | GInit d created =>
        (* 147-151 *)
        h1 <- (if oeqb beta o0 || created then tile_fill o0 d h else tile_op omul beta d h) ;;
        Ok (set_phase ph ij (GMul d 0), (t, h1))
    | GMul d k =>
        (* 153-172 *)
        if k <? zs then
          h1 <- (if gemm_present TA TB A B i j k then
                   a <- const_tile A (op_coords TA i k) ;; b <- const_tile B (op_coords TB k j) ;;
                   la_gemm TA TB alpha a b o1 d h
                 else Ok h) ;;
          Ok (set_phase ph ij (GMul d (k + 1)), (t, h1))
        else Ok (set_phase ph ij GDone, (t, h))
    | GDone => Ok s
    end.

  (** TLA 94-184; [sched]: the position whose thread makes each step. *)
  Definition gemm_run (TA TB : bool) (alpha : T) (A B : tt) (beta : T) (sched : list (list Z)) (s : tt * heap T) : res gstate :=
    if negb (list_eqb (nth 0 (tt_sizes (fst s)) []) (op_sizes TA A 0)) then Throw
    else if negb (list_eqb (nth 1 (tt_sizes (fst s)) []) (op_sizes TB B 1)) then Throw
    else if negb (list_eqb (op_sizes TA A 1) (op_sizes TB B 0)) then Throw
    else forM sched (gemm_step TA TB alpha A B beta (Z.of_nat (length (op_sizes TA A 1)))) (fun _ => GStart, s).

  (** ** TLA 187-300 [gemv] with a tiled matrix and plain vectors (for tiled
      vectors the function does not compile: it calls a member [tile_sizes]
      that no tensor has).

      The window [Range{tile_offset[i], tile_offset[i] + tile_size[i]}] of a
      vector, for tile [i] of axis [axis] of A (248-249, 267-268, 282-283). *)
  Definition tile_window (A : tt) (axis : nat) (i : Z) (v : desc) : desc :=
    let lo := nth (Z.to_nat i) (nth axis (tt_offsets A) []) 0 in
    slice_ranges v [(lo, lo + tile_extent (nth axis (tt_sizes A) []) i)].

  (** 229-231 and the body of the inner loop of 250-297, for tile row [fst ij] and
      tile column [snd ij] of op(A). *)
  Definition gemv_step (TA : bool) (alpha : T) (A : tt) (x y : desc) (ij : Z * Z) (h : heap T) : res (heap T) :=
    let i := fst ij in let j := snd ij in
    if tile_extent (op_sizes TA A 0) i =? 0 then Ok h
    else if negb (has_tile A (op_coords TA i j)) || has_zero_size A (op_coords TA i j) then Ok h
    else
      a <- const_tile A (op_coords TA i j) ;;
      la_gemv TA alpha a (tile_window A (if TA then 0 else 1) j x) o1 (tile_window A (if TA then 1 else 0) i y) h.

  (** 220-300; y is a tensor ([zero] and [*=] run over its storage).  [order]: the
      order in which the threads do the products of tiles. *)
  Definition tt_gemv (TA : bool) (alpha : T) (A : tt) (x : desc) (beta : T) (y : desc) (order : list (Z * Z)) (h : heap T)
      : res (heap T) :=
    h1 <- (if oeqb beta o0 then tile_fill o0 y h else tile_op omul beta y h) ;;
    forM order (gemv_step TA alpha A x y) h1.
End TileConc.
