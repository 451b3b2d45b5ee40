(** * M_BlockLapack: LAPACK drivers on block-diagonal matrices.  Model
    definitions only.

    Files: /repo/src/include/einsums/linear_algebra_imp/BlockLinearAlgebra.hpp
    (BLA), LinearAlgebra.hpp (LA).  As in M_Block the parallel loops over the
    blocks run the calls one after the other in an arbitrary order [order];
    where the loop bodies share a variable ([gesv]) that variable is modelled
    with interleaved accesses.  Not modelled because no call compiles: [gemv]
    (BLA 62-83 uses an undeclared [x]), [geev] (BLA 101-115 passes block tensors
    where tensors are expected), the three-operand [dot] (BLA 243-267 lacks
    [typename]). *)
From Coq Require Import List ZArith Lia Bool.
From Verif Require Import Base Heap Conc M_Addr M_Elt M_Einsum M_Blas M_Block M_Lapack.
Import ListNotations.
Open Scope Z_scope.

Section BlockLapack.
  Context {O : Ops}.
  Notation T := (car O).

  (** BLA 85-99 [syev]: block [i] and the part of [W] given by its range. *)
  Definition bt_syev (L : lapack) (A : bt) (W : desc) (order : list nat) (h : heap T) : res (heap T) :=
    forM order (fun i h =>
      match nth_error (bt_blocks A) i with
      | Some a => if tdim a 0 =? 0 then Ok h
                  else let '(lo, hi) := nth i (bt_ranges A) (0, 0) in
                       la_syev L a (slice W [SRange lo hi]) h
      | None => Throw end) h.

  (** LA 572-576 [invert]: every block, also the empty ones. *)
  Definition bt_invert (L : lapack) (A : bt) (order : list nat) (h : heap T) : res (heap T) :=
    forM order (fun i h =>
      match nth_error (bt_blocks A) i with
      | Some a => la_invert L a h
      | None => Throw end) h.

  (** BLA 140-161 [gesv]: the calls, and the value of [info] each of them
      returned (in the order of the calls; none for an empty block). *)
  Definition bt_gesv_calls (L : lapack) (A B : bt) (order : list nat) (h : heap T) : res (list Z * heap T) :=
    if negb (Nat.eqb (length (bt_blocks A)) (length (bt_blocks B))) then Throw
    else forM order (fun i s =>
      match nth_error (bt_blocks A) i, nth_error (bt_blocks B) i with
      | Some a, Some b => if tdim a 0 =? 0 then Ok s
                          else r <- la_gesv L a b (snd s) ;; Ok (fst s ++ [fst r], snd r)
      | _, _ => Throw end) ([], h).
  (** BLA 153 [info_out |= info]: [info_out] is shared by the threads (it is
      declared before the parallel loop and there is no reduction clause).  One
      program per thread; a thread executes the statement for its blocks in turn.
      [info_out] is the cell 0. *)
  Definition or_body (info : Z) : prog Z unit := PRd 0 (fun v => PWr 0 (Z.lor v info) (PRet tt)).
  Definition or_threads (infos : list (list Z)) : list (prog Z unit) := map (fun l => pseq l or_body) infos.
  (** With one thread the returned value is the bitwise or of all results. *)
  Definition bt_gesv (L : lapack) (A B : bt) (order : list nat) (h : heap T) : res (Z * heap T) :=
    r <- bt_gesv_calls L A B order h ;; Ok (fold_left Z.lor (fst r) 0, snd r).

  (** BLA 324-340 [pow]: the result has blocks of the same extents at [outs];
      the temporaries of block [i] are placed from [tmps i] on.  The assignment
      [out[i] = ...] finds equal extents and copies the elements. *)
  Definition bt_pow (L : lapack) (F : fops) (a : bt) (alpha cutoff : T) (outs : list Z) (zero : Z)
      (tmps : nat -> Z) (order : list nat) (h : heap T) : res (bt * heap T) :=
    let out := bt_ctor 2 zero outs (map (fun b => tdim b 0) (bt_blocks a)) in
    let h0 := fold_left (fun h d => alloc_buffer o0 (dbase d) (data_size (ddims d)) h) (bt_blocks out) h in
    h1 <- forM order (fun i h =>
      match nth_error (bt_blocks a) i, nth_error (bt_blocks out) i with
      | Some x, Some o => if tdim x 0 =? 0 then Ok h
                          else r <- la_pow L F x alpha cutoff (tmps i) h ;; assign_from_view o (fst r) (snd r)
      | _, _ => Throw end) h0 ;;
    Ok (out, h1).
End BlockLapack.
