(** * M_Sort: tensor permutation.  Model definitions only.
    File: /repo/src/include/einsums/Sort.hpp 44-111; the HPTT calls are in
    /repo/src/Sort.cpp 21-45. *)
From Coq Require Import List ZArith Lia Bool.
From Verif Require Import Base Heap Conc M_Addr M_Elt M_Einsum M_Blas M_Dispatch.
Import ListNotations.
Open Scope Z_scope.

Section Sort.
  Context {O : Ops}.
  Notation T := (car O).

  (** 71 [target_position_in_A]. *)
  Definition sort_positions (Ci Ai : list label) : list (label * nat) := find_type_with_position Ci Ai.

  (** 102 [construct_indices<AIndices...>] (_TensorAlgebraUtilities.hpp 142-167):
      value of label [l]: the entry of the combination at half the position of
      [l] in the flattened (label, position) tuple.  (A label that is not found
      is a compile error; here -1.) *)
  Definition sort_index (Ci Ai : list label) (it : list Z) (l : label) : Z :=
    match find_position l (map fst (sort_positions Ci Ai)) with
    | Some p => nth p it (-1)
    | None => -1
    end.

  (** 101-109: body of the parallel loop for the combination [it]. *)
  Definition sort_body (uc : T) (Ci : list label) (C : desc) (ua : T) (Ai : list label) (A : desc)
      (it : list Z) : prog T unit :=
    PRd (subscript A (map (sort_index Ci Ai it) Ai)) (fun av =>
    PRd (subscript C it) (fun v => PWr (subscript C it) (oadd (omul uc v) (omul ua av)) (PRet tt))).

  (** HPTT's documented semantics with [useRowMajor]: extent [i] of B is extent
      [perm[i]] of A and B(permuted index) = alpha*A(index) + beta*B(permuted
      index); both arrays contiguous.  The library itself is not modelled. *)
  Definition hptt (perm : list nat) (sizes : list Z) (alpha : T) (a : Z) (beta : T) (b : Z)
      (h : heap T) : res (heap T) :=
    let pick (ix : list Z) := map (fun p => nth p ix 0) perm in
    let dA := tensor_ctor a sizes in let dB := tensor_ctor b (pick sizes) in
    exec (pseq (indices sizes) (fun idx =>
      PRd (addr dA idx) (fun av => PRd (addr dB (pick idx)) (fun v =>
        PWr (addr dB (pick idx)) (oadd (omul alpha av) (omul beta v)) (PRet tt))))) h.

  (** 51-111.  [use_hptt]: built with HPTT and both arguments are [Tensor]s.
      The result is a memory and the parallel loop still to be run (empty for
      the library calls).  Simplification: the parallel fill of line 78 is
      sequential here (it is schedule-independent: [view_fill_spec] in L_Elt.v). *)
  Definition sort (use_hptt : bool) (uc : T) (Ci : list label) (C : desc) (ua : T) (Ai : list label) (A : desc)
      (h : heap T) : res (@plan O) :=
    h1 <- (if oeqb uc o0 then exec (pseq (indices (ddims C)) (fun idx => PWr (subscript C idx) o0 (PRet tt))) h
           else Ok h) ;;
    if use_hptt then
      h2 <- hptt (map snd (sort_positions Ci Ai)) (map to_int32 (ddims A)) ua (dbase A) uc (dbase C) h1 ;;
      Ok (done h2)
    else if same_indices Ai Ci then
      h2 <- la_axpby ua A uc C h1 ;; Ok (done h2)
    else Ok (h1, sort_body uc Ci C ua Ai A, indices (map to_int32 (ddims C))).
End Sort.
