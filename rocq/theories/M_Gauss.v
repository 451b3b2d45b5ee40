(** * M_Gauss: Gauss-Laguerre quadrature.  Model definitions only.
    Lines refer to /repo/src/include/einsums/polynomial/Laguerre.hpp. *)
From Coq Require Import List ZArith Lia Bool.
From Verif Require Import Base Heap M_Addr M_Laguerre M_Infer M_Einsum M_Blas M_Lapack.
Import ListNotations.
Open Scope Z_scope.

Section Gauss.
  Context {O : Ops}.
  Notation T := (car O).

  Fixpoint mapM {A B} (f : A -> res B) (l : list A) : res (list B) :=
    match l with [] => Ok [] | a :: r => b <- f a ;; s <- mapM f r ;; Ok (b :: s) end.

  (** 169: [TensorView{c, Dim<1>{-1}, Offset<1>{1}}] of the rank-1 tensor [c]. *)
  Definition tail_view (c : list T) : res (list T) :=
    v <- view_infer (mkDesc 0 [Z.of_nat (length c)] [1]) (Some [1]) None ;;
    mapM (fun i => let z := addr v [i] in if z <? 0 then UB else vget c z) (zrange (tdim v 0)).

  (** 148-186 [gauss_laguerre].  The matrix and the eigenvalues live in memory
      at [base]; the other rank-1 tensors are locals (lists, as in M_Laguerre).
      [maxabs v] is [max(abs(v))] (ElementOperations.hpp); [invert] takes every
      element to its reciprocal (C53); [sum] adds all elements (here in order). *)
  Definition gauss_laguerre (L : lapack) (maxabs : list T -> T) (base : Z) (degree : nat) (h : heap T)
    : res (list T * list T * heap T) :=
    (* 153-158 *)
    c <- vset (repeat o0 (S degree)) (-1) o1 ;;
    mh <- companion base c h ;;
    let '(m, h1) := mh in
    let n := Z.of_nat degree in
    let X := tensor_ctor (base + n * n) [n] in
    let h2 := alloc_buffer o0 (base + n * n) n h1 in
    (* 160 *)
    h3 <- la_syev L m X h2 ;;
    x <- mapM (fun i => rd h3 (addr X [i])) (zrange n) ;;
    (* 163-167 *)
    dy <- value x c ;;
    dc <- derivative c 1 o1 ;;
    df <- value x dc ;;
    dy <- vop odiv dy df ;;
    x <- vop osub x dy ;;
    (* 169 *)
    c1 <- tail_view c ;;
    fm <- value x c1 ;;
    (* 175-181 *)
    let fm := vscal odiv fm (maxabs fm) in
    let df := vscal odiv df (maxabs df) in
    fm <- vop omul fm df ;;
    let w := map (fun v => odiv o1 v) fm in
    let w := vscal odiv w (fold_left oadd w o0) in
    Ok (x, w, h3).
End Gauss.
