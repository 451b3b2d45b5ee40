(** * M_Trunc: [truncated_svd], [truncated_syev] and [heev].

    LA  = src/include/einsums/LinearAlgebra.hpp,
    BLA = src/include/einsums/linear_algebra_imp/BaseLinearAlgebra.hpp.

    Every local tensor gets its own buffer behind [base], in the order of the
    declarations.  The random matrix [omega] has arbitrary contents: [om k] is
    the element at offset [k] of its buffer (create_random_tensor,
    src/include/einsums/Utilities.hpp: the generator is not modelled). *)
From Coq Require Import List ZArith Lia Bool.
From Verif Require Import Base Heap Conc M_Addr M_Elt M_Einsum M_Blas M_Lapack.
Import ListNotations.
Open Scope Z_scope.

Section Trunc.
  Context {O : Ops}.
  Notation T := (car O).

  (** A buffer of [n] elements with given contents. *)
  Definition alloc_with (om : Z -> T) (base n : Z) (h : heap T) : heap T :=
    fun z => if (base <=? z) && (z <? base + n) then Some (om (z - base)) else h z.

  (** LA 805-821 and 847-861: omega, Y = A omega and the first [k + 5] columns
      of its QR factorisation, left in Y.  The results of [geqrf] and [orgqr] /
      [ungqr] (Vendor.cpp 1029-1111, the same control flow) are dropped. *)
  Definition la_range (L : lapack) (A : desc) (p : Z) (om : Z -> T) (base : Z) (h : heap T)
      : res (desc * heap T) :=
    let m := tdim A 0 in let n := tdim A 1 in
    let py := base + n * p in let pt := py + m * p in
    let omega := tensor_ctor base [n; p] in
    let Y := tensor_ctor py [m; p] in
    let h1 := alloc_buffer o0 py (m * p) (alloc_with om base (n * p) h) in
    h2 <- la_gemm false false o1 A omega o0 Y h1 ;;
    let h3 := alloc_buffer o0 pt (Z.min m p) h2 in
    r1 <- vgeqrf L m p (dbase Y) p pt h3 ;;
    r2 <- vorgqr L m p (Z.min m p) (dbase Y) p pt (snd r1) ;;
    Ok (Y, snd r2).

  (** LA 794-833. *)
  Definition la_truncated_svd (L : lapack) (A : desc) (k : Z) (om : Z -> T) (base : Z) (h : heap T)
      : res (desc * desc * desc * heap T) :=
    let m := tdim A 0 in let n := tdim A 1 in let p := k + 5 in
    let pb := base + n * p + m * p + Z.min m p in
    let ps := pb + p * n in
    let pu := ps + (p * n + p * p + Z.min p n + n * n) in
    y <- la_range L A p om base h ;;
    let '(Y, h1) := y in
    let B := tensor_ctor pb [p; n] in
    h2 <- la_gemm true false o1 Y A o0 B (alloc_buffer o0 pb (p * n) h1) ;;
    r <- la_svd_dd L B ps h2 ;;
    let '(Ut, Sg, Vt, h3) := r in
    let U := tensor_ctor pu [m; p] in
    h4 <- la_gemm false false o1 Y Ut o0 U (alloc_buffer o0 pu (m * p) h3) ;;
    Ok (U, Sg, Vt, h4).

  (** LA 835-880; println_abort ends the process: [Throw]. *)
  Definition la_truncated_syev (L : lapack) (A : desc) (k : Z) (om : Z -> T) (base : Z) (h : heap T)
      : res (desc * desc * heap T) :=
    let n := tdim A 0 in let p := k + 5 in
    if negb (tdim A 0 =? tdim A 1) then Throw
    else
      let pb := base + n * p + n * p + Z.min n p in
      let pc := pb + p * n in let pw := pc + p * p in let pu := pw + p in
      y <- la_range L A p om base h ;;
      let '(Q, h1) := y in
      let Bt := tensor_ctor pb [p; n] in let B := tensor_ctor pc [p; p] in
      let w := tensor_ctor pw [p] in let U := tensor_ctor pu [n; p] in
      h2 <- la_gemm true false o1 Q A o0 Bt (alloc_buffer o0 pb (p * n) h1) ;;
      h3 <- la_gemm false false o1 Bt Q o0 B (alloc_buffer o0 pc (p * p) h2) ;;
      h4 <- la_syev L B w (alloc_buffer o0 pw p h3) ;;
      h5 <- la_gemm false true o1 Q B o0 U (alloc_buffer o0 pu (n * p) h4) ;;
      Ok (U, w, h5).

  (** BLA 88-105 [heev], the eigenvectors requested: the arguments are those of
      [syev] (uplo = 'u', the leading extent is the first stride, Vendor.cpp
      316-331); [x_syev] stands for xHEEV here.  The real vector W shares the
      element type of A: an entry of W is a number equal to its conjugate. *)
  Definition la_heev (L : lapack) (A W : desc) (h : heap T) : res (heap T) :=
    r <- vsyev L (tdim A 0) (dbase A) (tstride A 0) (dbase W) h ;; Ok (snd r).
End Trunc.
