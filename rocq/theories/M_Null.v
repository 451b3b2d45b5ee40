(** * M_Null: svd_nullspace (LinearAlgebra.hpp 697-751). *)
From Coq Require Import List ZArith Bool.
From Verif Require Import Base Heap Conc M_Addr M_Elt M_Einsum M_Blas M_Lapack.
Import ListNotations.
Open Scope Z_scope.

Section Null.
  Context {O : Ops}.
  Notation T := (car O).

  (** Vendor.cpp 834-916, jobu = 'N', jobvt = 'A': U is not computed; the
      singular values and VT are those of [x_gesvd] (jobu does not change
      them). *)
  Definition vgesvd_n (L : lapack) (m n a lda s ldu vt ldvt superb : Z) (h : heap T) : res (Z * heap T) :=
    let lda_t := Z.max 1 m in let ldvt_t := Z.max 1 n in
    if lda <? n then Ok (-6, h)
    else if ldu <? 1 then Ok (-9, h)
    else if ldvt <? n then Ok (-11, h)
    else
      a_t <- xpose_row m n h a lda 0 lda_t (fresh_vec (lda_t * Z.max 1 n)) ;;
      A <- fread m n 0 lda_t a_t ;;
      let '(info, A', sv, _, VT, work) := x_gesvd L m n A in
      a_t' <- fwrite m n 0 lda_t A' a_t ;;
      h1 <- fvwrite (Z.min m n) s sv h ;;
      vt_t <- fwrite n n 0 ldvt_t VT (fresh_vec (ldvt_t * Z.max 1 n)) ;;
      if info <? 0 then Throw
      else
      h2 <- xpose_col m n a_t' 0 lda_t a lda h1 ;;
      h4 <- xpose_col n n vt_t 0 ldvt_t vt ldvt h2 ;;
      h5 <- forM (zrange (Z.min m n - 1)) (fun i h => wr h (superb + i) (work (i + 1))) h4 ;;
      Ok (0, h5).

  (** 738-748: one row of [nullspace] (741-746; std::pow(x, 2.0) is x times x). *)
  Definition null_row (sqrt : T -> T) (N : desc) (i : Z) (h : heap T) : res (heap T) :=
    sum <- forM (zrange (tdim N 1)) (fun j s => v <- rd h (addr N [i; j]) ;; Ok (oadd s (omul v v))) o0 ;;
    la_scale_row i (sqrt sum) N h.

  (** 697-751.  A, U, S (n elements), V, superb and the result are placed one
      after the other from [base].  [extra] is the number of elements behind
      [superb] that can be written without harm: 0 for the program; the other
      values are used to say what would be returned if the write behind
      [superb] went unnoticed.  A size [min(m, n) - 2] below 0 is more than
      [vector::max_size()] elements.  The loop counting the singular values
      above 1e-12 and the view [Vview] (728-736) have no effect on the result
      ([Vview] is not used) and are left out. *)
  Definition la_svd_nullspace (extra : Z) (sqrt : T -> T) (L : lapack) (A0 : desc) (base : Z) (h : heap T) : res (desc * heap T) :=
    let m := tdim A0 0 in let n := tdim A0 1 in
    c <- copy_from_view o0 base A0 h ;;
    let '(A, h1) := c in
    let u := base + m * n in let s := u + m * m in let v := s + n in
    let sb := v + n * n in let nb := sb + (Z.min m n - 2 + extra) in
    let V := tensor_ctor v [n; n] in
    h2 <- set_all u (m * m) o0 (alloc_buffer o0 u (m * m) h1) ;;
    h3 <- set_all s n o0 (alloc_buffer o0 s n h2) ;;
    h4 <- set_all v (n * n) o0 (alloc_buffer o0 v (n * n) h3) ;;
    if Z.min m n <? 2 then Throw
    else
      let h5 := alloc_buffer o0 sb (Z.min m n - 2 + extra) h4 in
      r <- vgesvd_n L m n (dbase A) (tstride A 0) s m v n sb h5 ;;
      if fst r =? 0 then
        c2 <- copy_from_view o0 nb V (snd r) ;;
        let '(N, h6) := c2 in
        h7 <- forM (zrange (tdim N 0)) (null_row sqrt N) h6 ;;
        Ok (N, h7)
      else Throw.
End Null.
