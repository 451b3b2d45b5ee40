(** * M_Blas: BLAS level 1-3 and the wrappers around it.  Model definitions only.

    The Fortran routines are external: [f*] below give the reference BLAS
    semantics on column-major memory (trusted).  The [v*] definitions model
    /repo/src/backends/linear_algebra/vendor/Vendor.cpp, the [la_*] ones
    /repo/src/include/einsums/linear_algebra_imp/BaseLinearAlgebra.hpp.
    [blas_int] is taken wide enough for all extents. *)
From Coq Require Import List ZArith Lia Bool.
From Verif Require Import Base Heap Conc M_Addr M_Einsum.
Import ListNotations.
Open Scope Z_scope.

Section Blas.
  Context {O : Ops}.
  Notation T := (car O).

  Definition exec (p : prog T unit) (h : heap T) : res (heap T) :=
    r <- run p h ;; Ok (snd r).

  (** Sum of products of the cells [x l] and [y l], [l < k]. *)
  Definition psum (k : Z) (x y : Z -> Z) : prog T T :=
    pfold (zrange k) (fun s l => PRd (x l) (fun u => PRd (y l) (fun v => PRet (oadd s (omul u v))))) o0.

  (** ** Reference BLAS *)

  (** Element (i, l) of op(A), column-major with leading dimension [ld]. *)
  Definition fop (trans : bool) (a ld i l : Z) : Z := if trans then a + l + i * ld else a + i + l * ld.

  Definition fgemm_body (ta tb : bool) (k : Z) (alpha : T) (a lda b ldb : Z) (beta : T) (c ldc : Z)
      (ij : list Z) : prog T unit :=
    match ij with
    | [j; i] =>
        pbind (if oeqb alpha o0 then PRet o0 else psum k (fop ta a lda i) (fun l => fop tb b ldb l j))
          (fun s => if oeqb beta o0 then PWr (c + i + j * ldc) (omul alpha s) (PRet tt)
                    else PRd (c + i + j * ldc)
                           (fun v => PWr (c + i + j * ldc) (oadd (omul alpha s) (omul beta v)) (PRet tt)))
    | _ => PRet tt
    end.
  (** xGEMM; an illegal argument calls XERBLA, modelled as [Throw]. *)
  Definition fgemm (ta tb : bool) (m n k : Z) (alpha : T) (a lda b ldb : Z) (beta : T) (c ldc : Z)
      (h : heap T) : res (heap T) :=
    if (m <? 0) || (n <? 0) || (k <? 0) || (lda <? Z.max 1 (if ta then k else m))
       || (ldb <? Z.max 1 (if tb then n else k)) || (ldc <? Z.max 1 m) then Throw
    else exec (pseq (indices [n; m]) (fgemm_body ta tb k alpha a lda b ldb beta c ldc)) h.

  (** Position of element [i] of a vector of length [len] with increment [inc]. *)
  Definition fvec (x len inc i : Z) : Z := if 0 <? inc then x + i * inc else x + (i - (len - 1)) * inc.

  Definition fgemv_body (trans : bool) (m n : Z) (alpha : T) (a lda x incx : Z) (beta : T) (y incy : Z)
      (i : Z) : prog T unit :=
    let lenx := if trans then m else n in
    let leny := if trans then n else m in
    pbind (if oeqb alpha o0 then PRet o0 else psum lenx (fop trans a lda i) (fvec x lenx incx))
      (fun s => if oeqb beta o0 then PWr (fvec y leny incy i) (omul alpha s) (PRet tt)
                else PRd (fvec y leny incy i)
                       (fun v => PWr (fvec y leny incy i) (oadd (omul alpha s) (omul beta v)) (PRet tt))).
  (** xGEMV. *)
  Definition fgemv (trans : bool) (m n : Z) (alpha : T) (a lda x incx : Z) (beta : T) (y incy : Z)
      (h : heap T) : res (heap T) :=
    if (m <? 0) || (n <? 0) || (lda <? Z.max 1 m) || (incx =? 0) || (incy =? 0) then Throw
    else if (m =? 0) || (n =? 0) then Ok h
    else exec (pseq (zrange (if trans then n else m)) (fgemv_body trans m n alpha a lda x incx beta y incy)) h.

  Definition fger_body (m n : Z) (alpha : T) (x incx y incy a lda : Z) (ij : list Z) : prog T unit :=
    match ij with
    | [j; i] =>
        PRd (fvec x m incx i) (fun xv => PRd (fvec y n incy j) (fun yv => PRd (a + i + j * lda)
          (fun v => PWr (a + i + j * lda) (oadd v (omul xv (omul alpha yv))) (PRet tt))))
    | _ => PRet tt
    end.
  (** xGER / xGERU. *)
  Definition fger (m n : Z) (alpha : T) (x incx y incy a lda : Z) (h : heap T) : res (heap T) :=
    if (m <? 0) || (n <? 0) || (incx =? 0) || (incy =? 0) || (lda <? Z.max 1 m) then Throw
    else if oeqb alpha o0 then Ok h
    else exec (pseq (indices [n; m]) (fger_body m n alpha x incx y incy a lda)) h.

  (** xSCAL. *)
  Definition fscal (n : Z) (alpha : T) (x incx : Z) (h : heap T) : res (heap T) :=
    if (n <=? 0) || (incx <=? 0) then Ok h
    else exec (pseq (zrange n) (fun i => PRd (x + i * incx)
                 (fun v => PWr (x + i * incx) (omul alpha v) (PRet tt)))) h.

  (** xAXPY. *)
  Definition faxpy (n : Z) (alpha : T) (x incx y incy : Z) (h : heap T) : res (heap T) :=
    if (n <=? 0) || oeqb alpha o0 then Ok h
    else exec (pseq (zrange n) (fun i => PRd (fvec x n incx i) (fun u => PRd (fvec y n incy i)
                 (fun v => PWr (fvec y n incy i) (oadd v (omul alpha u)) (PRet tt))))) h.

  (** xDOT / xDOTU. *)
  Definition fdot (n x incx y incy : Z) (h : heap T) : res T :=
    if n <=? 0 then Ok o0
    else r <- run (psum n (fvec x n incx) (fvec y n incy)) h ;; Ok (fst r).

  (** ** Vendor.cpp *)

  (** 200-234: row-major product by exchanging the operands; early return for
      an empty extent. *)
  Definition vgemm (ta tb : bool) (m n k : Z) (alpha : T) (a lda b ldb : Z) (beta : T) (c ldc : Z)
      (h : heap T) : res (heap T) :=
    if (m =? 0) || (n =? 0) || (k =? 0) then Ok h
    else fgemm tb ta n m k alpha b ldb a lda beta c ldc h.

  (** 236-298. *)
  Definition vgemv (ta : bool) (m n : Z) (alpha : T) (a lda x incx : Z) (beta : T) (y incy : Z)
      (h : heap T) : res (heap T) :=
    if (m =? 0) || (n =? 0) then Ok h
    else fgemv (negb ta) n m alpha a lda x incx beta y incy h.

  (** 503-550: parameter check, then the transposed call. *)
  Definition vger (m n : Z) (alpha : T) (x incx y incy a lda : Z) (h : heap T) : res (heap T) :=
    if (m <? 0) || (n <? 0) || (incx =? 0) || (incy =? 0) || (lda <? Z.max 1 n) then Throw
    else fger n m alpha y incy x incx a lda h.

  (** 476-500: scal then axpy. *)
  Definition vaxpby (n : Z) (alpha : T) (x incx : Z) (beta : T) (y incy : Z) (h : heap T) : res (heap T) :=
    h1 <- fscal n beta y incy h ;; faxpy n alpha x incx y incy h1.

  (** ** BaseLinearAlgebra.hpp *)

  (** 19-31 *)
  Definition la_gemm (TransA TransB : bool) (alpha : T) (A B : desc) (beta : T) (C : desc)
      (h : heap T) : res (heap T) :=
    let m := tdim C 0 in let n := tdim C 1 in
    let k := if TransA then tdim A 0 else tdim A 1 in
    vgemm TransA TransB m n k alpha (dbase A) (tstride A 0) (dbase B) (tstride B 0) beta (dbase C) (tstride C 0) h.

  (** 33-50 *)
  Definition la_gemv (TransA : bool) (alpha : T) (A x : desc) (beta : T) (y : desc)
      (h : heap T) : res (heap T) :=
    vgemv TransA (tdim A 0) (tdim A 1) alpha (dbase A) (tstride A 0) (dbase x) (tstride x 0)
          beta (dbase y) (tstride y 0) h.

  (** 126-129 *)
  Definition la_scale (alpha : T) (A : desc) (h : heap T) : res (heap T) :=
    fscal (tdim A 0 * tstride A 0) alpha (dbase A) 1 h.

  (** 131-135: [A->data(row, 0)]; row numbers are [size_t], not wrapped. *)
  Definition la_scale_row (row : Z) (alpha : T) (A : desc) (h : heap T) : res (heap T) :=
    fscal (tdim A 1) alpha (addr A [row; 0]) (tstride A 1) h.
  (** 137-140 *)
  Definition la_scale_column (col : Z) (alpha : T) (A : desc) (h : heap T) : res (heap T) :=
    fscal (tdim A 0) alpha (addr A [0; col]) (tstride A 0) h.

  (** 142-152: rank 1. *)
  Definition la_dot1 (A B : desc) (h : heap T) : res T :=
    fdot (tdim A 0) (dbase A) (tstride A 0) (dbase B) (tstride B 0) h.

  (** 154-191: rank other than 1; [fA fB] = [full_view_of_underlying()].
      179-181 compute the row-major strides of A's extents. *)
  Definition la_dotn (fA fB : bool) (A B : desc) (h : heap T) : res T :=
    if fA && fB then
      let n := fold_left Z.mul (ddims A) 1 in
      vA <- view_ctor A [n] None None ;;
      vB <- view_ctor B [n] None None ;;
      la_dot1 vA vB h
    else
      let strides := row_major_strides (ddims A) in
      let total := match strides, ddims A with s :: _, d :: _ => s * d | _, _ => 0 end in
      r <- run (pfold (zrange total)
                  (fun s sen => let idx := sentinel_to_indices sen strides in
                     PRd (subscript A idx) (fun u => PRd (subscript B idx) (fun v =>
                       PRet (oadd s (omul u v))))) o0) h ;;
      Ok (fst r).
  Definition la_dot (fA fB : bool) (A B : desc) (h : heap T) : res T :=
    if Nat.eqb (length (ddims A)) 1 then la_dot1 A B h else la_dotn fA fB A B h.

  (** [#pragma omp parallel for reduction(+ : result)]: every thread sums its
      share from zero; the partial sums are added to the initial value.
      [threads]: the iterations each thread gets, in the order the partial
      sums are combined. *)
  Definition omp_sum {X} (f : X -> prog T T) (threads : list (list X)) : prog T T :=
    pfold threads (fun tot share =>
      pbind (pfold share (fun s i => pbind (f i) (fun v => PRet (oadd s v))) o0)
            (fun s => PRet (oadd tot s))) o0.

  (** 247-268: three operands, rank-1 views of each over the product of A's
      extents; [sched n] distributes the iterations 0..n-1. *)
  Definition la_dot3 (sched : Z -> list (list Z)) (A B C : desc) (h : heap T) : res T :=
    let n := fold_left Z.mul (ddims A) 1 in
    vA <- view_ctor A [n] None None ;;
    vB <- view_ctor B [n] None None ;;
    vC <- view_ctor C [n] None None ;;
    r <- run (omp_sum (fun i => PRd (subscript vA [i]) (fun u => PRd (subscript vB [i]) (fun v =>
                PRd (subscript vC [i]) (fun w => PRet (omul (omul u v) w))))) (sched n)) h ;;
    Ok (fst r).

  (** 270-274 *)
  Definition la_axpy (alpha : T) (X Y : desc) (h : heap T) : res (heap T) :=
    faxpy (tdim X 0 * tstride X 0) alpha (dbase X) 1 (dbase Y) 1 h.
  (** 276-280 *)
  Definition la_axpby (alpha : T) (X : desc) (beta : T) (Y : desc) (h : heap T) : res (heap T) :=
    vaxpby (tdim X 0 * tstride X 0) alpha (dbase X) 1 beta (dbase Y) 1 h.

  (** 282-290 *)
  Definition la_ger (alpha : T) (X Y A : desc) (h : heap T) : res (heap T) :=
    vger (tdim X 0) (tdim Y 0) alpha (dbase X) (tstride X 0) (dbase Y) (tstride Y 0) (dbase A) (tstride A 0) h.

  (** 292-327: [tmp] is the address of the temporary; the result is zeroed
      first by the parallel fill of Tensor.hpp 1157-1168 (or [set_all]), here
      a sequential fill.  The temporary is allocated zero-initialised and left
      in the final memory. *)
  Definition la_symm_gemm (TransA TransB : bool) (A B C : desc) (tmp : Z) (h : heap T) : res (heap T) :=
    let rows := if TransA then tdim A 1 else tdim A 0 in
    let cols := if TransB then tdim B 0 else tdim B 1 in
    h1 <- exec (pseq (indices (ddims C)) (fun idx => PWr (subscript C idx) o0 (PRet tt))) h ;;
    let temp := tensor_ctor tmp [rows; cols] in
    let h2 := alloc_buffer o0 tmp (data_size [rows; cols]) h1 in
    h3 <- la_gemm TransA TransB o1 A B o0 temp h2 ;;
    la_gemm (negb TransB) false o1 B temp o0 C h3.

  (** 329-353: throws (abort) on different extents; [C->zero()] when beta is
      zero; then the parallel loop, one body per multi-index. *)
  Definition dp_body (alpha : T) (A B : desc) (beta : T) (C : desc) (idx : list Z) : prog T unit :=
    PRd (subscript A idx) (fun u => PRd (subscript B idx) (fun v => PRd (subscript C idx) (fun w =>
      PWr (subscript C idx) (oadd (omul beta w) (omul alpha (omul u v))) (PRet tt)))).
  Definition la_direct_product (alpha : T) (A B : desc) (beta : T) (C : desc) (h : heap T)
      : res (heap T * (list Z -> prog T unit)) :=
    if list_eq_dec Z.eq_dec (ddims C) (ddims A) then
      if list_eq_dec Z.eq_dec (ddims C) (ddims B) then
        h1 <- (if oeqb beta o0
               then forM (zrange (zprod (ddims C))) (fun i h => wr h (dbase C + i) o0) h
               else Ok h) ;;
        Ok (h1, dp_body alpha A B beta C)
      else Throw
    else Throw.

  (** ** Determinant: LinearAlgebra.hpp 1017-1066 *)

  (** 1041-1048: the [while] loop for row [i], bounded by [fuel] ([None]: still
      running); [pivots.at] throws outside the vector.  A skipped chain
      contributes nothing to the parity. *)
  Fixpoint det_chain (fuel : nat) (pivots : list Z) (i curr temp_parity : Z) : option (res Z) :=
    match fuel with
    | 0%nat => None
    | S f => if curr =? i + 1 then Some (Ok temp_parity)
             else if curr <? i + 1 then Some (Ok 0)
             else match nth_error pivots (Z.to_nat (curr - 1)) with
                  | Some c => det_chain f pivots i c (temp_parity + 1)
                  | None => Some Throw
                  end
    end.
  (** 1035-1053: the loop over the rows [is]. *)
  Fixpoint det_parity (fuel : nat) (pivots is : list Z) (parity : Z) : option (res Z) :=
    match is with
    | [] => Some (Ok parity)
    | i :: r => match nth_error pivots (Z.to_nat i) with
                | None => Some Throw
                | Some curr => match det_chain fuel pivots i curr 0 with
                               | Some (Ok p) => det_parity fuel pivots r (parity + p)
                               | x => x
                               end
                end
    end.
  (** The whole function; [info] and [pivots] are what LAPACK's getrf returned
      for the copy of A (its factors are not used by the code). *)
  Definition la_det (fuel : nat) (info : Z) (pivots : list Z) (A : desc) (h : heap T) : option (res T) :=
    if negb (tdim A 0 =? tdim A 1) then Some Throw
    else if 0 <? info then Some (Ok o0)
    else match det_parity fuel pivots (zrange (tdim A 0)) 0 with
         | None => None
         | Some UB => Some UB
         | Some Throw => Some Throw
         | Some (Ok parity) =>
             Some (r <- run (pfold (zrange (tdim A 0))
                               (fun ret i => PRd (subscript A [i; i]) (fun v => PRet (omul ret v))) o1) h ;;
                   Ok (if parity mod 2 =? 1 then omul (fst r) (oopp o1) else fst r))
         end.
End Blas.
