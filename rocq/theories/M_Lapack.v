(** * M_Lapack: the LAPACK drivers.  Model definitions only.

    [LinearAlgebra.hpp] and [linear_algebra_imp/BaseLinearAlgebra.hpp] are in
    /repo/src/include/einsums, [Vendor.cpp] and [Utilities.hpp] in
    /repo/src/backends/linear_algebra/vendor.

    The LAPACK routines themselves are external: the record [lapack] holds
    arbitrary functions for the numerical results; what is modelled is which
    memory they are handed and what the callers do with the results.  The
    specification (S_Lapack) says when such a function does what the LAPACK
    documentation promises.  An illegal argument calls XERBLA ([Throw]).
    Simplifications: [blas_int] is wide enough for all extents; the workspace
    queries and workspaces are left out; the [std::vector] temporaries of the
    wrappers are separate memories starting at address 0; the tensors a
    function allocates are placed one after the other from a given address. *)
From Coq Require Import List ZArith Lia Bool.
From Verif Require Import Base Heap Conc M_Addr M_Elt M_Einsum M_Blas.
Import ListNotations.
Open Scope Z_scope.

Section Lapack.
  Context {O : Ops}.
  Notation T := (car O).

  (** A matrix as LAPACK sees it (row, column) and a vector. *)
  Definition fmx := Z -> Z -> T.
  Definition fvx := Z -> T.

  (** The numerical part of the LAPACK routines declared at Vendor.cpp 60-190;
      the first component of every result is [info]. *)
  Record lapack := mkLapack {
    (** m, n, A: L and U factors in one matrix, pivots *)
    x_getrf : Z -> Z -> fmx -> Z * fmx * list Z;
    (** n, factors, pivots: inverse *)
    x_getri : Z -> fmx -> list Z -> Z * fmx;
    (** n, nrhs, A, B: factors, X *)
    x_gesv : Z -> Z -> fmx -> fmx -> Z * fmx * fmx;
    (** n, A (jobz = 'V', uplo = 'U'): eigenvectors, eigenvalues *)
    x_syev : Z -> fmx -> Z * fmx * fvx;
    (** m, n, A (jobz = 'A'): A on exit, S, U, VT *)
    x_gesdd : Z -> Z -> fmx -> Z * fmx * fvx * fmx * fmx;
    (** m, n, A (jobu = jobvt = 'A'): A on exit, S, U, VT, WORK(2..) *)
    x_gesvd : Z -> Z -> fmx -> Z * fmx * fvx * fmx * fmx * fvx;
    (** m, n, A: A on exit, tau *)
    x_geqrf : Z -> Z -> fmx -> Z * fmx * fvx;
    (** m, n, k, A, tau: Q *)
    x_orgqr : Z -> Z -> Z -> fmx -> fvx -> Z * fmx;
    (** n, A (jobvs = 'V', sort = 'N'): Schur form, real and imaginary parts, VS *)
    x_gees : Z -> fmx -> Z * fmx * fvx * fvx * fmx;
    (** m, n, A, B, C (trana = tranb = 'N', isgn = 1): X, scale *)
    x_trsyl : Z -> Z -> fmx -> fmx -> fmx -> Z * fmx * T;
    (** n, A (jobvl = jobvr = 'V'): A on exit, W, VL, VR *)
    x_geev : Z -> fmx -> Z * fmx * fvx * fmx * fmx
  }.

  (** ** Column-major memory access of the Fortran routines *)

  (** Fortran array A(1:m, 1:n) with leading dimension [ld] at [a]. *)
  Definition farr (a m n ld : Z) : desc := mkDesc a [m; n] [1; ld].
  (** Read of the whole array; [UB] when a cell is not allocated.  The values
      outside the array are never used (zero). *)
  Definition fread (m n a ld : Z) (h : heap T) : res fmx :=
    if forallb (fun ij => match h (addr (farr a m n ld) ij) with Some _ => true | None => false end)
         (indices [m; n])
    then Ok (fun i j => if (0 <=? i) && (i <? m) && (0 <=? j) && (j <? n)
                        then match h (a + i + j * ld) with Some v => v | None => o0 end else o0)
    else UB.
  Definition fwrite (m n a ld : Z) (f : fmx) (h : heap T) : res (heap T) :=
    forM (indices [m; n]) (fun ij h => wr h (addr (farr a m n ld) ij) (f (nth 0 ij 0) (nth 1 ij 0))) h.
  (** Vectors: increment 1. *)
  Definition fvread (n x : Z) (h : heap T) : res fvx :=
    A <- fread n 1 x (Z.max 1 n) h ;; Ok (fun i => A i 0).
  Definition fvwrite (n x : Z) (f : fvx) (h : heap T) : res (heap T) :=
    fwrite n 1 x (Z.max 1 n) (fun i _ => f i) h.

  (** The routines called directly (no transposition). *)

  (** Vendor.cpp 552-582 *)
  Definition vgetrf (L : lapack) (m n a lda : Z) (h : heap T) : res (Z * list Z * heap T) :=
    if (m <? 0) || (n <? 0) || (lda <? Z.max 1 m) then Throw
    else A <- fread m n a lda h ;;
         let '(info, F, ipiv) := x_getrf L m n A in
         h1 <- fwrite m n a lda F h ;; Ok (info, ipiv, h1).
  (** Vendor.cpp 584-622 *)
  Definition vgetri (L : lapack) (n a lda : Z) (ipiv : list Z) (h : heap T) : res (Z * heap T) :=
    if (n <? 0) || (lda <? Z.max 1 n) then Throw
    else A <- fread n n a lda h ;;
         let '(info, F) := x_getri L n A ipiv in
         h1 <- fwrite n n a lda F h ;; Ok (info, h1).
  (** Vendor.cpp 332-366 *)
  Definition vgesv (L : lapack) (n nrhs a lda b ldb : Z) (h : heap T) : res (Z * heap T) :=
    if (n <? 0) || (nrhs <? 0) || (lda <? Z.max 1 n) || (ldb <? Z.max 1 n) then Throw
    else A <- fread n n a lda h ;; B <- fread n nrhs b ldb h ;;
         let '(info, F, X) := x_gesv L n nrhs A B in
         h1 <- fwrite n n a lda F h ;; h2 <- fwrite n nrhs b ldb X h1 ;; Ok (info, h2).
  (** Vendor.cpp 300-314: uplo = 'U': only the upper triangle (row <= column)
      is referenced; the rest reaches LAPACK as zero here. *)
  Definition upper_part (A : fmx) : fmx := fun i j => if i <=? j then A i j else o0.
  Definition vsyev (L : lapack) (n a lda w : Z) (h : heap T) : res (Z * heap T) :=
    if (n <? 0) || (lda <? Z.max 1 n) then Throw
    else A <- fread n n a lda h ;;
         let '(info, V, W) := x_syev L n (upper_part A) in
         h1 <- fwrite n n a lda V h ;; h2 <- fvwrite n w W h1 ;; Ok (info, h2).

  (** ** LinearAlgebra.hpp *)

  (** 514-532: [getrf]; the pivot vector is resized and filled by LAPACK. *)
  Definition la_getrf (L : lapack) (A : desc) (h : heap T) : res (Z * list Z * heap T) :=
    r <- vgetrf L (tdim A 0) (tdim A 1) (dbase A) (tstride A 0) h ;;
    let '(result, pivot, h1) := r in
    if result <? 0 then Throw else Ok (result, pivot, h1).
  (** 546-557 *)
  Definition la_getri (L : lapack) (A : desc) (pivot : list Z) (h : heap T) : res (Z * heap T) :=
    vgetri L (tdim A 0) (dbase A) (tstride A 0) pivot h.
  (** 569-594, the non-block branch. *)
  Definition la_invert (L : lapack) (A : desc) (h : heap T) : res (heap T) :=
    r <- la_getrf L A h ;;
    let '(result, pivot, h1) := r in
    if 0 <? result then Throw
    else r2 <- la_getri L A pivot h1 ;;
         if 0 <? fst r2 then Throw else Ok (snd r2).

  (** BaseLinearAlgebra.hpp 107-124: both leading dimensions are extents. *)
  Definition la_gesv (L : lapack) (A B : desc) (h : heap T) : res (Z * heap T) :=
    vgesv L (tdim A 0) (tdim B 0) (dbase A) (tdim A 0) (dbase B) (tdim B 1) h.

  (** BaseLinearAlgebra.hpp 52-68: the result of [blas::syev] is dropped. *)
  Definition la_syev (L : lapack) (A W : desc) (h : heap T) : res (heap T) :=
    r <- vsyev L (tdim A 0) (dbase A) (tstride A 0) (dbase W) h ;; Ok (snd r).

  (** Floating-point operations used by [pow] and [norm]. *)
  Record fops := mkFops {
    f_abs : T -> T; f_lt : T -> T -> bool; f_pow : T -> T -> T; f_finite : T -> bool; f_sqrt : T -> T
  }.

  (** BaseLinearAlgebra.hpp 387-392: largest magnitude. *)
  Definition max_abs (F : fops) (n : Z) (e : desc) (h : heap T) : res T :=
    forM (zrange n) (fun i m => x <- tget h e [i] ;;
                                Ok (if f_lt F m (f_abs F x) then f_abs F x else m)) o0.
  (** 395-402: new value of [e(i)]. *)
  Definition pow_value (F : fops) (alpha cutoff max_e x : T) : T :=
    if f_lt F alpha o0 && f_lt F (f_abs F x) (omul cutoff max_e) then o0
    else if f_finite F (f_pow F x alpha) then f_pow F x alpha else o0.
  (** 355-408: [pow] for real element types ([hyev] of the complex branch is not
      declared anywhere).  The copies, the result and [e] are placed at
      [base], [base + n^2], [base + 2 n^2] and [base + 3 n^2]. *)
  Definition la_pow (L : lapack) (F : fops) (a : desc) (alpha cutoff : T) (base : Z) (h : heap T)
      : res (desc * heap T) :=
    let n := tdim a 0 in
    let sz := data_size (ddims a) in
    c1 <- copy_from_view o0 base a h ;;
    let '(a1, h1) := c1 in
    let result := tensor_ctor (base + sz) (ddims a) in
    let e := tensor_ctor (base + 3 * sz) [n] in
    h2 <- set_all (base + sz) sz o0
            (alloc_buffer o0 (base + 3 * sz) n (alloc_buffer o0 (base + sz) sz h1)) ;;
    h3 <- la_syev L a1 e h2 ;;
    c2 <- copy_from_view o0 (base + 2 * sz) a1 h3 ;;
    let '(a2, h4) := c2 in
    max_e <- max_abs F n e h4 ;;
    h5 <- forM (zrange n) (fun i h =>
            x <- tget h e [i] ;;
            h' <- tset h e [i] (pow_value F alpha cutoff max_e x) ;;
            la_scale_row i (pow_value F alpha cutoff max_e x) a2 h') h4 ;;
    h6 <- la_gemm true false o1 a2 a1 o0 result h5 ;;
    Ok (result, h6).

  (** LinearAlgebra.hpp 606-626: [Norm]. *)
  Inductive norm_type := MaxAbs | One | Infinity | Frobenius.
  Definition fmax (F : fops) (l : list T) : T :=
    fold_left (fun m x => if f_lt F m x then x else m) l o0.
  (** xLANGE (Vendor.cpp 624-646); the scaled sum of squares is a plain one. *)
  Definition vlange (F : fops) (ty : norm_type) (m n a lda : Z) (h : heap T) : res T :=
    if (m =? 0) || (n =? 0) then Ok o0
    else A <- fread m n a lda h ;;
      Ok match ty with
         | MaxAbs => fmax F (map (fun ij => f_abs F (A (nth 1 ij 0) (nth 0 ij 0))) (indices [n; m]))
         | One => fmax F (map (fun j => zsum m (fun i => f_abs F (A i j))) (zrange n))
         | Infinity => fmax F (map (fun i => zsum n (fun j => f_abs F (A i j))) (zrange m))
         | Frobenius => f_sqrt F (zsum n (fun j => zsum m (fun i => omul (f_abs F (A i j)) (f_abs F (A i j)))))
         end.
  (** 642-649 *)
  Definition la_norm (F : fops) (ty : norm_type) (a : desc) (h : heap T) : res T :=
    vlange F ty (tdim a 0) (tdim a 1) (dbase a) (tstride a 0) h.

  (** ** Wrappers that transpose *)

  (** Utilities.hpp 22-45: the loops, for given [x] and [y]; input and output
      may be different memories.  Row: x = m, y = n; Column: x = n, y = m. *)
  Definition xpose (x y : Z) (hin : heap T) (pin ldin pout ldout : Z) (hout : heap T) : res (heap T) :=
    forM (indices [Z.min y ldin; Z.min x ldout])
      (fun ij hout => let i := nth 0 ij 0 in let j := nth 1 ij 0 in
         v <- rd hin (pin + j * ldin + i) ;; wr hout (pout + i * ldout + j) v) hout.
  Definition xpose_row (m n : Z) := xpose m n.
  Definition xpose_col (m n : Z) := xpose n m.
  (** [std::vector<T> v(n)]. *)
  Definition fresh_vec (n : Z) : heap T := alloc_buffer o0 0 n (fun _ => None).

  (** Vendor.cpp 672-738, jobz = 'A'; a positive [info] is not reported. *)
  Definition vgesdd (L : lapack) (m n a lda s u ldu vt ldvt : Z) (h : heap T) : res (Z * heap T) :=
    let lda_t := Z.max 1 m in let ldu_t := Z.max 1 m in let ldvt_t := Z.max 1 n in
    if lda <? n then Ok (-5, h)
    else if ldu <? m then Ok (-8, h)
    else if ldvt <? n then Ok (-10, h)
    else
      a_t <- xpose_row m n h a lda 0 lda_t (fresh_vec (lda_t * Z.max 1 n)) ;;
      A <- fread m n 0 lda_t a_t ;;
      let '(info, A', sv, U, VT) := x_gesdd L m n A in
      a_t' <- fwrite m n 0 lda_t A' a_t ;;
      h1 <- fvwrite (Z.min m n) s sv h ;;
      u_t <- fwrite m m 0 ldu_t U (fresh_vec (ldu_t * Z.max 1 m)) ;;
      vt_t <- fwrite n n 0 ldvt_t VT (fresh_vec (ldvt_t * Z.max 1 n)) ;;
      h2 <- xpose_col m n a_t' 0 lda_t a lda h1 ;;
      h3 <- xpose_col m m u_t 0 ldu_t u ldu h2 ;;
      h4 <- xpose_col n n vt_t 0 ldvt_t vt ldvt h3 ;;
      Ok (0, h4).
  (** LinearAlgebra.hpp 756-792, job = All.  A, U, S, Vt are placed one after
      the other from [base]. *)
  Definition la_svd_dd (L : lapack) (A0 : desc) (base : Z) (h : heap T) : res (desc * desc * desc * heap T) :=
    let m := tdim A0 0 in let n := tdim A0 1 in
    c <- copy_from_view o0 base A0 h ;;
    let '(A, h1) := c in
    let u := base + m * n in let s := u + m * m in let v := s + Z.min m n in
    let U := tensor_ctor u [m; m] in let Sg := tensor_ctor s [Z.min m n] in let Vt := tensor_ctor v [n; n] in
    h2 <- set_all u (m * m) o0 (alloc_buffer o0 u (m * m) h1) ;;
    h3 <- set_all s (Z.min m n) o0 (alloc_buffer o0 s (Z.min m n) h2) ;;
    h4 <- set_all v (n * n) o0 (alloc_buffer o0 v (n * n) h3) ;;
    r <- vgesdd L m n (dbase A) n s u m v n h4 ;;
    if fst r =? 0 then Ok (U, Sg, Vt, snd r) else Throw.

  (** Vendor.cpp 834-916, jobu = jobvt = 'A'. *)
  Definition vgesvd (L : lapack) (m n a lda s u ldu vt ldvt superb : Z) (h : heap T) : res (Z * heap T) :=
    let lda_t := Z.max 1 m in let ldu_t := Z.max 1 m in let ldvt_t := Z.max 1 n in
    if lda <? n then Ok (-6, h)
    else if ldu <? m then Ok (-9, h)
    else if ldvt <? n then Ok (-11, h)
    else
      a_t <- xpose_row m n h a lda 0 lda_t (fresh_vec (lda_t * Z.max 1 n)) ;;
      A <- fread m n 0 lda_t a_t ;;
      let '(info, A', sv, U, VT, work) := x_gesvd L m n A in
      a_t' <- fwrite m n 0 lda_t A' a_t ;;
      h1 <- fvwrite (Z.min m n) s sv h ;;
      u_t <- fwrite m m 0 ldu_t U (fresh_vec (ldu_t * Z.max 1 m)) ;;
      vt_t <- fwrite n n 0 ldvt_t VT (fresh_vec (ldvt_t * Z.max 1 n)) ;;
      if info <? 0 then Throw
      else
      h2 <- xpose_col m n a_t' 0 lda_t a lda h1 ;;
      h3 <- xpose_col m m u_t 0 ldu_t u ldu h2 ;;
      h4 <- xpose_col n n vt_t 0 ldvt_t vt ldvt h3 ;;
      h5 <- forM (zrange (Z.min m n - 1)) (fun i h => wr h (superb + i) (work (i + 1))) h4 ;;
      Ok (0, h5).
  (** LinearAlgebra.hpp 657-695.  [std::min(m, n) - 2] is computed in [size_t]:
      below 2 it wraps round to more than [vector::max_size()] elements
      ([length_error]).  [superb] is placed after Vt. *)
  Definition la_svd (L : lapack) (A0 : desc) (base : Z) (h : heap T) : res (desc * desc * desc * heap T) :=
    let m := tdim A0 0 in let n := tdim A0 1 in
    c <- copy_from_view o0 base A0 h ;;
    let '(A, h1) := c in
    let u := base + m * n in let s := u + m * m in let v := s + Z.min m n in let sb := v + n * n in
    let U := tensor_ctor u [m; m] in let Sg := tensor_ctor s [Z.min m n] in let Vt := tensor_ctor v [n; n] in
    h2 <- set_all u (m * m) o0 (alloc_buffer o0 u (m * m) h1) ;;
    h3 <- set_all s (Z.min m n) o0 (alloc_buffer o0 s (Z.min m n) h2) ;;
    h4 <- set_all v (n * n) o0 (alloc_buffer o0 v (n * n) h3) ;;
    if Z.min m n <? 2 then Throw
    else
      h5 <- set_all sb (Z.min m n - 2) o0 (alloc_buffer o0 sb (Z.min m n - 2) h4) ;;
      r <- vgesvd L m n (dbase A) (tstride A 0) s u m v n sb h5 ;;
      if fst r =? 0 then Ok (U, Sg, Vt, snd r) else Throw.

  (** Vendor.cpp 1113-1151 *)
  Definition vgeqrf (L : lapack) (m n a lda tau : Z) (h : heap T) : res (Z * heap T) :=
    let lda_t := Z.max 1 m in
    if lda <? n then Ok (-4, h)
    else
      a_t <- xpose_row m n h a lda 0 lda_t (fresh_vec (lda_t * Z.max 1 n)) ;;
      A <- fread m n 0 lda_t a_t ;;
      let '(info, A', tv) := x_geqrf L m n A in
      a_t' <- fwrite m n 0 lda_t A' a_t ;;
      h1 <- fvwrite (Z.min m n) tau tv h ;;
      if info <? 0 then Ok (info, h1)
      else h2 <- xpose_col m n a_t' 0 lda_t a lda h1 ;; Ok (0, h2).
  (** LinearAlgebra.hpp 960-982; A and tau are placed from [base]. *)
  Definition la_qr (L : lapack) (A0 : desc) (base : Z) (h : heap T) : res (desc * desc * heap T) :=
    let m := tdim A0 0 in let n := tdim A0 1 in
    c <- copy_from_view o0 base A0 h ;;
    let '(A, h1) := c in
    let tau := tensor_ctor (base + m * n) [Z.min m n] in
    r <- vgeqrf L m n (dbase A) n (dbase tau) (alloc_buffer o0 (base + m * n) (Z.min m n) h1) ;;
    if fst r =? 0 then Ok (A, tau, snd r) else Throw.

  (** Vendor.cpp 1029-1067.  LAPACK requires 0 <= k <= n <= m. *)
  Definition vorgqr (L : lapack) (m n k a lda tau : Z) (h : heap T) : res (Z * heap T) :=
    let lda_t := Z.max 1 m in
    if lda <? n then Ok (-5, h)
    else if (m <? 0) || (n <? 0) || (m <? n) || (k <? 0) || (n <? k) then Throw
    else
      a_t <- xpose_row m n h a lda 0 lda_t (fresh_vec (lda_t * Z.max 1 n)) ;;
      A <- fread m n 0 lda_t a_t ;;
      tv <- fvread k tau h ;;
      let '(info, Q) := x_orgqr L m n k A tv in
      a_t' <- fwrite m n 0 lda_t Q a_t ;;
      if info <? 0 then Ok (info, h)
      else h2 <- xpose_col m n a_t' 0 lda_t a lda h ;; Ok (info, h2).
  (** LinearAlgebra.hpp 984-1003: the extents are exchanged. *)
  Definition la_q (L : lapack) (qr tau : desc) (base : Z) (h : heap T) : res (desc * heap T) :=
    let m := tdim qr 1 in let p := tdim qr 0 in
    c <- copy_from_view o0 base qr h ;;
    let '(Q, h1) := c in
    r <- vorgqr L m m p (dbase Q) m (dbase tau) h1 ;;
    if fst r =? 0 then Ok (Q, snd r) else Throw.

  (** Vendor.cpp 922-973, jobvs = 'V': [info] is not looked at. *)
  Definition vgees (L : lapack) (n a lda wr wi vs ldvs : Z) (h : heap T) : res (Z * heap T) :=
    let ld := Z.max 1 n in
    if lda <? n then Ok (-4, h)
    else if ldvs <? n then Ok (-9, h)
    else
      a_t <- xpose_row n n h a lda 0 ld (fresh_vec (ld * Z.max 1 n)) ;;
      A <- fread n n 0 ld a_t ;;
      let '(info, A', re, im, V) := x_gees L n A in
      a_t' <- fwrite n n 0 ld A' a_t ;;
      h1 <- fvwrite n wr re h ;; h2 <- fvwrite n wi im h1 ;;
      vs_t <- fwrite n n 0 ld V (fresh_vec (ld * Z.max 1 n)) ;;
      h3 <- xpose_col n n a_t' 0 ld a lda h2 ;;
      h4 <- xpose_col n n vs_t 0 ld vs ldvs h3 ;;
      Ok (0, h4).
  (** Vendor.cpp 979-1023, trana = tranb = 'N', isgn = 1, m = n as called. *)
  Definition vtrsyl (L : lapack) (m n a lda b ldb c ldc : Z) (h : heap T) : res (Z * T * heap T) :=
    let lda_t := Z.max 1 m in let ldb_t := Z.max 1 n in let ldc_t := Z.max 1 m in
    if lda <? m then Ok (-7, o0, h)
    else if ldb <? n then Ok (-9, o0, h)
    else if ldc <? n then Ok (-11, o0, h)
    else
      a_t <- xpose_row m m h a lda 0 lda_t (fresh_vec (lda_t * Z.max 1 m)) ;;
      b_t <- xpose_row n n h b ldb 0 ldb_t (fresh_vec (ldb_t * Z.max 1 n)) ;;
      c_t <- xpose_row m n h c ldc 0 ldc_t (fresh_vec (ldc_t * Z.max 1 n)) ;;
      A <- fread m m 0 lda_t a_t ;; B <- fread n n 0 ldb_t b_t ;; C <- fread m n 0 ldc_t c_t ;;
      let '(info, X, scale) := x_trsyl L m n A B C in
      c_t' <- fwrite m n 0 ldc_t X c_t ;;
      if info <? 0 then Ok (info, scale, h)
      else h1 <- xpose_col m n c_t' 0 ldc_t c ldc h ;; Ok (info, scale, h1).

  (** LinearAlgebra.hpp 130-143: [gemm] that returns a new (zeroed) tensor. *)
  Definition la_gemm_new (ta tb : bool) (alpha : T) (A B : desc) (base : Z) (h : heap T)
      : res (desc * heap T) :=
    let C := tensor_ctor base [if ta then tdim A 1 else tdim A 0; if tb then tdim B 0 else tdim B 1] in
    h1 <- la_gemm ta tb alpha A B o0 C (alloc_buffer o0 base (data_size (ddims C)) h) ;;
    Ok (C, h1).
  (** LinearAlgebra.hpp 911-955: R, wr, wi, U, Fbuff, F, Xbuff, X at
      [base + k n^2], k = 0..7; the results of [gees] and [trsyl] are dropped. *)
  Definition la_lyapunov (L : lapack) (A Q : desc) (base : Z) (h : heap T) : res (desc * heap T) :=
    if negb (tdim A 0 =? tdim A 1) then Throw
    else if negb (tdim Q 0 =? tdim Q 1) then Throw
    else if negb (tdim A 0 =? tdim Q 0) then Throw
    else
      let n := tdim A 0 in let sz := n * n in
      c <- copy_from_view o0 base A h ;;
      let '(R, h1) := c in
      let U := tensor_ctor (base + 3 * sz) [n; n] in
      let h2 := alloc_buffer o0 (base + sz) (3 * sz) h1 in
      r <- vgees L n (dbase R) n (base + sz) (base + 2 * sz) (dbase U) n h2 ;;
      f1 <- la_gemm_new true false o1 U Q (base + 4 * sz) (snd r) ;;
      f2 <- la_gemm_new false false o1 (fst f1) U (base + 5 * sz) (snd f1) ;;
      s <- vtrsyl L n n (dbase R) n (dbase R) n (dbase (fst f2)) n (snd f2) ;;
      let '(_, scale, h5) := s in
      x1 <- la_gemm_new false false scale U (fst f2) (base + 6 * sz) h5 ;;
      la_gemm_new false true o1 (fst x1) U (base + 7 * sz) (snd x1).

  (** Vendor.cpp 1200-1270 (complex element types), jobvl = jobvr = 'V'. *)
  Definition vgeev (L : lapack) (n a lda w vl ldvl vr ldvr : Z) (h : heap T) : res (Z * heap T) :=
    let ld := Z.max 1 n in
    if lda <? n then Ok (-5, h)
    else if (ldvl <? 1) || (ldvl <? n) then Ok (-8, h)
    else if (ldvr <? 1) || (ldvr <? n) then Ok (-10, h)
    else
      a_t <- xpose_row n n h a lda 0 ld (fresh_vec (ld * Z.max 1 n)) ;;
      A <- fread n n 0 ld a_t ;;
      let '(info, A', W, VL, VR) := x_geev L n A in
      a_t' <- fwrite n n 0 ld A' a_t ;;
      h1 <- fvwrite n w W h ;;
      vl_t <- fwrite n n 0 ld VL (fresh_vec (ld * Z.max 1 n)) ;;
      vr_t <- fwrite n n 0 ld VR (fresh_vec (ld * Z.max 1 n)) ;;
      if info <? 0 then Ok (info, h1)
      else
      h2 <- xpose_col n n a_t' 0 ld a lda h1 ;;
      h3 <- xpose_col n n vl_t 0 ld vl ldvl h2 ;;
      h4 <- xpose_col n n vr_t 0 ld vr ldvr h3 ;;
      Ok (0, h4).
  (** BaseLinearAlgebra.hpp 70-89: the result of [blas::geev] is dropped. *)
  Definition la_geev (L : lapack) (A W lvecs rvecs : desc) (h : heap T) : res (heap T) :=
    r <- vgeev L (tdim A 0) (dbase A) (tstride A 0) (dbase W) (dbase lvecs) (tstride lvecs 0)
           (dbase rvecs) (tstride rvecs 0) h ;;
    Ok (snd r).
End Lapack.
