(** * M_GpuLin: linear algebra on device tensors.  Definitions only.
    "GLA" is /repo/src/include/einsums/linear_algebra_imp/GPULinearAlgebra.hpp,
    "hip" is /repo/src/GPULinearAlgebra.hip.

    hipBLAS and hipSOLVER are external: their routines are taken to do what the
    reference BLAS and LAPACK routines of the same name do on column-major
    memory (M_Blas, M_Lapack), an invalid argument being reported as an
    exception ([hipblas_catch], [hipsolver_catch]).  Simplifications: the copies
    of the scalars to the device (and hipBLAS's pointer mode, which the code
    never sets), the pivot and work arrays and the streams are left out. *)
From Coq Require Import List ZArith Lia Bool.
From Verif Require Import Base Heap Conc GpuConc M_Addr M_Elt M_Einsum M_Blas M_Lapack M_Gpu.
Import ListNotations.
Open Scope Z_scope.

Section GpuLin.
  Context {O : Ops}.
  Notation T := (car O).

  (** GLA 251-266 [gemm]: operands exchanged because of the storage order; hip
      22-53. *)
  Definition d_gemm (TransA TransB : bool) (alpha : T) (A B : desc) (beta : T) (C : desc) (h : heap T) : res (heap T) :=
    let m := tdim C 0 in let n := tdim C 1 in
    let k := if TransA then tdim A 0 else tdim A 1 in
    fgemm TransB TransA n m k alpha (dbase B) (tstride B 0) (dbase A) (tstride A 0) beta (dbase C) (tstride C 0) h.

  (** GLA 378-395 [gemv]; hip 81-110. *)
  Definition d_gemv (TransA : bool) (alpha : T) (A x : desc) (beta : T) (y : desc) (h : heap T) : res (heap T) :=
    let m := tdim A 1 in let n := tdim A 0 in
    fgemv (negb TransA) m n alpha (dbase A) (tstride A 0) (dbase x) (tstride x 0) beta (dbase y) (tstride y 0) h.

  (** GLA 397-407 [scale]; hip 112-133: [size()] elements one after the other. *)
  Definition d_scale (alpha : T) (A : desc) (h : heap T) : res (heap T) := fscal (zprod (ddims A)) alpha (dbase A) 1 h.
  (** GLA 571-581 [axpy]; hip 253-274 *)
  Definition d_axpy (alpha : T) (X Y : desc) (h : heap T) : res (heap T) :=
    faxpy (tdim X 0 * tstride X 0) alpha (dbase X) 1 (dbase Y) 1 h.
  (** GLA 583-593 [axpby]; hip 276-373 *)
  Definition d_axpby (alpha : T) (X : desc) (beta : T) (Y : desc) : @grid O :=
    gpu_axpby (tdim X 0 * tstride X 0) alpha (dbase X) 1 beta (dbase Y) 1.
  (** GLA 660-669 [scale_row], 671-680 [scale_column] *)
  Definition d_scale_row (row : Z) (alpha : T) (A : desc) (h : heap T) : res (heap T) :=
    fscal (tdim A 1) alpha (addr A [row; 0]) (tstride A 1) h.
  Definition d_scale_column (col : Z) (alpha : T) (A : desc) (h : heap T) : res (heap T) :=
    fscal (tdim A 0) alpha (addr A [0; col]) (tstride A 0) h.

  (** A step of a host function: something that happens on one thread, or a
      kernel launch that is waited for. *)
  Inductive dstep := DHost (f : heap T -> res (heap T)) | DLaunch (g : @grid O).
  Definition of_gpustep (s : @gpustep O) : dstep := match s with GSeq p => DHost (exec p) | GLaunch g => DLaunch g end.

  (** hip 54-79: [hipblasSger], [hipblasDger], and for complex numbers
      [hipblasCgerc], [hipblasZgerc], which conjugate y.  [conj] is the identity
      for real numbers. *)
  Definition hger_body (conj : T -> T) (m n : Z) (alpha : T) (x incx y incy a lda : Z) (ij : list Z) : prog T unit :=
    match ij with
    | [j; i] =>
        PRd (fvec x m incx i) (fun xv => PRd (fvec y n incy j) (fun yv => PRd (a + i + j * lda)
          (fun v => PWr (a + i + j * lda) (oadd v (omul xv (omul alpha (conj yv)))) (PRet tt))))
    | _ => PRet tt
    end.
  Definition hger (conj : T -> T) (m n : Z) (alpha : T) (x incx y incy a lda : Z) (h : heap T) : res (heap T) :=
    if (m <? 0) || (n <? 0) || (incx =? 0) || (incy =? 0) || (lda <? Z.max 1 m) then Throw
    else if oeqb alpha o0 then Ok h
    else exec (pseq (indices [n; m]) (hger_body conj m n alpha x incx y incy a lda)) h.
  (** GLA 342-368 [ger]: A is transposed into a temporary at [tmp] (device
      memory of unknown contents), updated there and transposed back. *)
  Definition ger_temp (tmp : Z) (A : desc) : desc := tensor_ctor tmp [tdim A 1; tdim A 0].
  Definition d_ger (conj : T -> T) (alpha : T) (X Y A : desc) (tmp : Z) : list dstep :=
    let At := ger_temp tmp A in
    [ DLaunch (gpu_sort [0; 1]%nat [1; 0]%nat o0 At o1 A);
      DHost (hger conj (tdim X 0) (tdim Y 0) alpha (dbase X) (tstride X 0) (dbase Y) (tstride Y 0) tmp (tstride At 0));
      DLaunch (gpu_sort [0; 1]%nat [1; 0]%nat o0 A o1 At) ].

  (** GLA 524-569 [gesv]; hip 135-193.  On AMD the solution replaces B; on
      NVIDIA it is written to a tensor X of B's shape, here at [tmp], that is
      destroyed when the function returns. *)
  Definition hgesv (L : lapack) (n nrhs a lda b ldb x ldx : Z) (h : heap T) : res (Z * heap T) :=
    if (n <? 0) || (nrhs <? 0) || (lda <? Z.max 1 n) || (ldb <? Z.max 1 n) || (ldx <? Z.max 1 n) then Throw
    else A <- fread n n a lda h ;; B <- fread n nrhs b ldb h ;;
         let '(info, F, X) := x_gesv L n nrhs A B in
         h1 <- fwrite n n a lda F h ;; h2 <- fwrite n nrhs x ldx X h1 ;; Ok (info, h2).
  Definition d_gesv (nvidia : bool) (L : lapack) (A B : desc) (tmp : Z) (h : heap T) : res (Z * heap T) :=
    if nvidia then
      let X := tensor_ctor tmp (ddims B) in
      hgesv L (tdim A 0) (tdim B 0) (dbase A) (tstride A 0) (dbase B) (tstride B 0) tmp (tstride X 0)
            (alloc_buffer o0 tmp (data_size (ddims B)) h)
    else hgesv L (tdim A 0) (tdim B 0) (dbase A) (tstride A 0) (dbase B) (tstride B 0) (dbase B) (tstride B 0) h.

  (** GLA 640-658 [syev]; hip 195-251: [info] is dropped. *)
  Definition d_syev (L : lapack) (A W : desc) (h : heap T) : res (heap T) :=
    r <- vsyev L (tdim A 0) (dbase A) (tstride A 0) (dbase W) h ;; Ok (snd r).

  (** GLA 775-785 [eig_to_diag], launched as 32 blocks of one thread. *)
  Definition diag_body (F : @fops O) (D W : desc) (expo : T) (i : Z) : prog T unit :=
    PRd (dbase W + i) (fun w => PWr (dbase D + (i * tstride D 0 + i)) (f_pow F w expo) (PRet tt)).
  Definition eig_to_diag (F : @fops O) (D W : desc) (expo : T) : @grid O :=
    launch 32 1 (each_kernel (tdim D 0) (diag_body F D W expo)).
  (** GLA 788-822 [pow] for real numbers; [cutoff] is not used.  The tensors
      are placed one after the other from [base]: eigenvectors, diagonal
      matrix, result, eigenvalues (the unused [temp] is left out). *)
  Definition d_pow_tensors (a : desc) (base : Z) : desc * desc * desc * desc :=
    let sz := zprod (ddims a) in
    (tensor_ctor base (ddims a), tensor_ctor (base + sz) (ddims a), tensor_ctor (base + 2 * sz) (ddims a),
     tensor_ctor (base + 3 * sz) [tdim a 0]).
  Definition d_pow (L : lapack) (F : @fops O) (a : desc) (alpha cutoff : T) (base : Z) : desc * list dstep :=
    let '(Evecs, Diag, out, Evals) := d_pow_tensors a base in
    (out,
     [ DHost (fun h => Ok (alloc_buffer o0 base (3 * zprod (ddims a) + tdim a 0) h));
       DLaunch (dev_copy Evecs a);
       DHost (d_syev L Evecs Evals);
       DHost (set_all (dbase Diag) (zprod (ddims a)) o0);
       DLaunch (eig_to_diag F Diag Evals alpha) ]
     ++ map of_gpustep (gpu_symm_gemm false false Diag Evecs out)).
End GpuLin.
