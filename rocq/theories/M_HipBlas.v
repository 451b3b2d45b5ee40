(** * M_HipBlas: the BLAS and LAPACK routines of the GPU backend.  Definitions only.

    "hb" is /repo/src/backends/linear_algebra/hipblas/hipblas.hip, "hs" is
    hipsolver.hip in the same directory.  The routines take host arrays, copy
    them to device memory, call hipBLAS or hipSOLVER there and copy the results
    back; hipblas.hpp 6-13 calls them drop-in replacements for the other
    backends.

    hipBLAS and hipSOLVER are external: taken to do on device memory what the
    reference routines do (M_Blas, M_GpuLin, M_Lapack), reporting an invalid
    argument as an error.  Simplifications: [int] does not overflow; sizes are
    in elements; the pivot arrays are allocated but hold no contents; the
    pointer mode of the handle, which the code never sets, is taken to fit the
    pointers that are passed.  The routines for the four element types have the
    same text; [O] is any of them. *)
From Coq Require Import Ascii List ZArith Lia Bool.
From Verif Require Import Base Heap Conc M_Addr M_Einsum M_Blas M_Lapack M_GpuLin.
Import ListNotations.
Open Scope Z_scope.

Section HipBlas.
  Context {O : Ops}.
  Notation T := (car O).

  (** ** The HIP runtime *)

  (** Host memory, device memory, device blocks (address, size), registered
      host pointers, and the last value and [info] returned by the library. *)
  Record hstate := mkH { h_host : heap T; h_dev : heap T; h_live : list (Z * Z); h_reg : list Z;
                         h_val : option T; h_info : option Z }.
  Definition with_host (x : heap T) (s : hstate) := mkH x (h_dev s) (h_live s) (h_reg s) (h_val s) (h_info s).
  Definition with_dev (x : heap T) (s : hstate) := mkH (h_host s) x (h_live s) (h_reg s) (h_val s) (h_info s).

  (** The calls made by the routines. *)
  Inductive hcall :=
  | CMalloc (p n : Z) (junk : Z -> T)        (* hipMalloc: n elements at p, contents unknown *)
  | CToDev (dst src n : Z)                   (* hipMemcpy, host to device *)
  | CScalars (dst : Z) (vs : list T)         (* hipMemcpy of local scalars *)
  | CToHost (dst src n : Z)                  (* hipMemcpy, device to host *)
  | CFree (p : Z)                            (* hipFree *)
  | CSync                                    (* hipDeviceSynchronize *)
  | CLaunch (f : heap T -> res (heap T))     (* a hipBLAS routine *)
  | CValue (f : heap T -> res T)             (* a hipBLAS routine that returns a value *)
  | CSolve (f : heap T -> res (Z * heap T))  (* a hipSOLVER routine and its info *)
  | CRegister (p : Z)                        (* hipHostRegister *)
  | CUnregister (p : Z).                     (* hipHostUnregister *)

  Definition within (p n z : Z) : bool := (p <=? z) && (z <? p + n).
  Definition hcopy (from : heap T) (dst src n : Z) (to : heap T) : res (heap T) :=
    forM (zrange n) (fun i t => v <- rd from (src + i) ;; wr t (dst + i) v) to.

  Fixpoint drop_block (p : Z) (l : list (Z * Z)) : option (Z * list (Z * Z)) :=
    match l with
    | [] => None
    | (q, n) :: r => if q =? p then Some (n, r)
                     else match drop_block p r with Some (m, r') => Some (m, (q, n) :: r') | None => None end
    end.
  Fixpoint drop_ptr (p : Z) (l : list Z) : option (list Z) :=
    match l with
    | [] => None
    | q :: r => if q =? p then Some r else match drop_ptr p r with Some r' => Some (q :: r') | None => None end
    end.

  (** One call.  A negative size is an enormous [size_t]: out of memory. *)
  Definition hstep (c : hcall) (s : hstate) : res hstate :=
    match c with
    | CMalloc p n junk =>
        if n <? 0 then Throw
        else Ok (mkH (h_host s) (fun z => if within p n z then Some (junk z) else h_dev s z)
                     ((p, n) :: h_live s) (h_reg s) (h_val s) (h_info s))
    | CToDev dst src n => d <- hcopy (h_host s) dst src n (h_dev s) ;; Ok (with_dev d s)
    | CScalars dst vs =>
        d <- forM (combine (zrange (Z.of_nat (length vs))) vs) (fun iv t => wr t (dst + fst iv) (snd iv)) (h_dev s) ;;
        Ok (with_dev d s)
    | CToHost dst src n => d <- hcopy (h_dev s) dst src n (h_host s) ;; Ok (with_host d s)
    | CFree p =>
        match drop_block p (h_live s) with
        | Some (n, l) => Ok (mkH (h_host s) (fun z => if within p n z then None else h_dev s z) l
                                 (h_reg s) (h_val s) (h_info s))
        | None => Throw
        end
    | CSync => Ok s
    | CLaunch f => d <- f (h_dev s) ;; Ok (with_dev d s)
    | CValue f => v <- f (h_dev s) ;; Ok (mkH (h_host s) (h_dev s) (h_live s) (h_reg s) (Some v) (h_info s))
    | CSolve f => r <- f (h_dev s) ;;
                  Ok (mkH (h_host s) (snd r) (h_live s) (h_reg s) (h_val s) (Some (fst r)))
    | CRegister p => Ok (mkH (h_host s) (h_dev s) (h_live s) (p :: h_reg s) (h_val s) (h_info s))
    | CUnregister p =>
        match drop_ptr p (h_reg s) with
        | Some l => Ok (mkH (h_host s) (h_dev s) (h_live s) l (h_val s) (h_info s))
        | None => Throw
        end
    end.

  (** A routine: its calls in order.  [hip_catch] throws at the first call that
      reports an error; nothing is cleaned up.  [fail k]: call number [k]
      fails for a reason of its own, without effect. *)
  Inductive hout := HDone (s : hstate) | HThrow (s : hstate) | HUndef.
  Fixpoint hrun (fail : nat -> bool) (k : nat) (l : list hcall) (s : hstate) : hout :=
    match l with
    | [] => HDone s
    | c :: r => if fail k then HThrow s
                else match hstep c s with
                     | Ok s' => hrun fail (S k) r s'
                     | Throw => HThrow s
                     | UB => HUndef
                     end
    end.

  (** ** hb *)

  (** 17-28 [hipblas_char_to_op]; for real numbers the conjugate transpose is
      the transpose. *)
  Definition hip_trans (c : ascii) : bool :=
    (c =? "t")%char || (c =? "T")%char || (c =? "c")%char || (c =? "C")%char.
  (** [transa ? x : y] on a [char]. *)
  Definition set_char (c : ascii) : bool := negb (c =? Ascii.zero)%char.

  (** 37-240.  [pa pb pc ps]: where the blocks are allocated, [ps] the two
      scalars. *)
  Definition hip_gemm (junk : Z -> T) (pa pb pc ps : Z) (ta tb : ascii) (m n k : Z) (alpha : T)
      (a lda b ldb : Z) (beta : T) (c ldc : Z) : list hcall :=
    let a_size := if set_char ta then k * lda else m * lda in
    let b_size := if set_char tb then ldb * n else ldb * k in
    let c_size := m * ldc in
    [ CMalloc pa a_size junk; CMalloc pb b_size junk; CMalloc pc c_size junk; CMalloc ps 2 junk;
      CToDev pa a a_size; CToDev pb b b_size; CScalars ps [alpha; beta] ]
    ++ (if negb (oeqb beta o0) || negb (ldc =? k) then [CToDev pc c c_size] else [])
    ++ [ CLaunch (fun d => al <- rd d ps ;; be <- rd d (ps + 1) ;;
                           fgemm (hip_trans ta) (hip_trans tb) m n k al pa lda pb ldb be pc ldc d);
         CSync; CToHost c pc c_size; CFree pa; CFree pb; CFree pc; CFree ps ].

  (** 245-376 *)
  Definition hip_gemv (junk : Z -> T) (pa px py ps : Z) (ta : ascii) (m n : Z) (alpha : T)
      (a lda x incx : Z) (beta : T) (y incy : Z) : list hcall :=
    let a_size := if set_char ta then n * lda else m * lda in
    let x_size := if set_char ta then m * incx else n * incx in
    let y_size := if set_char ta then n * incy else m * incy in
    [ CMalloc pa a_size junk; CMalloc px x_size junk; CMalloc py y_size junk; CMalloc ps 2 junk;
      CToDev pa a a_size; CToDev px x x_size; CScalars ps [alpha; beta] ]
    ++ (if negb (oeqb beta o0) || negb (incy =? 1) then [CToDev py y y_size] else [])
    ++ [ CLaunch (fun d => al <- rd d ps ;; be <- rd d (ps + 1) ;;
                           fgemv (hip_trans ta) m n al pa lda px incx be py incy d);
         CToHost y py y_size; CFree pa; CFree px; CFree py; CFree ps ].

  (** 378-468 *)
  Definition hip_scal (junk : Z -> T) (pv ps : Z) (n : Z) (alpha : T) (vec inc : Z) : list hcall :=
    let vec_size := n * inc in
    [ CMalloc pv vec_size junk; CMalloc ps 1 junk; CToDev pv vec vec_size; CScalars ps [alpha];
      CLaunch (fun d => al <- rd d ps ;; fscal n al pv inc d); CSync; CToHost vec pv vec_size;
      CFree pv; CFree ps ].

  (** 470-556: xDOT, and xDOTC for complex numbers ([conj] on x; the identity
      for real numbers). *)
  Definition hdotc (conj : T -> T) (n x incx y incy : Z) (h : heap T) : res T :=
    if n <=? 0 then Ok o0
    else r <- run (pfold (zrange n) (fun s l => PRd (fvec x n incx l) (fun u => PRd (fvec y n incy l)
                     (fun v => PRet (oadd s (omul (conj u) v))))) o0) h ;; Ok (fst r).
  Definition hip_dot (junk : Z -> T) (conj : T -> T) (px py : Z) (n x incx y incy : Z) : list hcall :=
    let x_size := n * incx in let y_size := n * incy in
    [ CMalloc px x_size junk; CMalloc py y_size junk; CToDev px x x_size; CToDev py y y_size;
      CValue (hdotc conj n px incx py incy); CFree px; CFree py ].

  (** 558-680 *)
  Definition hip_axpy (junk : Z -> T) (px py ps : Z) (n : Z) (alpha : T) (x incx y incy : Z) : list hcall :=
    let x_size := n * incx in let y_size := n * incy in
    if oeqb alpha o0 then []
    else [ CMalloc px x_size junk; CMalloc py y_size junk; CMalloc ps 1 junk; CToDev px x x_size; CToDev py y y_size;
           CScalars ps [alpha]; CLaunch (fun d => al <- rd d ps ;; faxpy n al px incx py incy d); CSync;
           CToHost y py y_size; CFree px; CFree py; CFree ps ].

  (** 682-829: xGER, and xGERC for complex numbers ([conj] on y). *)
  Definition hip_ger (junk : Z -> T) (conj : T -> T) (px py pa ps : Z) (m n : Z) (alpha : T)
      (x incx y incy a lda : Z) : list hcall :=
    let x_size := m * incx in let y_size := n * incy in let a_size := m * lda in
    if oeqb alpha o0 then []
    else [ CMalloc px x_size junk; CMalloc py y_size junk; CMalloc pa a_size junk; CMalloc ps 1 junk;
           CToDev px x x_size; CToDev py y y_size; CToDev pa a a_size; CScalars ps [alpha];
           CLaunch (fun d => al <- rd d ps ;; hger conj m n al px incx py incy pa lda d); CSync;
           CToHost a pa a_size; CFree px; CFree py; CFree pa; CFree ps ].

  (** ** hs *)

  (** 60-282 [syev], [heev] with job = 'V', uplo = 'U'.  [info] is the address
      of the new [int]; [work]: the address of a work array ([None]: no array
      or size zero), registered when HIP does not know it yet. *)
  Definition hip_syev (junk : Z -> T) (L : lapack) (pa pw info : Z) (work : option Z) (known : bool)
      (n a lda w : Z) : list hcall :=
    let a_size := n * lda in
    let reg := match work with Some p => if known then [] else [p] | None => [] end in
    map CRegister reg
    ++ [ CMalloc pa a_size junk; CMalloc pw n junk; CToDev pa a a_size; CRegister info;
         CSolve (vsyev L n pa lda pw); CSync; CToHost a pa a_size; CToHost w pw n ]
    ++ map CUnregister reg ++ [ CUnregister info ].

  (** 288-528 [gesv].  On AMD the solution replaces B; on NVIDIA it goes to the
      block [px], a copy of B. *)
  Definition hip_gesv (junk : Z -> T) (nvidia : bool) (L : lapack) (pa pb pi px info : Z)
      (n nrhs a lda b ldb : Z) : list hcall :=
    let a_size := n * lda in let b_size := n * ldb in
    [ CMalloc pa a_size junk; CMalloc pb b_size junk; CMalloc pi n junk; CRegister info;
      CToDev pa a a_size; CToDev pb b b_size ]
    ++ (if nvidia then
          [ CMalloc px b_size junk; CToDev px b b_size; CSolve (hgesv L n nrhs pa lda pb ldb px ldb); CSync;
            CToHost b px b_size; CFree px ]
        else [ CSolve (hgesv L n nrhs pa lda pb ldb pb ldb); CSync; CToHost b pb b_size ])
    ++ [ CToHost a pa a_size; CFree pa; CFree pb; CFree pi; CUnregister info ].

  (** 530-777 [getrf] with pivots.  [info_var] is the address of the local
      variable [info], which is what is registered; [info] the address of the
      new [int], which is what is unregistered.  [lwork]: the size the library
      asks for (AMD only). *)
  Definition hip_getrf (junk : Z -> T) (nvidia : bool) (L : lapack) (pa pi pk info_var info lwork : Z)
      (m n a lda : Z) : list hcall :=
    let a_size := m * lda in
    let solve := CSolve (fun d => r <- vgetrf L m n pa lda d ;; let '(i, _, d') := r in Ok (i, d')) in
    [ CMalloc pa a_size junk; CMalloc pi n junk; CRegister info_var; CToDev pa a a_size ]
    ++ (if nvidia then [ solve; CSync ] else [ CMalloc pk lwork junk; solve; CSync; CFree pk ])
    ++ [ CToHost a pa a_size; CFree pa; CFree pi; CUnregister info ].
End HipBlas.
