(** * M_Fft: the Fourier transforms.  Model definitions only.

    F = /repo/src/FFT.cpp, W = /repo/src/backends/fft/fftw3/fft.cpp.

    The single and double precision versions have the same text.  Not modelled:
    the MKL backend (/repo/src/backends/fft/mkl/fft.cpp), which no function
    calls (the calls in F are commented out). *)
From Coq Require Import List ZArith Lia Bool.
From Verif Require Import Base Heap Conc M_Addr M_Elt M_Einsum M_Blas Num.
Import ListNotations.
Open Scope Z_scope.

Section Arrays.
  Context {T : Type}.
  (** Read of [n] consecutive cells from [a]; [UB] if one is not allocated. *)
  Definition aread (zero : T) (n a : Z) (h : heap T) : res (Z -> T) :=
    if forallb (fun i => match h (a + i) with Some _ => true | None => false end) (zrange n)
    then Ok (fun i => match h (a + i) with Some v => v | None => zero end)
    else UB.
  Definition awrite (n a : Z) (f : Z -> T) (h : heap T) : res (heap T) :=
    forM (zrange n) (fun i h => wr h (a + i) (f i)) h.
End Arrays.

Section Fft.
  Context {R : Ops}.
  Notation C := (CxOps R).

  (** ** FFTW, by its manual (section 4.8, "What FFTW Really Computes").
      [tw n e] stands for exp(-2 pi i e / n).  A plan is the null pointer if the
      length is not positive; [verify] (W 22-29) then aborts: [Throw].  Sums
      are exact. *)
  Variable tw : Z -> Z -> car C.

  (** Element [k] of the transform with sign -1 (forward) or +1 (backward). *)
  Definition dft (sign n : Z) (x : Z -> car C) (k : Z) : car C :=
    zsum n (fun j => omul (x j) (tw n (- sign * (j * k)))).

  (** fftw_plan_dft_1d, fftw_execute: all of the input is read before the
      output is written, so that input and output may be the same array. *)
  Definition fftw_dft (sign n src dst : Z) (h : heap (car C)) : res (heap (car C)) :=
    if n <=? 0 then Throw
    else x <- aread o0 n src h ;; awrite n dst (dft sign n x) h.

  (** fftw_plan_dft_r2c_1d: [n] real numbers to [n / 2 + 1] complex ones. *)
  Definition fftw_r2c (n src dst : Z) (hr : heap (car R)) (hc : heap (car C)) : res (heap (car C)) :=
    if n <=? 0 then Throw
    else x <- aread o0 n src hr ;; awrite (n / 2 + 1) dst (dft (-1) n (fun j => (x j, o0))) hc.

  (** fftw_plan_dft_c2r_1d: [n / 2 + 1] complex numbers to [n] real ones; the
      other half is the conjugate of the first, and the imaginary part of the
      outcome is dropped.  Without FFTW_PRESERVE_INPUT the input array is
      destroyed (manual, 4.3.2: "FFTW_DESTROY_INPUT is the default for c2r"):
      [junk] is what it holds afterwards. *)
  Definition hermitian (n : Z) (x : Z -> car C) (k : Z) : car C := if k <=? n / 2 then x k else cconj (x (n - k)).
  Definition fftw_c2r (junk : (Z -> car C) -> Z -> car C) (n src dst : Z) (hc : heap (car C)) (hr : heap (car R))
      : res (heap (car C) * heap (car R)) :=
    if n <=? 0 then Throw
    else x <- aread o0 (n / 2 + 1) src hc ;;
         hr' <- awrite n dst (fun j => fst (dft 1 n (hermitian n x) j)) hr ;;
         hc' <- awrite (n / 2 + 1) src (junk x) hc ;;
         Ok (hc', hr').

  (** ** The functions of the library.  Extents are [size_t], converted to
      [int] when they reach FFTW. *)

  (** F 67-70, 78-81, W 47-56, 69-78: ccfft, zzfft. *)
  Definition zzfft (a result : desc) (h : heap (car C)) : res (heap (car C)) :=
    fftw_dft (-1) (to_int32 (tdim a 0)) (dbase a) (dbase result) h.
  (** F 95-105, W 105-125: ccifft, zzifft; the length is the one of the result. *)
  Definition zzifft (a result : desc) (h : heap (car C)) : res (heap (car C)) :=
    fftw_dft 1 (to_int32 (tdim result 0)) (dbase a) (dbase result) h.
  (** F 43-49, 61-65, 72-76, W 36-45, 58-67: scfft, dzfft. *)
  Definition dzfft (a result : desc) (hr : heap (car R)) (hc : heap (car C)) : res (heap (car C)) :=
    if tdim result 0 <? tdim a 0 / 2 + 1 then Throw
    else fftw_r2c (to_int32 (tdim a 0)) (dbase a) (dbase result) hr hc.
  (** F 52-57, 83-93, W 83-103: csifft, zdifft. *)
  Definition zdifft (junk : (Z -> car C) -> Z -> car C) (a result : desc) (hc : heap (car C)) (hr : heap (car R))
      : res (heap (car C) * heap (car R)) :=
    if tdim a 0 <? tdim result 0 / 2 + 1 then Throw
    else fftw_c2r junk (to_int32 (tdim result 0)) (dbase a) (dbase result) hc hr.
End Fft.
