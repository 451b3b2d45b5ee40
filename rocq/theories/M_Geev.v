(** * M_Geev: the wrapper of [geev] for real element types.
    Model definitions only; the complex wrapper is [vgeev] of M_Lapack. *)
From Coq Require Import List ZArith Lia Bool.
From Verif Require Import Base Heap M_Addr M_Einsum M_Blas M_Lapack.
Import ListNotations.
Open Scope Z_scope.

Section Geev.
  Context {O : Ops}.
  Notation T := (car O).

  (** sgeev and dgeev of LAPACK with jobvl = jobvr = 'V': order and matrix to
      info, A on exit, real and imaginary parts of the eigenvalues, VL, VR. *)
  Definition geev_fun := Z -> fmx (O := O) -> Z * fmx (O := O) * fvx (O := O) * fvx (O := O) * fmx (O := O) * fmx (O := O).
  (** The conversion through [std::complex<float>] at Vendor.cpp 1349: the
      identity for float, rounding to single precision for double. *)
  Variable through_float : T -> T.

  (** Vendor.cpp 1277-1357.  [hw] is the memory of the complex vector w. *)
  Definition vgeev_real (G : geev_fun) (n a lda w vl ldvl vr ldvr : Z) (h : heap T) (hw : heap (T * T))
      : res (Z * heap T * heap (T * T)) :=
    let ld := Z.max 1 n in
    if lda <? n then Ok (-5, h, hw)                                                (* 1298-1301 *)
    else if (ldvl <? 1) || (ldvl <? n) then Ok (-9, h, hw)                         (* 1302-1305 *)
    else if (ldvr <? 1) || (ldvr <? n) then Ok (-11, h, hw)                        (* 1306-1309 *)
    else
      a_t <- xpose_row n n h a lda 0 ld (fresh_vec (ld * Z.max 1 n)) ;;            (* 1328 *)
      A <- fread n n 0 ld a_t ;;
      let '(info, A', re, im, VL, VR) := G n A in                                  (* 1331-1333 *)
      a_t' <- fwrite n n 0 ld A' a_t ;;
      vl_t <- fwrite n n 0 ld VL (fresh_vec (ld * Z.max 1 n)) ;;
      vr_t <- fwrite n n 0 ld VR (fresh_vec (ld * Z.max 1 n)) ;;
      if info <? 0 then Ok (info, h, hw)                                           (* 1334-1336 *)
      else
        h1 <- xpose_col n n a_t' 0 ld a lda h ;;                                   (* 1339-1345 *)
        h2 <- xpose_col n n vl_t 0 ld vl ldvl h1 ;;
        h3 <- xpose_col n n vr_t 0 ld vr ldvr h2 ;;
        hw' <- forM (zrange n) (fun i hw => wr hw (w + i) (through_float (re i), through_float (im i))) hw ;;  (* 1348-1350 *)
        Ok (0, h3, hw').

  (** BaseLinearAlgebra.hpp 70-89: the result of [blas::geev] is dropped. *)
  Definition la_geev_real (G : geev_fun) (A W lvecs rvecs : desc) (h : heap T) (hw : heap (T * T))
      : res (heap T * heap (T * T)) :=
    r <- vgeev_real G (tdim A 0) (dbase A) (tstride A 0) (dbase W) (dbase lvecs) (tstride lvecs 0)
           (dbase rvecs) (tstride rvecs 0) h hw ;;
    let '(_, h', hw') := r in Ok (h', hw').
End Geev.
