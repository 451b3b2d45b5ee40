(** * S_Geev: eigenvalues and eigenvectors of real matrices. *)
From Coq Require Import List ZArith Lia Bool.
From Verif Require Import Base Heap M_Einsum M_Blas S_Blas M_Lapack S_Lapack M_Geev.
Import ListNotations.
Open Scope Z_scope.

Section Geev.
  Context {O : Ops}.
  Notation T := (car O).
  (** [lt] is the order of the elements. *)
  Variable lt : T -> T -> bool.

  (** Complex numbers (real, imaginary part). *)
  Definition cmul (x y : T * T) : T * T :=
    (osub (omul (fst x) (fst y)) (omul (snd x) (snd y)), oadd (omul (fst x) (snd y)) (omul (snd x) (fst y))).
  Definition csum (n : Z) (f : Z -> T * T) : T * T := (zsum n (fun j => fst (f j)), zsum n (fun j => snd (f j))).
  Definition cconj (x : T * T) : T * T := (fst x, oopp (snd x)).

  (** The complex vector that column [k] of the real matrix [V] stands for: the
      columns k, k+1 of a conjugate pair hold its real and imaginary part. *)
  Definition unpack (w : Z -> T * T) (V : Z -> Z -> T) (k i : Z) : T * T :=
    if oeqb (snd (w k)) o0 then (V i k, o0)
    else if lt o0 (snd (w k)) then (V i k, V i (k + 1))
    else (V i (k - 1), oopp (V i k)).

  (** A x = w x, and x^H A = w x^H, for a real matrix [A]. *)
  Definition right_eigen (n : Z) (A : Z -> Z -> T) (w : T * T) (x : Z -> T * T) : Prop :=
    forall i, 0 <= i < n -> csum n (fun j => cmul (A i j, o0) (x j)) = cmul w (x i).
  Definition left_eigen (n : Z) (A : Z -> Z -> T) (w : T * T) (x : Z -> T * T) : Prop :=
    forall j, 0 <= j < n -> csum n (fun i => cmul (cconj (x i)) (A i j, o0)) = cmul w (cconj (x j)).

  (** What LAPACK documents for sgeev and dgeev; complex eigenvalues come in
      conjugate pairs, so a column with its partner is always present. *)
  Definition geev_real_contract (G : geev_fun) (n : Z) (A : Z -> Z -> T) : Prop :=
    let '(info, _, re, im, VL, VR) := G n A in
    info = 0 ->
    forall k, 0 <= k < n ->
      right_eigen n A (re k, im k) (unpack (fun k => (re k, im k)) VR k) /\
      left_eigen n A (re k, im k) (unpack (fun k => (re k, im k)) VL k) /\
      (im k <> o0 -> if lt o0 (im k) then k + 1 < n else 0 <= k - 1).
End Geev.
