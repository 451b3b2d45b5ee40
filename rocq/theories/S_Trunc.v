(** * S_Trunc: orthonormal columns, thin QR factorisations and Hermitian
      matrices. *)
From Coq Require Import List ZArith Lia Bool.
From Verif Require Import Base Heap M_Lapack S_Lapack.
Import ListNotations.
Open Scope Z_scope.

Section S.
  Context {O : Ops}.
  Notation T := (car O).

  (** Conjugate transpose; real element types: [conj x = x]. *)
  Definition ctrn (conj : T -> T) (A : Z -> Z -> T) : Z -> Z -> T := fun i j => conj (A j i).
  (** The [p] columns of the [m] x [p] matrix [Q] are orthonormal. *)
  Definition orthonormal (conj : T -> T) (m p : Z) (Q : Z -> Z -> T) : Prop :=
    agree p p (mmul m (ctrn conj Q) Q) ident.
  Definition unitary (conj : T -> T) (n : Z) (U : Z -> Z -> T) : Prop := inverse n U (ctrn conj U).

  (** LAPACK: geqrf on an [m] x [p] matrix (p <= m) followed by orgqr / ungqr:
      Y = Q R with orthonormal columns of Q and R upper triangular. *)
  Definition thin_qr_contract (conj : T -> T) (L : lapack) (m p : Z) (Y : Z -> Z -> T) : Prop :=
    let '(info, F, tau) := x_geqrf L m p Y in
    info = 0 /\
    forall F' tau', agree m p F' F -> vagree p tau' tau ->
      let '(info2, Q) := x_orgqr L m p p F' tau' in
      info2 = 0 /\ orthonormal conj m p Q /\ agree m p Y (mmul p Q (upper F)).
  (** [Q] is an answer of these two calls for [Y]. *)
  Definition lapack_q (L : lapack) (m p : Z) (Y Q : Z -> Z -> T) : Prop :=
    exists Y' F' tau',
      agree m p Y' Y /\ agree m p F' (snd (fst (x_geqrf L m p Y'))) /\ vagree p tau' (snd (x_geqrf L m p Y')) /\
      agree m p Q (snd (x_orgqr L m p p F' tau')).

  (** gesdd on complex matrices: A = U diag(s) VT with unitary U and VT. *)
  Definition csvd_of (conj : T -> T) (m n : Z) (A U : Z -> Z -> T) (s : Z -> T) (VT : Z -> Z -> T) : Prop :=
    unitary conj m U /\ unitary conj n VT /\
    (forall i j, 0 <= i < m -> 0 <= j < n ->
       A i j = zsum (Z.min m n) (fun k => omul (U i k) (omul (s k) (VT k j)))).
  Definition cgesdd_contract (conj : T -> T) (L : lapack) (m n : Z) (A : Z -> Z -> T) : Prop :=
    let '(info, _, s, U, VT) := x_gesdd L m n A in info = 0 -> csvd_of conj m n A U s VT.

  (** Conjugation: an involution compatible with the arithmetic. *)
  Definition conjugation (conj : T -> T) : Prop :=
    conj o0 = o0 /\ conj o1 = o1 /\ (forall x y, conj (oadd x y) = oadd (conj x) (conj y)) /\
    (forall x y, conj (omul x y) = omul (conj x) (conj y)) /\ (forall x, conj (conj x) = x).
  (** The Hermitian matrices given by an upper (a lower) triangle. *)
  Definition herm_upper (conj : T -> T) (A : Z -> Z -> T) : Z -> Z -> T :=
    fun i j => if i <=? j then A i j else conj (A j i).
  Definition herm_lower (conj : T -> T) (A : Z -> Z -> T) : Z -> Z -> T :=
    fun i j => if j <=? i then A i j else conj (A j i).
  (** heev with uplo = 'U' on a matrix with real diagonal. *)
  Definition heev_contract (conj : T -> T) (lt : T -> T -> bool) (L : lapack) (n : Z) (A : Z -> Z -> T) : Prop :=
    let '(info, V, w) := x_syev L n A in
    0 <= info /\
    (info = 0 -> unitary conj n V /\ (forall k, 0 <= k < n -> conj (w k) = w k) /\
       (forall i k, 0 <= i < n -> 0 <= k < n -> mmul n (herm_upper conj A) V i k = omul (w k) (V i k)) /\
       (forall k, 0 <= k < n - 1 -> lt (w (k + 1)) (w k) = false)).
End S.
