(** * S_Lapack: matrices as functions, and what the LAPACK documentation
      promises about one call of each routine. *)
From Coq Require Import List ZArith Lia Bool.
From Verif Require Import Base Heap M_Lapack.
Import ListNotations.
Open Scope Z_scope.

Section S.
  Context {O : Ops}.
  Notation T := (car O).

  (** Equality of the [m] x [n] parts (of the first [n] entries). *)
  Definition agree (m n : Z) (A B : Z -> Z -> T) : Prop :=
    forall i j, 0 <= i < m -> 0 <= j < n -> A i j = B i j.
  Definition vagree (n : Z) (v w : Z -> T) : Prop := forall i, 0 <= i < n -> v i = w i.

  Definition mmul (k : Z) (A B : Z -> Z -> T) : Z -> Z -> T :=
    fun i j => zsum k (fun l => omul (A i l) (B l j)).
  Definition madd (A B : Z -> Z -> T) : Z -> Z -> T := fun i j => oadd (A i j) (B i j).
  Definition ident : Z -> Z -> T := fun i j => if i =? j then o1 else o0.
  Definition trn (A : Z -> Z -> T) : Z -> Z -> T := fun i j => A j i.
  (** The matrix held by a rank-2 tensor with contents [a]. *)
  Definition mx (a : list Z -> T) : Z -> Z -> T := fun i j => a [i; j].

  Definition inverse (n : Z) (A B : Z -> Z -> T) : Prop :=
    agree n n (mmul n A B) ident /\ agree n n (mmul n B A) ident.
  Definition orthogonal (n : Z) (U : Z -> Z -> T) : Prop := inverse n U (trn U).

  (** ** LAPACK *)

  (** getrf followed by getri: [info > 0] only for a singular matrix; otherwise
      the second call gives the inverse. *)
  Definition inv_contract (L : lapack) (n : Z) (A : Z -> Z -> T) : Prop :=
    let '(info, F, p) := x_getrf L n n A in
    0 <= info /\
    (0 < info -> forall B, ~ inverse n A B) /\
    (info = 0 -> forall F', agree n n F' F ->
       fst (x_getri L n F' p) = 0 /\ inverse n A (snd (x_getri L n F' p))).
  (** gesv: A X = B. *)
  Definition gesv_contract (L : lapack) (n k : Z) (A B : Z -> Z -> T) : Prop :=
    let '(info, _, X) := x_gesv L n k A B in
    0 <= info /\
    (info = 0 -> agree n k (mmul n A X) B) /\
    (0 < info -> forall C, ~ inverse n A C).
  (** syev with uplo = 'U': the matrix is the symmetric one with this upper
      triangle; the columns of the result are orthonormal eigenvectors. *)
  Definition from_upper (A : Z -> Z -> T) : Z -> Z -> T := fun i j => if i <=? j then A i j else A j i.
  Definition syev_contract (lt : T -> T -> bool) (L : lapack) (n : Z) (A : Z -> Z -> T) : Prop :=
    let '(info, V, w) := x_syev L n A in
    0 <= info /\
    (info = 0 -> orthogonal n V /\
       (forall i k, 0 <= i < n -> 0 <= k < n -> mmul n (from_upper A) V i k = omul (w k) (V i k)) /\
       (forall k, 0 <= k < n - 1 -> lt (w (k + 1)) (w k) = false)).
  (** gesdd with jobz = 'A': A = U diag(s) VT. *)
  Definition svd_of (lt : T -> T -> bool) (m n : Z) (A U : Z -> Z -> T) (s : Z -> T) (VT : Z -> Z -> T) : Prop :=
    orthogonal m U /\ orthogonal n VT /\
    (forall i j, 0 <= i < m -> 0 <= j < n ->
       A i j = zsum (Z.min m n) (fun k => omul (U i k) (omul (s k) (VT k j)))) /\
    (forall k, 0 <= k < Z.min m n -> lt (s k) o0 = false) /\
    (forall k, 0 <= k < Z.min m n - 1 -> lt (s k) (s (k + 1)) = false).
  Definition gesdd_contract (lt : T -> T -> bool) (L : lapack) (m n : Z) (A : Z -> Z -> T) : Prop :=
    let '(info, _, s, U, VT) := x_gesdd L m n A in info = 0 -> svd_of lt m n A U s VT.
  (** geqrf followed by orgqr on a square matrix: A = Q R, R the upper triangle
      of what geqrf leaves. *)
  Definition upper (F : Z -> Z -> T) : Z -> Z -> T := fun i j => if i <=? j then F i j else o0.
  Definition qr_contract (L : lapack) (n : Z) (A : Z -> Z -> T) : Prop :=
    let '(info, F, tau) := x_geqrf L n n A in
    info = 0 /\
    forall F' tau', agree n n F' F -> vagree n tau' tau ->
      let '(info2, Q) := x_orgqr L n n n F' tau' in
      info2 = 0 /\ orthogonal n Q /\ agree n n A (mmul n Q (upper F)).
  (** gees: A = U R U^T. *)
  Definition gees_contract (L : lapack) (n : Z) (A : Z -> Z -> T) : Prop :=
    let '(info, R, _, _, U) := x_gees L n A in
    orthogonal n U /\ agree n n (mmul n A U) (mmul n U R).
  (** trsyl with trana = tranb = 'N', isgn = 1: A X + X B = scale C. *)
  Definition trsyl_contract (L : lapack) (n : Z) (A B C : Z -> Z -> T) : Prop :=
    let '(info, X, scale) := x_trsyl L n n A B C in
    0 <= info /\
    agree n n (madd (mmul n A X) (mmul n X B)) (fun i j => omul scale (C i j)).
  (** geev: A VR(:,k) = w(k) VR(:,k) and VL(:,k)^H A = w(k) VL(:,k)^H. *)
  Definition geev_contract (conj : T -> T) (L : lapack) (n : Z) (A : Z -> Z -> T) : Prop :=
    let '(info, _, w, VL, VR) := x_geev L n A in
    info = 0 ->
    (forall i k, 0 <= i < n -> 0 <= k < n -> mmul n A VR i k = omul (w k) (VR i k)) /\
    (forall k j, 0 <= k < n -> 0 <= j < n ->
       mmul n (fun k i => conj (VL i k)) A k j = omul (w k) (conj (VL j k))).

  (** ** Powers of symmetric matrices *)

  Definition eigenpair (n : Z) (A : Z -> Z -> T) (lam : T) (x : Z -> T) : Prop :=
    forall i, 0 <= i < n -> zsum n (fun j => omul (A i j) (x j)) = omul lam (x i).
  Definition nonzero (n : Z) (x : Z -> T) : Prop := exists i, 0 <= i < n /\ x i <> o0.
  (** [M] is the largest magnitude of an eigenvalue. *)
  Definition spectral_radius (abs : T -> T) (lt : T -> T -> bool) (n : Z) (A : Z -> Z -> T) (M : T) : Prop :=
    (M = o0 \/ exists lam x, eigenpair n A lam x /\ nonzero n x /\ M = abs lam) /\
    (forall lam x, eigenpair n A lam x -> nonzero n x -> lt M (abs lam) = false).
  (** A strict order for which "is greater" can be followed along a chain. *)
  Definition strict_order (lt : T -> T -> bool) : Prop :=
    (forall x, lt x x = false) /\ (forall x y z, lt x y = true -> lt y z = true -> lt x z = true).

  (** ** Norms *)

  (** [r] is the largest of the values [f i], [i] satisfying [P], or zero. *)
  Definition largest {I} (lt : T -> T -> bool) (P : I -> Prop) (f : I -> T) (r : T) : Prop :=
    (forall i, P i -> lt r (f i) = false) /\ (r = o0 \/ exists i, P i /\ r = f i).
End S.
