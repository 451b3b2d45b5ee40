(** * S_Tucker: specification for C112 and C113. *)
From Coq Require Import List ZArith Bool.
From Verif Require Import Base Heap S_Fold S_Decomp.
Import ListNotations.
Open Scope Z_scope.

Section S.
  Context {O : Ops}.
  Notation T := (car O).
  Notation ten := (list Z -> car O).

  Definition square (x : T) : T := omul x x.
  Definition norm2 (dims : list Z) (t : ten) : T := lsum (indices dims) (fun i => square (t i)).
  (** Squared distance between the tensor and what core and factors stand for. *)
  Definition tucker_misfit (dims ranks : list Z) (t g : ten) (fs : list ten) : T :=
    lsum (indices dims) (fun i => square (osub (t i) (tucker_value ranks g fs i))).

  (** Factor [n] has [ranks_n] orthonormal columns of length [dims_n]. *)
  Definition columns_orthonormal (d k : Z) (f : ten) : Prop :=
    forall a b, 0 <= a < k -> 0 <= b < k -> zsum d (fun i => omul (f [i; a]) (f [i; b])) = if a =? b then o1 else o0.
  Definition each (P : nat -> Z -> Z -> ten -> Prop) (dims ranks : list Z) (fs : list ten) : Prop :=
    length ranks = length dims /\ length fs = length dims /\
    forall n, (n < length dims)%nat -> P n (nth n dims 0) (nth n ranks 0) (nth n fs (fun _ => o0)).

  (** [W V = V diag(w)] with V orthogonal and the eigenvalues in descending
      ([lt x y]: x < y) order, and the [k] columns of [F] are the first of V. *)
  Definition leading (lt : T -> T -> bool) (d k : Z) (W : Z -> Z -> T) (F : ten) : Prop :=
    k <= d /\ exists (V : Z -> Z -> T) (w : Z -> T),
      (forall a b, 0 <= a < d -> 0 <= b < d -> zsum d (fun i => omul (V i a) (V i b)) = if a =? b then o1 else o0) /\
      (forall a b, 0 <= a < d -> 0 <= b < d -> zsum d (fun c => omul (V a c) (V b c)) = if a =? b then o1 else o0) /\
      (forall i c, 0 <= i < d -> 0 <= c < d -> zsum d (fun j => omul (W i j) (V j c)) = omul (w c) (V i c)) /\
      (forall c, 0 <= c < d - 1 -> lt (w c) (w (c + 1)) = false) /\
      (forall i c, 0 <= i < d -> 0 <= c < k -> F [i; c] = V i c).

  (** Index [i] at position [n], the others from [j]. *)
  Definition at_position (n : nat) (i : Z) (j : list Z) : list Z := firstn n j ++ i :: skipn n j.
  (** Products of slices [i] and [i'] (in position [n]) of a tensor. *)
  Definition slices (n : nat) (exts : list Z) (u : ten) (i i' : Z) : T :=
    lsum (indices (without n exts)) (fun j => omul (u (at_position n i j)) (u (at_position n i' j))).
  (** The tensor contracted with all factors except number [n]. *)
  Definition contracted (n : nat) (dims : list Z) (t : ten) (fs : list ten) : ten := fun idx =>
    lsum (indices (without n dims)) (fun j =>
      omul (t (at_position n (nth n idx 0) j)) (elems_prod (without n fs) j (without n idx))).

  (** The factors after a number of iterations: at first the leading
      eigenvectors of the products of slices of the tensor, then of the tensor contracted with the
      other factors of the iteration before. *)
  Inductive iterate (lt : T -> T -> bool) (dims ranks : list Z) (t : ten) : nat -> list ten -> Prop :=
  | iterate_0 : forall fs, each (fun n d k => leading lt d k (slices n dims t)) dims ranks fs -> iterate lt dims ranks t 0 fs
  | iterate_S : forall m fs fs', iterate lt dims ranks t m fs ->
      each (fun n d k => leading lt d k (slices n ranks (contracted n dims t fs))) dims ranks fs' ->
      iterate lt dims ranks t (S m) fs'.

  (** Root mean square difference. *)
  Definition rms_distance (sq : T -> T) (num : Z -> T) (exts : list Z) (A B : ten) : T :=
    sq (odiv (norm2 exts (fun i => osub (A i) (B i))) (num (zprod exts))).

  (** What the singular value decomposition promises for the left vectors of the
      [m] x [n] matrix [A]: when it succeeds, they are orthonormal eigenvectors of [A A^T]. *)
  Definition svd_contract (lt : T -> T -> bool) (svd : Z -> Z -> ten -> res ten) : Prop :=
    forall m n A U, svd m n A = Ok U ->
      leading lt m m (fun i i' => zsum n (fun z => omul (A [i; z]) (A [i'; z]))) U.
  (** An eigenvalue solver on the symmetric matrices it succeeds on: row [v] of
      the result is a normalised eigenvector, the eigenvalues ascend. *)
  Definition eigenrows (lt : T -> T -> bool) (n : Z) (A : ten) (E : ten) (w : Z -> T) : Prop :=
    (forall a b, 0 <= a < n -> 0 <= b < n -> zsum n (fun j => omul (E [a; j]) (E [b; j])) = if a =? b then o1 else o0) /\
    (forall i v, 0 <= i < n -> 0 <= v < n -> zsum n (fun j => omul (A [i; j]) (E [v; j])) = omul (w v) (E [v; i])) /\
    (forall v, 0 <= v < n - 1 -> lt (w (v + 1)) (w v) = false).
End S.

(** Factor [n] for a tensor with [d] slices in position [n]: eigenvectors of the
    products of slices, for the [rank] largest eigenvalues in ascending order; if [rank] exceeds
    [d], all of them followed by random columns.  In the first factor the eigenvectors are
    multiplied by the square root of the eigenvalue unless that is tiny. *)
Definition cp_start {O : Ops} (lt : car O -> car O -> bool) (sq : car O -> car O) (tiny : car O -> bool) (first : bool)
    (rank d : Z) (W : Z -> Z -> car O) (random F : list Z -> car O) : Prop :=
  exists (V : Z -> Z -> car O) (w : Z -> car O),
    (forall a b, 0 <= a < d -> 0 <= b < d -> zsum d (fun i => omul (V i a) (V i b)) = if a =? b then o1 else o0) /\
    (forall i c, 0 <= i < d -> 0 <= c < d -> zsum d (fun j => omul (W i j) (V j c)) = omul (w c) (V i c)) /\
    (forall c, 0 <= c < d - 1 -> lt (w (c + 1)) (w c) = false) /\
    forall i c, 0 <= i < d -> 0 <= c < rank ->
      let column v := if first && negb (tiny (sq (w v))) then omul (sq (w v)) (V i v) else V i v in
      (rank <= d -> F [i; c] = column (d - rank + c)) /\
      (d < rank -> F [i; c] = if c <? d then column c else random [i; c]).
