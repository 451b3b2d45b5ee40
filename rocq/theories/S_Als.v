(** * S_Als: specification for C72. *)
From Coq Require Import List ZArith.
From Verif Require Import Base S_Decomp.
Import ListNotations.
Open Scope Z_scope.

(** The (weighted) sum of squared differences between the tensor and the one the
    factors stand for; the weight of an element is that of its first index. *)
Definition misfit {O : Ops} (w : Z -> car O) (dims : list Z) (R : Z) (t : list Z -> car O) (fs : list (list Z -> car O)) : car O :=
  lsum (indices dims) (fun idx => let e := omul (w (hd 0 idx)) (osub (t idx) (cp_value R fs idx)) in omul e e).

(** No weights: all one. *)
Definition weight_of {O : Ops} (w : option (list Z -> car O)) (i : Z) : car O :=
  match w with Some w => w [i] | None => o1 end.

(** [P] is a set of "nonnegative" elements: sums and squares are. *)
Definition nonnegatives {O : Ops} (P : car O -> Prop) : Prop :=
  P o0 /\ (forall x y, P x -> P y -> P (oadd x y)) /\ (forall x, P (omul x x)).
Definition at_most {O : Ops} (P : car O -> Prop) (x y : car O) : Prop := P (osub y x).

(** A linear solver: error code 0 means x V = b for every row. *)
Definition solver {O : Ops} (gesv : Z -> Z -> (list Z -> car O) -> (list Z -> car O) -> Z * (list Z -> car O)) : Prop :=
  forall n k V B info X, gesv n k V B = (info, X) -> info = 0 ->
    forall i s, 0 <= i < k -> 0 <= s < n -> zsum n (fun r => omul (X [i; r]) (V [r; s])) = B [i; s].
