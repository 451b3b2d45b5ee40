(** * S_Red: specifications for reductions. *)
From Coq Require Import List ZArith Lia Bool.
From Verif Require Import Base Heap.
Import ListNotations.
Open Scope Z_scope.

(** A strict weak order on the values satisfying [P] (for IEEE numbers: not NaN). *)
Definition weak_order {T} (P : T -> Prop) (better : T -> T -> bool) : Prop :=
  (forall x, P x -> better x x = false) /\
  (forall x y, P x -> P y -> better x y = true -> better y x = false) /\
  (forall x y z, P x -> P y -> P z -> better x y = false -> better y z = false -> better x z = false).

(** [r] is a best value of [f] over the shape: no element is better, and [r] is
    not better than all of them. *)
Definition best_of {T} (better : T -> T -> bool) (dims : list Z) (f : list Z -> T) (r : T) : Prop :=
  (forall idx, inb idx dims -> better (f idx) r = false) /\
  (exists idx, inb idx dims /\ better r (f idx) = false).
