(** * S_Einsum: what an Einstein sum is. *)
From Coq Require Import List ZArith Lia Bool Permutation.
From Verif Require Import Base Heap.
Import ListNotations.
Open Scope Z_scope.

(** The elements of [d] in memory [h] are the values [f]. *)
Definition holds {T} (h : heap T) (d : desc) (f : list Z -> T) : Prop :=
  forall idx, inb idx (ddims d) -> h (addr d idx) = Some (f idx).

(** Assignment of a value to every label; [upde] changes one label. *)
Definition upde (env : nat -> Z) (l : nat) (v : Z) : nat -> Z :=
  fun x => if Nat.eqb x l then v else env x.

(** Sum of [f] over all values (below [ext l]) of the labels in [L]. *)
Fixpoint Sum_over {O : Ops} (L : list nat) (ext : nat -> Z) (env : nat -> Z) (f : (nat -> Z) -> car O) : car O :=
  match L with
  | [] => f env
  | l :: r => zsum (ext l) (fun v => Sum_over r ext (upde env l v) f)
  end.

(** [L] enumerates, once each, the labels of A and B that are not labels of C. *)
Definition contracted (L Ci Ai Bi : list nat) : Prop :=
  NoDup L /\ forall l, In l L <-> (In l Ai \/ In l Bi) /\ ~ In l Ci.

(** Einstein sum for the target element selected by [env]. *)
Definition einstein {O : Ops} (L Ai Bi : list nat) (ext : nat -> Z) (a b : list Z -> car O) (env : nat -> Z) : car O :=
  Sum_over L ext env (fun env => omul (a (map env Ai)) (b (map env Bi))).

(** [env] gives every label of [L] a value inside its extent. *)
Definition env_ok (ext env : nat -> Z) (L : list nat) : Prop :=
  forall l, In l L -> 0 <= env l < ext l.

(** Every label has one extent in all tensors. *)
Definition consistent (ext : nat -> Z) (L : list nat) (d : desc) : Prop := ddims d = map ext L.
