(** * S_Runtime: specification for run-time tensors (C43). *)
From Coq Require Import List ZArith.
From Verif Require Import Base Heap M_Addr S_Addr S_Fun.
Import ListNotations.
Open Scope Z_scope.

(** What a range means to the run-time interface: [Range{-1,k}] is index [k]
    (the axis disappears), anything else a range of positions. *)
Definition range_means (r : Z * Z) : sarg := if fst r =? -1 then SInt (snd r) else SRange (fst r) (snd r).

(** Axes without an argument are taken whole. *)
Definition fill_up (n : nat) (args : list sarg) : list sarg := args ++ repeat SAll (n - length args).

(** Arguments the run-time interface accepts for an axis of extent [d]:
    indices counted from the front or from the back, whole (non-empty) axes,
    non-empty ranges counted from the front. *)
Definition accepted (a : sarg) (d : Z) : Prop :=
  match a with
  | SInt k => - d <= k < d
  | SAll => 0 < d
  | SRange lo hi => 0 <= lo /\ lo < hi <= d
  end.

(** A chain of slices, each with at most as many arguments as axes. *)
Fixpoint filled (argss : list (list sarg)) (dims : list Z) : list (list sarg) :=
  match argss with
  | [] => []
  | a :: r => let a' := fill_up (length dims) a in a' :: filled r (slice_dims a' dims)
  end.
Fixpoint chain_accepted (argss : list (list sarg)) (dims : list Z) : Prop :=
  match argss with
  | [] => True
  | a :: r => (length a <= length dims)%nat /\ Forall2 accepted (fill_up (length dims) a) dims /\
              chain_accepted r (slice_dims (fill_up (length dims) a) dims)
  end.
