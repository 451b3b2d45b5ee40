(** * S_Fun: specification for function tensors (C41). *)
From Coq Require Import List ZArith.
From Verif Require Import Base M_Addr S_Addr.
Import ListNotations.
Open Scope Z_scope.

(** A chain of slices: [argss] lists the arguments of a slice of the tensor, of
    a slice of that slice, and so on. *)
Fixpoint chain_ok (argss : list (list sarg)) (dims : list Z) : Prop :=
  match argss with [] => True | a :: r => Forall2 arg_ok a dims /\ chain_ok r (slice_dims a dims) end.
(** Extents of the last slice. *)
Fixpoint chain_dims (argss : list (list sarg)) (dims : list Z) : list Z :=
  match argss with [] => dims | a :: r => chain_dims r (slice_dims a dims) end.
(** Element [j] of the last slice is element [p] of the tensor. *)
Fixpoint sees (argss : list (list sarg)) (dims j p : list Z) : Prop :=
  match argss with [] => j = p | a :: r => exists q, selects a dims q p /\ sees r (slice_dims a dims) j q end.
