(** * S_Fold: specification for C39. *)
From Coq Require Import List ZArith.
From Verif Require Import Base.
Import ListNotations.
Open Scope Z_scope.

(** Position of a multi-index in row-major (last index fastest) order. *)
Fixpoint rowcode (dims idx : list Z) : Z :=
  match dims, idx with
  | d :: ds, i :: is => i * zprod ds + rowcode ds is
  | _, _ => 0
  end.
(** A list without its entry at position [mode]. *)
Definition without {T} (mode : nat) (l : list T) : list T := firstn mode l ++ skipn (S mode) l.
