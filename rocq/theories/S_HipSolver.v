(** * S_HipSolver: LAPACK routines whose results depend only on the numbers
    they are given. *)
From Coq Require Import List ZArith Lia Bool.
From Verif Require Import Base Heap M_Lapack.
Open Scope Z_scope.

Section Depends.
  Context {O : Ops}.
  Notation T := (car O).
  Definition eqm (A B : Z -> Z -> T) : Prop := forall i j, A i j = B i j.
  (** Equal numbers in, equal numbers out. *)
  Definition numeric (L : @lapack O) : Prop :=
    (forall n A B, eqm A B ->
       let '(i, V, W) := x_syev L n A in let '(i', V', W') := x_syev L n B in
       i = i' /\ eqm V V' /\ forall k, W k = W' k) /\
    (forall n r A A' B B', eqm A A' -> eqm B B' ->
       let '(i, F, X) := x_gesv L n r A B in let '(i', F', X') := x_gesv L n r A' B' in
       i = i' /\ eqm F F' /\ eqm X X') /\
    (forall m n A B, eqm A B ->
       let '(i, F, p) := x_getrf L m n A in let '(i', F', p') := x_getrf L m n B in
       i = i' /\ eqm F F' /\ p = p').
End Depends.
