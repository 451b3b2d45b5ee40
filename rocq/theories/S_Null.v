(** * S_Null: what a null space basis is (independent of the code). *)
From Coq Require Import List ZArith.
From Verif Require Import Base.
Import ListNotations.
Open Scope Z_scope.

Section Null.
  Context {O : Ops}.
  Notation T := (car O).

  (** A x = 0 for an m x n matrix. *)
  Definition in_kernel (m n : Z) (A : Z -> Z -> T) (x : Z -> T) : Prop :=
    forall p, 0 <= p < m -> zsum n (fun j => omul (A p j) (x j)) = o0.
  (** Rows 0 .. r-1 of N are orthonormal. *)
  Definition orthonormal_rows (r n : Z) (N : Z -> Z -> T) : Prop :=
    forall i k, 0 <= i < r -> 0 <= k < r ->
      zsum n (fun j => omul (N i j) (N k j)) = (if i =? k then o1 else o0).
  (** Rows 0 .. r-1 of N are an orthonormal basis of the null space of A. *)
  Definition null_basis (m n : Z) (A : Z -> Z -> T) (r : Z) (N : Z -> Z -> T) : Prop :=
    orthonormal_rows r n N /\
    (forall i, 0 <= i < r -> in_kernel m n A (N i)) /\
    (forall x, in_kernel m n A x -> exists c, forall j, 0 <= j < n -> x j = zsum r (fun i => omul (c i) (N i j))).
End Null.
