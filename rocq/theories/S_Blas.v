(** * S_Blas: matrices, vectors and what the linear-algebra calls should do. *)
From Coq Require Import List ZArith Lia Bool.
From Verif Require Import Base Heap.
Import ListNotations.
Open Scope Z_scope.

(** Row-major [r] x [c] matrix with leading stride [ld]. *)
Definition mat (d : desc) (r c ld : Z) : Prop :=
  ddims d = [r; c] /\ dstrides d = [ld; 1] /\ c <= ld.
(** Vector of [n] elements with stride [inc]. *)
Definition vect (d : desc) (n inc : Z) : Prop := ddims d = [n] /\ dstrides d = [inc] /\ 0 < inc.

Definition nonneg (dims : list Z) : Prop := Forall (fun d => 0 <= d) dims.

(** Contiguous row-major storage: each stride is the product of the extents
    that follow. *)
Fixpoint contiguous_strides (dims strides : list Z) : Prop :=
  match dims, strides with
  | [], [] => True
  | _ :: ds, s :: ss => s = zprod ds /\ contiguous_strides ds ss
  | _, _ => False
  end.
Definition contiguous (d : desc) : Prop := contiguous_strides (ddims d) (dstrides d).

(** Element (i, j) of op(A). *)
Definition op {T} (trans : bool) (a : list Z -> T) (i j : Z) : T := if trans then a [j; i] else a [i; j].

(** Determinant of the upper left [n] x [n] part, by expansion along row 0. *)
Definition minor {T} (m : nat -> nat -> T) (c : nat) : nat -> nat -> T :=
  fun i j => m (S i) (if Nat.ltb j c then j else S j).
Fixpoint nsum {O : Ops} (n : nat) (f : nat -> car O) : car O :=
  match n with 0%nat => o0 | S k => oadd (nsum k f) (f k) end.
Fixpoint determinant {O : Ops} (n : nat) (m : nat -> nat -> car O) : car O :=
  match n with
  | 0%nat => o1
  | S k => nsum n (fun j => omul (if Nat.even j then o1 else oopp o1) (omul (m 0%nat j) (determinant k (minor m j))))
  end.

(** A LAPACK pivot vector: row [i] (1-based) was exchanged with a row at or
    below it. *)
Definition valid_pivots (n : Z) (p : list Z) : Prop :=
  Z.of_nat (length p) = n /\ forall i, 0 <= i < n -> i + 1 <= nth (Z.to_nat i) p 0 <= n.
Definition no_interchange (n : Z) (p : list Z) : Prop :=
  forall i, 0 <= i < n -> nth (Z.to_nat i) p 0 = i + 1.
(** [l] unit lower and [u] upper triangular with [m = l u] ([n] x [n]). *)
Definition lu_factors {O : Ops} (n : Z) (m l u : Z -> Z -> car O) : Prop :=
  (forall i j, 0 <= i < n -> 0 <= j < n -> m i j = zsum n (fun k => omul (l i k) (u k j))) /\
  (forall i, 0 <= i < n -> l i i = o1) /\
  (forall i j, 0 <= i < j -> j < n -> l i j = o0) /\
  (forall i j, 0 <= j < i -> i < n -> u i j = o0).
