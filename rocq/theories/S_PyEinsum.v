(** * S_PyEinsum: what a finished einsum call from Python must have done. *)
From Coq Require Import List ZArith Lia Bool Permutation.
From Verif Require Import Base Heap Conc M_Einsum M_Blas M_PyEinsum S_Einsum.
Import ListNotations.
Open Scope Z_scope.

(** Executing the steps of a plan with [k] threads: no exception, no access to
    unallocated memory, and every schedule of every parallel loop leads to a
    memory satisfying [Q]. *)
Fixpoint steps_spec {O : Ops} (k : nat) (ss : list (@pystep O)) (h : heap (car O)) (Q : heap (car O) -> Prop) : Prop :=
  match ss with
  | [] => Q h
  | PySeq f :: r => exists h', f h = Ok h' /\ steps_spec k r h' Q
  | PyFor body n :: r =>
      forall threads, Permutation (concat threads) (zrange n) ->
        par_spec (omp_for body threads) h (fun h' => steps_spec k r h' Q)
  | PyRegion body n :: r =>
      par_spec (omp_for body (map (strided k n) (seq 0 k))) h (fun h' => steps_spec k r h' Q)
  | PyReduce c f n :: r =>
      forall threads, Permutation (concat threads) (zrange n) ->
        exists h', exec (reduce c f threads) h = Ok h' /\ steps_spec k r h' Q
  end.

(** A call that runs and establishes [Q]. *)
Definition py_runs {O : Ops} (k : nat) (r : res (list (@pystep O))) (h : heap (car O)) (Q : heap (car O) -> Prop) : Prop :=
  exists ss, r = Ok ss /\ steps_spec k ss h Q.

(** C = cp * C + ab * (the sum over the labels [L] of A * B), where the sum is
    zero outside the elements that the labels of C can address (only possible
    if C has a repeated label); nothing outside C changes. *)
Definition py_result {O : Ops} (ext : nat -> Z) (Ci Ai Bi L : list nat) (cp ab : car O) (C : desc)
    (a b c : list Z -> car O) (h h' : heap (car O)) : Prop :=
  (forall env, env_ok ext env Ci ->
     h' (addr C (map env Ci)) =
     Some (oadd (omul cp (c (map env Ci))) (omul ab (einstein L Ai Bi ext a b env)))) /\
  (forall idx, inb idx (ddims C) -> (forall env, env_ok ext env Ci -> idx <> map env Ci) ->
     h' (addr C idx) = Some (omul cp (c idx))) /\
  (forall z, (forall idx, inb idx (ddims C) -> z <> addr C idx) -> h' z = h z).

(** The buffers of a call: every label has one extent, the buffers are
    allocated with contents [a b c], no two positions of C share an element
    and C shares none with A or B.  [L] are the summed labels.  No condition on
    the strides. *)
Definition py_call {O : Ops} (h : heap (car O)) (ext : nat -> Z) (Ci Ai Bi L : list nat) (A B C : desc)
    (a b c : list Z -> car O) : Prop :=
  contracted L Ci Ai Bi /\ (forall l, 0 <= ext l) /\
  consistent ext Ai A /\ consistent ext Bi B /\ consistent ext Ci C /\
  holds h A a /\ holds h B b /\ holds h C c /\ inj C /\ disj C A /\ disj C B.

(** The labels [P] and [Q] of an operand, in this order or ([t]) the other. *)
Definition blk (t : bool) (P Q : list nat) : list nat := if t then Q ++ P else P ++ Q.

(** Every label occurs in exactly two of the three index lists, once in each. *)
Definition paired (Ci Ai Bi : list nat) : Prop :=
  NoDup Ci /\ NoDup Ai /\ NoDup Bi /\
  forall l, (In l Ai -> ~ (In l Bi <-> In l Ci)) /\ (In l Bi -> ~ (In l Ai <-> In l Ci)) /\ (In l Ci -> ~ (In l Ai <-> In l Bi)).
