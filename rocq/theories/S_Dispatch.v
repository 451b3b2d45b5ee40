(** * S_Dispatch: what a finished einsum call must have done. *)
From Coq Require Import List ZArith Lia Bool Permutation.
From Verif Require Import Base Heap Conc M_Einsum M_Dispatch S_Einsum.
Import ListNotations.
Open Scope Z_scope.

(** A call that runs: it throws nothing and touches no unallocated memory, and
    every way of executing its parallel loop (number of threads, distribution,
    interleaving) ends in a memory satisfying [Q]. *)
Definition einsum_spec {O : Ops} (r : res (@plan O)) (Q : heap (car O) -> Prop) : Prop :=
  exists h1 body iters, r = Ok (h1, body, iters) /\
    forall threads, Permutation (concat threads) iters -> par_spec (omp_for body threads) h1 Q.

(** C(Ci) = cp * C(Ci) + ab * sum over L of A(Ai) * B(Bi), for every element of
    C; nothing else changes. *)
Definition einsum_result {O : Ops} (ext : nat -> Z) (Ci Ai Bi L : list nat) (cp ab : car O) (C : desc)
    (a b c : list Z -> car O) (h h' : heap (car O)) : Prop :=
  (forall env, env_ok ext env Ci ->
     h' (addr C (map env Ci)) =
     Some (oadd (omul cp (c (map env Ci))) (omul ab (einstein L Ai Bi ext a b env)))) /\
  (forall z, (forall env, env_ok ext env Ci -> z <> addr C (map env Ci)) -> h' z = h z).

(** A well-formed call on contiguous tensors: it compiles, every label has one
    extent (below 2^31), the tensors are allocated with contents [a b c] and C
    shares no element with A or B.  [L] are the summed labels. *)
Definition valid_call {O : Ops} (h : heap (car O)) (ext : nat -> Z) (Ci Ai Bi L : list nat) (A B C : desc)
    (a b c : list Z -> car O) : Prop :=
  (forall l, In l Ai \/ In l Bi -> In l Ci \/ (In l Ai /\ In l Bi)) /\ contracted L Ci Ai Bi /\
  (forall l, In l (Ci ++ Ai ++ Bi) -> 0 <= ext l < 2 ^ 31) /\
  consistent ext Ai A /\ consistent ext Bi B /\ consistent ext Ci C /\
  holds h A a /\ holds h B b /\ holds h C c /\ disj C A /\ disj C B.
