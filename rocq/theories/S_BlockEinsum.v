(** * S_BlockEinsum: what an einsum on block-diagonal tensors must have done. *)
From Coq Require Import List ZArith Lia Bool Permutation.
From Verif Require Import Base Heap M_Einsum M_Block S_Einsum S_Blas S_Block.
Import ListNotations.
Open Scope Z_scope.

(** C(Ci) = cp * C(Ci) + ab * sum over L of A(Ai) * B(Bi) for the dense tensors:
    [n] is the total extent, [a b] the dense operands, [dense sizes c] and
    [dense sizes c'] the block-diagonal result before and after.  Elements of C
    not named by Ci (a repeated label) and everything outside C's blocks stay. *)
Definition block_result {O : Ops} (sizes : list Z) (Ci Ai Bi L : list nat) (cp ab : car O) (C : bt)
    (a b : list Z -> car O) (c : nat -> list Z -> car O) (h h' : heap (car O)) : Prop :=
  let n := off sizes (length sizes) in
  exists c', bt_holds h' C c' /\
    (forall env, env_ok (fun _ => n) env Ci ->
       dense sizes c' (map env Ci) =
       oadd (omul cp (dense sizes c (map env Ci))) (omul ab (einstein L Ai Bi (fun _ => n) a b env))) /\
    (forall idx, length idx = length Ci -> (forall env, idx <> map env Ci) -> dense sizes c' idx = dense sizes c idx) /\
    (forall z, ~ bt_cell C z -> h' z = h z).

(** The labels of a call: it compiles, [L] are the summed labels. *)
Definition labels (L Ci Ai Bi : list nat) : Prop :=
  (forall l, In l Ai \/ In l Bi -> In l Ci \/ (In l Ai /\ In l Bi)) /\ contracted L Ci Ai Bi.

(** Patterns for which the dense calls on the blocks are known to be right
    (C11, C13, C14, C16), by the algorithm selected for them. *)
Definition path_ok {O : Ops} (L Ci Ai Bi : list nat) (cp : car O) (sizes : list Z) : Prop :=
  match dispatch (mkEin Ci Ai Bi) false true true true with
  | PElementwise => True
  | PGemm => (forall l, In l Ai -> In l Bi -> ~ In l Ci) /\ (Forall (fun n => 0 < n) sizes \/ cp = o1)
  | PGemv => Forall (fun n => 0 < n) sizes \/ cp = o1
  | PGeneric => forall l, In l L -> count_occ Nat.eq_dec Ai l = 1%nat
  | PDot | POuter => False
  end.
