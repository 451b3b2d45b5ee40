(** * S_TileEinsum: what an einsum on tiled tensors must have done. *)
From Coq Require Import List ZArith Lia Bool Permutation.
From Verif Require Import Base Heap M_Einsum M_Blas M_Dispatch M_Tiled S_Einsum S_Block S_Tiled.
Import ListNotations.
Open Scope Z_scope.

(** [lab l]: the tile sizes of every axis that carries the label [l]. *)
Definition total (lab : nat -> list Z) (l : nat) : Z := off (lab l) (length (lab l)).

(** C(Ci) = cp * C(Ci) + ab * sum over L of A(Ai) * B(Bi) for the whole tensors
    [a b c], read from the tiled result.  Elements not named by Ci (a repeated
    label) are multiplied by [cp]. *)
Definition tile_result {O : Ops} (lab : nat -> list Z) (Ci Ai Bi L : list nat) (cp ab : car O)
    (a b c : list Z -> car O) (idx : list Z) (v : car O) : Prop :=
  (forall env, idx = map env Ci ->
     v = oadd (omul cp (c idx)) (omul ab (einstein L Ai Bi (total lab) a b env))) /\
  ((forall env, idx <> map env Ci) -> v = omul cp (c idx)).

(** Patterns for which the dense calls on the tiles are right (C11, C13, C14,
    C15), by the algorithm selected for them. *)
Definition tile_path_ok (L Ci Ai Bi : list nat) : Prop :=
  match dispatch (mkEin Ci Ai Bi) false true true true with
  | PElementwise | PDot => False
  | POuter => Ai <> [] /\ Bi <> [] /\ (Ci = Ai ++ Bi \/ Ci = Bi ++ Ai)
  | PGemm => incl Ci (Ai ++ Bi) /\ (forall l, In l Ai -> In l Bi -> ~ In l Ci)
  | PGemv => incl Ci (Ai ++ Bi)
  | PGeneric => forall l, In l L -> count_occ Nat.eq_dec Ai l = 1%nat
  end.
