(** * S_MixEinsum: block-diagonal and tiled operands seen as dense tensors. *)
From Coq Require Import List ZArith Lia Bool Permutation.
From Verif Require Import Base Heap M_Einsum M_Blas M_Dispatch M_Block M_Tiled M_MixEinsum S_Einsum S_Blas S_Block S_Tiled S_BlockEinsum S_TileEinsum.
Import ListNotations.
Open Scope Z_scope.

(** The operand with the labels [I] stands for the dense tensor [f]; [lab l] are
    the tile (or block) sizes of the label [l]. *)
Inductive stands {O : Ops} (lab : nat -> list Z) (I : list nat) (h : heap (car O)) : operand -> (list Z -> car O) -> Prop :=
| stands_block : forall t sizes f, I <> [] -> (forall l, In l I -> lab l = sizes) ->
    bt_ok (length I) t sizes -> bt_sep t -> bt_holds h t f -> stands lab I h (OBlock t) (dense sizes f)
| stands_tile : forall t f, tt_ok t -> tt_sizes t = map lab I -> tt_holds h t f -> stands lab I h (OTile t) f.

(** Address [z] belongs to the operand. *)
Definition op_cell (o : operand) (z : Z) : Prop :=
  match o with OBlock t => bt_cell t z | OTile t => tt_cell t z end.
