(** * M_BlockArith: arithmetic assignment and fills of block-diagonal tensors.
    Model definitions only.  Lines: /repo/src/include/einsums/BlockTensor.hpp.
    [blocks_op] (scalar [OP=], 633-642) and [blocks_zero] (194-199) are in
    M_MixEinsum. *)
From Coq Require Import List ZArith Lia Bool.
From Verif Require Import Base Heap Conc M_Addr M_Elt M_Einsum M_Blas M_Block M_Tiled M_MixEinsum.
Import ListNotations.
Open Scope Z_scope.

Section BlockArith.
  Context {O : Ops}.
  Notation T := (car O).

  (** 206-211 [set_all]. *)
  Definition blocks_fill (v : T) (t : bt) (order : list nat) (h : heap T) : res (heap T) :=
    forM order (fun i h => match nth_error (bt_blocks t) i with Some d => tile_fill v d h | None => UB end) h.

  (** 649-653: the sizes ([data_size] of the extents) of the blocks agree. *)
  Definition same_block_sizes (t u : bt) : bool :=
    forallb (fun p => data_size (ddims (fst p)) =? data_size (ddims (snd p))) (combine (bt_blocks t) (bt_blocks u)).

  (** 644-663 [OP=] with a block tensor; [order]: the order in which the parallel
      loop completes the blocks.  [_blocks[i]] is not range-checked. *)
  Definition blocks_op2 (op : T -> T -> T) (u t : bt) (order : list nat) (h : heap T) : res (heap T) :=
    if negb (Nat.eqb (length (bt_blocks t)) (length (bt_blocks u))) then Throw
    else if negb (same_block_sizes t u) then Throw
    else forM order (fun i h =>
      match nth_error (bt_blocks t) i, nth_error (bt_blocks u) i with
      | Some d, Some e => if tdim d 0 =? 0 then Ok h else tile_op2 op e d h
      | _, _ => UB
      end) h.
End BlockArith.
