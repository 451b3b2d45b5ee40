(** * M_BlockSort: sort of block-diagonal tensors.  Model definitions only.
    File: /repo/src/include/einsums/ContainerSort.hpp.  Not modelled: the tiled
    version (56-108; [get_grid_ranges_for_many] has a template argument that
    cannot be deduced, so no call compiles). *)
From Coq Require Import List ZArith Lia Bool.
From Verif Require Import Base Heap Conc M_Addr M_Elt M_Einsum M_Blas M_Dispatch M_Sort M_Block M_BlockEinsum.
Import ListNotations.
Open Scope Z_scope.

Section BlockSort.
  Context {O : Ops}.
  Notation T := (car O).

  (** 19-37: the loop runs over the blocks of A, in an arbitrary order [order];
      nothing compares the two block structures; [(T)[i]] throws outside the
      vector of blocks (BlockTensor.hpp 561-566). *)
  Definition block_sort (use_hptt : bool) (uc : T) (Ci : list label) (C : bt) (ua : T) (Ai : list label) (A : bt)
      (order : list nat) (h : heap T) : res (heap T) :=
    forM order (fun i h =>
      match nth_error (bt_blocks C) i, nth_error (bt_blocks A) i with
      | Some c, Some a => plan_run (sort use_hptt uc Ci c ua Ai a h)
      | _, _ => Throw
      end) h.
End BlockSort.
