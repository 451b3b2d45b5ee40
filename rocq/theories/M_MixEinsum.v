(** * M_MixEinsum: einsum and element-wise product on operands some of which are
    block-diagonal and some tiled.  Model definitions only.  Lines refer to
    /repo/src/include/einsums/tensor_algebra_backends/BlockTileAlgebra.hpp;
    BTLA = linear_algebra_imp/BlockTiledLinearAlgebra.hpp.

    Operands of one element type, on the CPU, not views. *)
From Coq Require Import List ZArith Lia Bool.
From Verif Require Import Base Heap Conc M_Addr M_Elt M_Einsum M_Blas M_Dispatch M_Block M_BlockEinsum M_Tiled M_TileEinsum.
Import ListNotations.
Open Scope Z_scope.

(** 14-20: the kinds of an operand. *)
Inductive operand := OBlock (t : bt) | OTile (t : tt).

(** _TensorAlgebraUtilities.hpp 328-443: grid of an operand of the given rank. *)
Definition op_grid (rank : nat) (o : operand) : list Z :=
  match o with
  | OBlock t => repeat (Z.of_nat (length (bt_blocks t))) rank
  | OTile t => grid t
  end.

(** BlockTensor.hpp 757 [block_dim], 745-751 [block]: [_blocks.at(i)]. *)
Definition block_at (t : bt) (i : Z) : res desc :=
  if i <? 0 then Throw else match nth_error (bt_blocks t) (Z.to_nat i) with Some d => Ok d | None => Throw end.

(** 69-80, 82-93, 95-106: coordinates of a block tensor that are not all equal. *)
Definition off_diagonal (o : operand) (c : list Z) : bool :=
  match o with
  | OBlock _ => negb (forallb (fun x => x =? hd 0 c) c)
  | OTile _ => false
  end.
(** 108-126: nothing stored there. *)
Definition absent (o : operand) (c : list Z) : res bool :=
  match o with
  | OBlock t => d <- block_at t (hd 0 c) ;; Ok (tdim d 0 =? 0)
  | OTile t => Ok (negb (has_tile_c t c) || has_zero_size t c)
  end.
(** The argument of the dense call, 138-163. *)
Definition piece (o : operand) (c : list Z) : res desc :=
  match o with
  | OBlock t => block_at t (hd 0 c)
  | OTile t => const_tile t c
  end.
Definition is_block (o : operand) : bool := match o with OBlock _ => true | OTile _ => false end.

Section Mix.
  Context {O : Ops}.
  Notation T := (car O).
  Variable al : heap T -> Z -> option Z.   (* the allocator, see M_Tiled *)

  (** 59-106, 145-165: one iteration, tiled C.  C's and the tile's locks make the
      creation of the tile and the contraction atomic.  156-163 have no case for
      A and B both tiled; [requires] (18) excludes it. *)
  Definition mix_tile_step (e : ein) (ab : T) (A B : operand) (U : list nat) (strides : list Z) (sentinel : Z)
      (s : tt * heap T) : res (tt * heap T) :=
    let idx := sentinel_to_indices sentinel strides in
    let ca := tile_coords U (eA e) idx in
    let cb := tile_coords U (eB e) idx in
    let cc := tile_coords U (eC e) idx in
    if off_diagonal A ca then Ok s
    else if off_diagonal B cb then Ok s
    else
      na <- absent A ca ;; if na then Ok s else
      nb <- absent B cb ;; if nb then Ok s else
      if has_zero_size (fst s) cc then Ok s
      else
        r <- tile al cc s ;;
        a <- piece A ca ;; b <- piece B cb ;;
        h' <- dense_einsum e o1 (fst r) ab a b (snd (snd r)) ;;
        Ok (fst (snd r), h').
  (** 12-167 for a tiled C.  48-56: [IsTensorViewV] is false, so C is cleared by
      [zero] (its tiles are destroyed) when the prefactor is zero. *)
  Definition mix_tiled (e : ein) (cp ab : T) (A B : operand) (order : list Z) (s : tt * heap T) : res (tt * heap T) :=
    let g := unique_strides e (grid (fst s)) (op_grid (length (eA e)) A) (op_grid (length (eB e)) B) in
    s1 <- (if oeqb cp o0 then Ok (tt_zero s) else tt_scale cp s) ;;
    forM order (mix_tile_step e ab A B (unique_labels e) g) s1.

  (** 59-144: one iteration, block C.  137-143: a call if A or B is a block
      tensor; no call if both are tiled. *)
  Definition mix_block_step (e : ein) (ab : T) (A B : operand) (C : bt) (U : list nat) (strides : list Z) (sentinel : Z)
      (h : heap T) : res (heap T) :=
    let idx := sentinel_to_indices sentinel strides in
    let ca := tile_coords U (eA e) idx in
    let cb := tile_coords U (eB e) idx in
    let cc := tile_coords U (eC e) idx in
    if off_diagonal A ca then Ok h
    else if off_diagonal B cb then Ok h
    else if off_diagonal (OBlock C) cc then Ok h
    else
      na <- absent A ca ;; if na then Ok h else
      nb <- absent B cb ;; if nb then Ok h else
      c <- block_at C (hd 0 cc) ;;
      if tdim c 0 =? 0 then Ok h
      else if is_block A || is_block B then
        a <- piece A ca ;; b <- piece B cb ;; dense_einsum e o1 c ab a b h
      else Ok h.
  (** BlockTensor.hpp 194-199 [zero]; the blocks share no memory, so the parallel
      loop is run in order. *)
  Definition blocks_zero (t : bt) (h : heap T) : res (heap T) := forM (bt_blocks t) (tile_fill o0) h.
  (** BlockTensor.hpp 633-666: [*=] with a scalar. *)
  Definition blocks_op (op : T -> T -> T) (v : T) (t : bt) (h : heap T) : res (heap T) :=
    forM (bt_blocks t) (fun d h => if tdim d 0 =? 0 then Ok h else tile_op op v d h) h.
  (** 12-167 for a block-diagonal C. *)
  Definition mix_block (e : ein) (cp ab : T) (A B : operand) (C : bt) (order : list Z) (h : heap T) : res (heap T) :=
    let g := unique_strides e (op_grid (length (eC e)) (OBlock C)) (op_grid (length (eA e)) A) (op_grid (length (eB e)) B) in
    h1 <- (if oeqb cp o0 then blocks_zero C h else blocks_op omul cp C h) ;;
    forM order (mix_block_step e ab A B C (unique_labels e) g) h1.

  (** BTLA 12-70 [direct_product].  [index] (29) is [std::array<int, Rank>{i}],
      that is (i, 0, ..., 0).  33-36, 43-45, 49-51, 57-59, 65-67: skipped, looking
      at the tiled operand and at the block of the other one, or at A's block. *)
  Definition direct_skip (A B : operand) (index : list Z) (i : Z) : res bool :=
    match A, B with
    | OTile a, OBlock b => if negb (has_tile_c a index) then Ok true else d <- block_at b i ;; Ok (tdim d 0 =? 0)
    | OBlock a, OTile b => if negb (has_tile_c b index) then Ok true else d <- block_at a i ;; Ok (tdim d 0 =? 0)
    | OBlock a, OBlock _ => d <- block_at a i ;; Ok (tdim d 0 =? 0)
    | OTile _, OTile _ => Throw   (* excluded at compile time, 14-17 *)
    end.
  Definition direct_piece (o : operand) (index : list Z) (i : Z) : res desc :=
    match o with OBlock t => block_at t i | OTile t => const_tile t index end.
  Definition dense_direct (alpha : T) (a b : desc) (beta : T) (c : desc) (h : heap T) : res (heap T) :=
    plan_run (p <- la_direct_product alpha a b beta c h ;; Ok (fst p, snd p, indices (map to_int32 (ddims c)))).
  Definition mix_direct_tiled (rank : nat) (alpha : T) (A B : operand) (beta : T) (i : Z) (s : tt * heap T)
      : res (tt * heap T) :=
    let index := i :: repeat 0 (rank - 1) in
    sk <- direct_skip A B index i ;;
    if sk then Ok s
    else
      r <- tile al index s ;;
      a <- direct_piece A index i ;; b <- direct_piece B index i ;;
      h' <- dense_direct alpha a b beta (fst r) (snd (snd r)) ;;
      Ok (fst (snd r), h').
  Definition mix_direct_block (rank : nat) (alpha : T) (A B : operand) (beta : T) (C : bt) (i : Z) (h : heap T)
      : res (heap T) :=
    let index := i :: repeat 0 (rank - 1) in
    sk <- direct_skip A B index i ;;
    if sk then Ok h
    else
      a <- direct_piece A index i ;; b <- direct_piece B index i ;; c <- block_at C i ;;
      dense_direct alpha a b beta c h.

  (** Dispatch.hpp 215-229, 492-501: the whole call.  [order]: the order of the
      iterations of the parallel loop (of 58-166, or of BTLA 27-70). *)
  Definition mix_einsum_tiled (e : ein) (cp ab : T) (A B : operand) (order : list Z) (s : tt * heap T) : res (tt * heap T) :=
    if element_wise_multiplication e then forM order (mix_direct_tiled (length (eC e)) ab A B cp) s
    else mix_tiled e cp ab A B order s.
  Definition mix_einsum_block (e : ein) (cp ab : T) (A B : operand) (C : bt) (order : list Z) (h : heap T) : res (heap T) :=
    if element_wise_multiplication e then forM order (mix_direct_block (length (eC e)) ab A B cp C) h
    else mix_block e cp ab A B C order h.
End Mix.

(** 58: the bound of the loop. *)
Definition mix_iterations (e : ein) (C A B : operand) : Z :=
  tile_iterations e (op_grid (length (eC e)) C) (op_grid (length (eA e)) A) (op_grid (length (eB e)) B).
