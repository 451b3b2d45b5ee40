(** * M_TileEinsum: einsum on tiled tensors.  Model definitions only.
    Lines refer to
    /repo/src/include/einsums/tensor_algebra_backends/TileAlgebra.hpp; other
    files are named (TLA = linear_algebra_imp/TiledLinearAlgebra.hpp, TAU =
    _TensorAlgebraUtilities.hpp, both under /repo/src/include/einsums).

    Operands of one element type, on the CPU.  Tensors that are views of tiled
    tensors are not modelled. *)
From Coq Require Import List ZArith Lia Bool.
From Verif Require Import Base Heap Conc M_Addr M_Elt M_Einsum M_Blas M_Dispatch M_Block M_BlockEinsum M_Tiled.
Import ListNotations.
Open Scope Z_scope.

(** TAU 328-443 [get_grid_ranges_for_many_c/_a/_b]: number of tiles along the
    first axis that carries the label, looking at C, then A, then B; 1 if there
    is none.  [gC gA gB]: the grids. *)
Definition grid_of (I : list nat) (g : list Z) (l : nat) : option Z :=
  match find_position l I with Some p => nth_error g p | None => None end.
Definition label_grid (e : ein) (gC gA gB : list Z) (l : nat) : Z :=
  match grid_of (eC e) gC l with
  | Some n => n
  | None => match grid_of (eA e) gA l with
            | Some n => n
            | None => match grid_of (eB e) gB l with Some n => n | None => 1 end
            end
  end.
(** 30-31: the labels, once each, and TAU 455-463 their grid sizes. *)
Definition unique_labels (e : ein) : list nat := unique (eC e ++ eA e ++ eB e).
Definition unique_grid (e : ein) (gC gA gB : list Z) : list Z := map (label_grid e gC gA gB) (unique_labels e).
(** 33-35 *)
Definition unique_strides (e : ein) (gC gA gB : list Z) : list Z := fst (dims_to_strides (unique_grid e gC gA gB)).
(** 56: the bound of the loop; there is at least one label. *)
Definition tile_iterations (e : ein) (gC gA gB : list Z) : Z := hd 0 (unique_grid e gC gA gB) * hd 0 (unique_strides e gC gA gB).
(** 37-43, 64-74 and IndexUtils.hpp 358-405 [compile_index_table]: tile
    coordinates of a tensor with the labels [I]; every label of [I] is in [U].
    (Entry -1 of the table, for a missing label, would be a read out of bounds.) *)
Definition tile_coords (U I : list nat) (idx : list Z) : list Z :=
  map (fun l => match find_position l U with Some p => nth p idx 0 | None => -1 end) I.

Section TileEinsum.
  Context {O : Ops}.
  Notation T := (car O).
  Variable al : heap T -> Z -> option Z.   (* the allocator, see M_Tiled *)

  (** 57-87: one iteration.  The lock of C makes tile creation atomic, the lock
      of the tile makes the contraction atomic, so that a run of the loop has the
      effect of the iterations in some order. *)
  Definition tile_step (e : ein) (ab : T) (A B : tt) (U : list nat) (strides : list Z) (sentinel : Z) (s : tt * heap T)
      : res (tt * heap T) :=
    let idx := sentinel_to_indices sentinel strides in
    let ca := tile_coords U (eA e) idx in
    let cb := tile_coords U (eB e) idx in
    let cc := tile_coords U (eC e) idx in
    if negb (has_tile_c A ca) || negb (has_tile_c B cb) || has_zero_size A ca || has_zero_size B cb
       || has_zero_size (fst s) cc then Ok s
    else
      r <- tile al cc s ;;
      a <- const_tile A ca ;; b <- const_tile B cb ;;
      h' <- dense_einsum e o1 (fst r) ab a b (snd (snd r)) ;;
      Ok (fst (snd r), h').

  (** 14-89; [order]: the order of the iterations. *)
  Definition tile_special (e : ein) (cp ab : T) (A B : tt) (order : list Z) (s : tt * heap T) : res (tt * heap T) :=
    let gC := grid (fst s) in let gA := grid A in let gB := grid B in
    s1 <- (if oeqb cp o0 then tt_zero_no_clear s else tt_scale cp s) ;;
    forM order (tile_step e ab A B (unique_labels e) (unique_strides e gC gA gB)) s1.

  (** TLA 297-320 [direct_product]; [order]: any order of the grid positions. *)
  Definition direct_step (alpha : T) (A B : tt) (beta : T) (sentinel : Z) (s : tt * heap T) : res (tt * heap T) :=
    let c := col_decode (grid A) sentinel in
    if has_tile_c A c && has_tile_c B c && negb (has_zero_size A c) && negb (has_zero_size B c) then
      r <- tile al c s ;;
      a <- const_tile A c ;; b <- const_tile B c ;;
      h' <- plan_run (p <- la_direct_product alpha a b beta (fst r) (snd (snd r)) ;;
                      Ok (fst p, snd p, indices (map to_int32 (ddims (fst r))))) ;;
      Ok (fst (snd r), h')
    else Ok s.
  Definition tt_direct_product (alpha : T) (A B : tt) (beta : T) (order : list Z) (s : tt * heap T) : res (tt * heap T) :=
    forM order (direct_step alpha A B beta) s.

  (** Dispatch.hpp 215-229, 492-501: the whole call with a tiled result. *)
  Definition tile_einsum (e : ein) (cp ab : T) (A B : tt) (order : list Z) (s : tt * heap T) : res (tt * heap T) :=
    if element_wise_multiplication e then tt_direct_product ab A B cp order s
    else tile_special e cp ab A B order s.

  (** 91-154, scalar result.  [C]: address of the result; [tmp]: address of
      [C_tile] (147), unallocated outside the iteration; [threads]: the
      iterations of each thread, every thread adding into a private [out]. *)
  Definition tile_scalar_step (e : ein) (ab : T) (A B : tt) (U : list nat) (strides : list Z) (tmp sentinel : Z)
      (s : T * heap T) : res (T * heap T) :=
    let idx := sentinel_to_indices sentinel strides in
    let ca := tile_coords U (eA e) idx in
    let cb := tile_coords U (eB e) idx in
    if negb (has_tile_c A ca) || negb (has_tile_c B cb) || has_zero_size A ca || has_zero_size B cb then Ok s
    else
      a <- const_tile A ca ;; b <- const_tile B cb ;;
      h2 <- plan_run (einsum e true true true true false false o0 (mkDesc tmp [] []) ab a b (upd (snd s) tmp o0)) ;;
      v <- rd h2 tmp ;;
      Ok (oadd (fst s) v, fun z => if z =? tmp then None else h2 z).
  Definition tile_scalar_special (e : ein) (cp : T) (C : Z) (ab : T) (A B : tt) (tmp : Z) (threads : list (list Z))
      (h : heap T) : res (heap T) :=
    c0 <- rd h C ;;
    h1 <- wr h C (if oeqb cp o0 then o0 else omul c0 cp) ;;
    let gA := grid A in let gB := grid B in
    r <- forM threads (fun share s =>
           p <- forM share (tile_scalar_step e ab A B (unique_labels e) (unique_strides e [] gA gB) tmp) (o0, snd s) ;;
           Ok (oadd (fst s) (fst p), snd p)) (o0, h1) ;;
    c1 <- rd (snd r) C ;;
    wr (snd r) C (oadd c1 (fst r)).
  (** Dispatch.hpp 215-220, 492-501: the whole call with a scalar result. *)
  Definition tile_scalar (e : ein) (cp : T) (C : Z) (ab : T) (A B : tt) (tmp : Z) (threads : list (list Z)) (h : heap T)
      : res (heap T) :=
    if dot_product e then
      temp <- tt_dot A B (concat threads) h ;;
      v <- rd h C ;; h1 <- wr h C (omul v cp) ;;
      w <- rd h1 C ;; wr h1 C (oadd w (omul ab temp))
    else tile_scalar_special e cp C ab A B tmp threads h.
End TileEinsum.
