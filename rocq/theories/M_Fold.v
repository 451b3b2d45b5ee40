(** * M_Fold: unfold and Khatri-Rao product.  Model definitions only.
    Files under /repo/src/include/einsums/tensor_algebra_backends. *)
From Coq Require Import List ZArith Lia Bool.
From Verif Require Import Base Heap Conc M_Addr M_Elt M_Einsum M_Blas M_Dispatch.
Import ListNotations.
Open Scope Z_scope.

(** ** Unfold.hpp 21-116 *)
(** [index::list] has 16 labels, here 0..15; [index::Z] is not one of them. *)
Definition Zlabel : nat := 16.
(** 79-80 *)
Definition unfold_target_indices (mode : nat) : list nat := [mode; Zlabel].
Definition unfold_source_indices (rank : nat) : list nat := seq 0 rank.
(** 83-85 *)
Definition unfold_link (mode rank : nat) : list nat := intersect (unfold_target_indices mode) (unfold_source_indices rank).
Definition unfold_source_only (mode rank : nat) : list nat := difference (unfold_source_indices rank) (unfold_link mode rank).

(** 70-76: extents of the result. *)
Definition unfold_dims (mode : nat) (source : desc) : list Z :=
  [tdim source mode;
   fold_left (fun acc i => if Nat.eqb i mode then acc else acc * tdim source i) (seq 0 (length (ddims source))) 1].

Section Unfold.
  Context {T : Type}.
  Variables (mode : nat) (source target : desc).
  Let rank := length (ddims source).
  (** 90-91 *)
  Definition unfold_rows : list (list Z) :=
    indices (get_dim_ranges_for target (find_type_with_position (unfold_link mode rank) (unfold_target_indices mode))).
  Definition unfold_cols : list (list Z) :=
    indices (get_dim_ranges_for source (find_type_with_position (unfold_source_only mode rank) (unfold_source_indices rank))).
  (** 100-111: one pass of the inner loop; [z] is the counter [Z]. *)
  Definition unfold_copy (link_it : list Z) (zs : Z * list Z) : prog T unit :=
    let '(z, source_it) := zs in
    let source_order := map (construct_index (unfold_source_only mode rank) source_it (unfold_link mode rank) link_it)
                            (unfold_source_indices rank) in
    PRd (subscript source source_order) (fun v => PWr (subscript target [nth 0 link_it (-1); z]) v (PRet tt)).
  (** 97-112: one iteration of the parallel loop. *)
  Definition unfold_body (link_it : list Z) : prog T unit :=
    pseq (combine (zrange (Z.of_nat (length unfold_cols))) unfold_cols) (unfold_copy link_it).
End Unfold.
(** 78: the new tensor (its element type is deduced as [double], so the code
    compiles for that type only). *)
Definition unfold_alloc {T} (zero : T) (base : Z) (mode : nat) (source : desc) (h : heap T) : desc * heap T :=
  let dims := unfold_dims mode source in (tensor_ctor base dims, alloc_buffer zero base (data_size dims) h).

(** ** KhatriRao.hpp 20-86 (host tensors) *)
Section KR.
  Context {O : Ops}.
  Notation T := (car O).
  (** 43-54 [get_dim_for] *)
  Definition get_dim_for (d : desc) (ps : list (nat * nat)) : list Z := map (fun p => tdim d (snd p)) ps.
  (** [base]: address of the new tensor.  The einsum call returns its plan (the
      memory after its sequential part and the parallel loop still to run); the
      final reshape does not depend on the elements. *)
  Definition khatri_rao (Ai Bi : list nat) (fA fB vA vB : bool) (base : Z) (A B : desc) (h : heap T)
      : res (plan * desc) :=
    let common := intersect Ai Bi in                                        (* 35 *)
    let A_only := difference Ai common in                                   (* 37 *)
    let B_only := difference Bi common in                                   (* 39 *)
    let A_common_position := find_type_with_position common Ai in           (* 42-45 *)
    let B_common_position := find_type_with_position common Bi in
    let A_only_position := find_type_with_position A_only Ai in
    let B_only_position := find_type_with_position B_only Bi in
    let A_common_dims := get_dim_for A A_common_position in                 (* 48-51 *)
    let B_common_dims := get_dim_for B B_common_position in
    let A_only_dims := get_dim_for A A_only_position in
    let B_only_dims := get_dim_for B B_only_position in
    (* 54-58 *)
    if forallb (fun p => fst p =? snd p) (combine A_common_dims B_common_dims) then
      let dims := A_only_dims ++ B_only_dims ++ A_common_dims in            (* 73-75 *)
      let result := tensor_ctor base dims in
      (* 77: C prefactor 0, AB prefactor 1 *)
      p <- einsum (mkEin (A_only ++ B_only ++ common) (A_only ++ common) (B_only ++ common))
                  false fA fB true vA vB o0 result o1 A B (alloc_buffer o0 base (data_size dims) h) ;;
      d <- reshape result [-1; product_dims A_common_position A] ;;         (* 81 *)
      Ok (p, d)
    else Throw.
End KR.
