(** * T_TileScale: scaling of tiled tensors (C134), views over a pointer (C01). *)
From Coq Require Import List ZArith Lia Bool Ring.
From Verif Require Import Base Heap Conc M_Addr M_Elt M_Einsum M_Blas M_Block M_Tiled S_Addr S_Einsum S_Blas S_Block S_Tiled
  L_Addr L_Elt L_Einsum L_Blas L_Block L_Tiled T_Addr T_Blas T_Tiled.
Import ListNotations.
Open Scope Z_scope.

(** ** C134: [scale(alpha, &A)] multiplies every element of the tensor by alpha,
    also those of missing tiles (which are zero); nothing else changes. *)
Theorem C134_scale :
  forall (O : Ops), is_ring O ->
  forall (alpha : car O) (t : tt) (f : list Z -> car O) (h : heap (car O)),
    tt_ok t -> tt_holds h t f ->
    exists h', tt_la_scale alpha (t, h) = Ok (t, h') /\
      tt_holds h' t (fun idx => omul alpha (f idx)) /\
      (forall ks idx, spell (dense_dims (tt_sizes t)) ks idx -> tt_read t ks h' = Ok (omul alpha (f idx))) /\
      (forall a, ~ tt_cell t a -> h' a = h a).
Proof.
  intros O HR alpha t f h Hok HH. unfold tt_la_scale.
  destruct (for_tiles_spec O h t f (la_scale alpha) (fun x => omul alpha x) Hok HH) as (h' & E & H1 & H2).
  - intros d dims g h1 Hd Hne HN Hh.
    assert (Dd : ddims d = dims) by (rewrite Hd; reflexivity).
    destruct (C21_scale_partial O alpha d g h1) as (h2 & E2 & V2 & F2).
    + now rewrite Dd.
    + now rewrite Dd.
    + rewrite Hd. apply contiguous_rowmaj. reflexivity.
    + exact Hh.
    + exists h2. split; [exact E2|]. split; [exact V2|exact F2].
  - assert (HH' : tt_holds h' t (fun idx => omul alpha (f idx))).
    { intros idx c j Hp. specialize (H1 idx c j Hp). destruct (find_tile c (tt_tiles t)); [exact H1|].
      rewrite H1. apply (omul_0_r HR). }
    exists h'. split; [exact E|]. split; [exact HH'|]. split; [|exact H2].
    intros ks idx Hi. rewrite <- (ok_dims t Hok) in Hi. now apply (read_spec O h' t (fun i => omul alpha (f i)) ks idx).
Qed.
Print Assumptions C134_scale.

(** A tensor with two of four tiles: 2 and 4 are stored. *)
Example C134_case :
  exists p A h h', trun (O:=ZOps) (first_fit 50) [TWrite [0; 0] 2; TWrite [2; 2] 4] (tt_ctor [[2; 1]; [1; 2]], fun _ => None) = Ok (p, (A, h)) /\
    tt_la_scale (O:=ZOps) 3 (A, h) = Ok (A, h') /\ has_tile A [0; 1] = false /\
    tt_read (O:=ZOps) A [0; 0] h' = Ok 6 /\ tt_read (O:=ZOps) A [2; 2] h' = Ok 12 /\ tt_read (O:=ZOps) A [0; 1] h' = Ok 0.
Proof.
  do 4 eexists. split; [vm_compute; reflexivity|]. split; [vm_compute; reflexivity|]. repeat split; vm_compute; reflexivity.
Qed.

(** ** C01 for views over a pointer: the elements are the cells from the
    pointer on, in row-major order, and the view counts as a full one exactly
    when the strides are the row-major ones. *)
Theorem C01_pointer_view : forall p dims,
  Forall (fun d => 0 <= d) dims ->
  let v := pointer_view p dims in
  ddims v = dims /\
  (forall i, inb i dims -> p <= addr v i < p + zprod dims) /\
  (forall i j, inb i dims -> inb j dims -> (lexlt i j <-> addr v i < addr v j)) /\
  (forall a, p <= a < p + zprod dims -> exists i, inb i dims /\ addr v i = a) /\
  (forall strides, pointer_view_full dims strides = true <-> strides = row_major_strides dims).
Proof.
  intros p dims HF v.
  assert (EV : v = tensor_ctor p dims).
  { unfold v, pointer_view, tensor_ctor. now rewrite dims_to_strides_eq. }
  destruct (C01_row_major_bijection p dims HF) as (B1 & _ & B3 & B4 & _). rewrite EV.
  split; [reflexivity|]. split; [exact B1|]. split; [exact B4|]. split; [exact B3|].
  intros strides. unfold pointer_view_full. rewrite dims_to_strides_eq. cbn [fst].
  destruct (list_eq_dec Z.eq_dec strides (row_major_strides dims)); split; intro X; auto; try discriminate; contradiction.
Qed.
Print Assumptions C01_pointer_view.

Example C01_pointer_case : addr (pointer_view 100 [2; 3]) [1; 2] = 105 /\ pointer_view_full [2; 3] [3; 1] = true /\
  pointer_view_full [2; 3] [4; 1] = false.
Proof. repeat split. Qed.
