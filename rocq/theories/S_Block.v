(** * S_Block: block-diagonal tensors, described by the block sizes. *)
From Coq Require Import List ZArith Lia Bool.
From Verif Require Import Base Heap M_Block S_Einsum S_Blas.
Import ListNotations.
Open Scope Z_scope.

(** Where block [k] starts on the diagonal: the sum of the sizes before it. *)
Definition off (sizes : list Z) (k : nat) : Z := fold_right Z.add 0 (firstn k sizes).

(** Every entry of [idx] lies in the interval of block [k]. *)
Definition in_blk (sizes : list Z) (k : nat) (idx : list Z) : Prop :=
  (k < length sizes)%nat /\ Forall (fun x => off sizes k <= x < off sizes (S k)) idx.

(** The dense tensor with the blocks [f 0], [f 1], ... on its diagonal and zero
    elsewhere; [dense_in], [dense_out] below pin it down. *)
Definition in_blk_b (sizes : list Z) (idx : list Z) (k : nat) : bool :=
  forallb (fun x => (off sizes k <=? x) && (x <? off sizes (S k))) idx.
Definition dense {O : Ops} (sizes : list Z) (f : nat -> list Z -> car O) (idx : list Z) : car O :=
  match find (in_blk_b sizes idx) (seq 0 (length sizes)) with
  | Some k => f k (map (fun x => x - off sizes k) idx)
  | None => o0
  end.

(** The ranges recorded in [t] are the consecutive intervals of [sizes]. *)
Definition tiled_by (t : bt) (sizes : list Z) : Prop :=
  length (bt_ranges t) = length sizes /\
  (forall k, (k < length sizes)%nat -> nth k (bt_ranges t) (0, 0) = (off sizes k, off sizes (S k))) /\
  bt_dim t = off sizes (length sizes).

(** A block tensor of rank [rank] with blocks of the sizes [sizes], its ranges up to date. *)
Definition bt_ok (rank : nat) (t : bt) (sizes : list Z) : Prop :=
  Forall (fun n => 0 <= n) sizes /\
  length (bt_blocks t) = length sizes /\
  (forall k d, nth_error (bt_blocks t) k = Some d ->
     ddims d = repeat (nth k sizes 0) rank /\ contiguous d) /\
  tiled_by t sizes.

(** Block [k] of [t] holds [f k]. *)
Definition bt_holds {T} (h : heap T) (t : bt) (f : nat -> list Z -> T) : Prop :=
  forall k d, nth_error (bt_blocks t) k = Some d -> holds h d (f k).

(** Blocks of one tensor share no memory; blocks of two tensors share none. *)
Definition bt_sep (t : bt) : Prop :=
  forall i j d e, nth_error (bt_blocks t) i = Some d -> nth_error (bt_blocks t) j = Some e -> i <> j -> disj d e.
Definition bt_disj (t u : bt) : Prop :=
  forall i j d e, nth_error (bt_blocks t) i = Some d -> nth_error (bt_blocks u) j = Some e -> disj d e.
(** Address [a] belongs to a block. *)
Definition bt_cell (t : bt) (a : Z) : Prop := exists k d, nth_error (bt_blocks t) k = Some d /\ cell d a.

(** ** Histories *)
Inductive bop :=
| Push (b : desc)
| Insert (pos : Z) (b : desc)
| Resize (id base : Z) (dims : list Z)
| Refresh.
Definition bop_step (o : bop) (t : bt) : res bt :=
  match o with
  | Push b => push_block b t
  | Insert p b => insert_block p b t
  | Resize i b d => resize_block i b d t
  | Refresh => Ok (update_dims t)
  end.
(** Running a history: an operation that throws leaves the tensor as it was. *)
Inductive bruns : list bop -> bt -> bt -> Prop :=
| br_nil : forall t, bruns [] t t
| br_ok : forall o t t1 os t2, bop_step o t = Ok t1 -> bruns os t1 t2 -> bruns (o :: os) t t2
| br_throw : forall o t os t2, bop_step o t = Throw -> bruns os t t2 -> bruns (o :: os) t t2.
Definition is_resize (o : bop) : Prop := match o with Resize _ _ _ => True | _ => False end.
(** The tensors given to the operations have non-negative extents. *)
Definition bop_wf (o : bop) : Prop :=
  match o with
  | Push b | Insert _ b => Forall (fun d => 0 <= d) (ddims b)
  | Resize _ _ dims => Forall (fun d => 0 <= d) dims
  | Refresh => True
  end.
