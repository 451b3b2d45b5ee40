(** * S_Tiled: tiled tensors seen as dense tensors. *)
From Coq Require Import List ZArith Lia Bool.
From Verif Require Import Base Heap M_Addr M_Tiled S_Addr S_Einsum S_Block.
Import ListNotations.
Open Scope Z_scope.

(** [tile_pos sizes idx c j]: with the tile sizes [sizes] (one list per axis),
    element [idx] of the whole tensor is element [j] of the tile with the
    coordinates [c].  [off s k] is the sum of the first [k] sizes. *)
Inductive tile_pos : list (list Z) -> list Z -> list Z -> list Z -> Prop :=
| tp_nil : tile_pos [] [] [] []
| tp_cons : forall s ss x xs c cs j js,
    0 <= c < Z.of_nat (length s) -> 0 <= j < nth (Z.to_nat c) s 0 -> x = off s (Z.to_nat c) + j ->
    tile_pos ss xs cs js -> tile_pos (s :: ss) (x :: xs) (c :: cs) (j :: js).

(** Extents of the whole tensor. *)
Definition dense_dims (sizes : list (list Z)) : list Z := map (fun s => off s (length s)) sizes.
Definition sizes_ok (sizes : list (list Z)) : Prop := sizes <> [] /\ Forall (Forall (fun n => 0 <= n)) sizes.

(** A well-formed tiled tensor: offsets and extents match the sizes, every tile
    is a dense tensor with the extents of its place, and tiles share no memory. *)
Record tt_ok (t : tt) : Prop := {
  ok_sizes : sizes_ok (tt_sizes t);
  ok_offsets : tt_offsets t = map (fun s => map (off s) (seq 0 (length s))) (tt_sizes t);
  ok_dims : tt_dims t = dense_dims (tt_sizes t);
  ok_keys : NoDup (map fst (tt_tiles t));
  ok_tile : forall c d, find_tile c (tt_tiles t) = Some d ->
      inb c (map (fun s => Z.of_nat (length s)) (tt_sizes t)) /\ d = tensor_ctor (dbase d) (tile_dims (tt_sizes t) c);
  ok_sep : forall c c' d d', find_tile c (tt_tiles t) = Some d -> find_tile c' (tt_tiles t) = Some d' -> c <> c' -> disj d d' }.

(** [t] represents the dense tensor [f]: elements of present tiles are stored,
    elements of missing tiles are zero. *)
Definition tt_holds {O : Ops} (h : heap (car O)) (t : tt) (f : list Z -> car O) : Prop :=
  forall idx c j, tile_pos (tt_sizes t) idx c j ->
    match find_tile c (tt_tiles t) with
    | Some d => h (addr d j) = Some (f idx)
    | None => f idx = o0
    end.
Definition tt_cell (t : tt) (a : Z) : Prop := exists c d, find_tile c (tt_tiles t) = Some d /\ cell d a.
(** Tiles of two tensors share no memory. *)
Definition tt_disj (t u : tt) : Prop := forall a, tt_cell t a -> ~ tt_cell u a.

(** The allocator only hands out cells that are not in use. *)
Definition al_ok {T} (al : heap T -> Z -> option Z) : Prop :=
  forall h n b, al h n = Some b -> forall a, b <= a < b + n -> h a = None.

(** ** Histories *)
Inductive top (T : Type) :=
| TWrite (ks : list Z) (v : T)   (* element assignment *)
| TTile (c : list Z)             (* access to a tile, creating it *)
| TScale (v : T)                 (* *= v *)
| TZero                          (* zero() *)
| TZeroKeep.                     (* zero_no_clear() *)
Arguments TWrite {T}. Arguments TTile {T}. Arguments TScale {T}. Arguments TZero {T}. Arguments TZeroKeep {T}.

Section Hist.
  Context {O : Ops}.
  Variable al : heap (car O) -> Z -> option Z.

  Definition tstep (o : top (car O)) (s : tt * heap (car O)) : res (tt * heap (car O)) :=
    match o with
    | TWrite ks v => tt_write al ks v s
    | TTile c => r <- tile al c s ;; Ok (snd r)
    | TScale v => tt_scale v s
    | TZero => Ok (tt_zero s)
    | TZeroKeep => tt_zero_no_clear s
    end.

  (** Runs the operations; one that throws leaves the tensor as it was and is not
      counted as performed. *)
  Fixpoint trun (ops : list (top (car O))) (s : tt * heap (car O)) : res (list (top (car O)) * (tt * heap (car O))) :=
    match ops with
    | [] => Ok ([], s)
    | o :: r => match tstep o s with
                | Ok s' => p <- trun r s' ;; Ok (o :: fst p, snd p)
                | Throw => trun r s
                | UB => UB
                end
    end.

  (** The same operations on a dense tensor given by its elements. *)
  Definition normal (dims ks : list Z) : list Z := map (fun p => if snd p <? 0 then snd p + fst p else snd p) (combine dims ks).
  Definition dense_step (dims : list Z) (f : list Z -> car O) (o : top (car O)) : list Z -> car O :=
    match o with
    | TWrite ks v => fun x => if list_eq_dec Z.eq_dec x (normal dims ks) then v else f x
    | TTile _ => f
    | TScale v => fun x => omul (f x) v
    | TZero | TZeroKeep => fun _ => o0
    end.
End Hist.

(** The operations are given as many indices as the tensor has axes (enforced by
    the C++ types). *)
Definition top_wf {T} (rank : nat) (o : top T) : Prop :=
  match o with TWrite ks _ => length ks = rank | TTile c => length c = rank | _ => True end.
(** The index or tile coordinates of the operation are within range (negative
    entries count from the end). *)
Definition top_in_range {T} (sizes : list (list Z)) (o : top T) : Prop :=
  match o with
  | TWrite ks _ => Forall2 (fun k d => - d <= k < d) ks (dense_dims sizes)
  | TTile c => Forall2 (fun k d => - d <= k < d) c (map (fun s => Z.of_nat (length s)) sizes)
  | _ => True
  end.
