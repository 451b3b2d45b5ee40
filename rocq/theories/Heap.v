(** * Heap: memory, tensor descriptors, outcomes, and loops over memory cells. *)
From Coq Require Import List ZArith Lia Bool Permutation.
From Verif Require Import Base.
Import ListNotations.
Open Scope Z_scope.

(** Outcome of a C++ computation: a value, a thrown exception (or a deliberate
    [abort]), or undefined behaviour (access to memory that is not allocated,
    division by zero, ...). *)
Inductive res (A : Type) : Type :=
| Ok (a : A)
| Throw
| UB.
Arguments Ok {A} a.
Arguments Throw {A}.
Arguments UB {A}.

Definition bind {A B} (m : res A) (f : A -> res B) : res B :=
  match m with Ok a => f a | Throw => Throw | UB => UB end.
Notation "x <- m ;; k" := (bind m (fun x => k)) (at level 61, m at next level, right associativity).

(** Sequential loop with state. *)
Fixpoint forM {X S} (l : list X) (f : X -> S -> res S) (s : S) : res S :=
  match l with
  | [] => Ok s
  | x :: l' => bind (f x s) (forM l' f)
  end.

(** Memory: partial map from addresses (in units of elements) to elements;
    [None] = not allocated. *)
Definition heap (T : Type) := Z -> option T.

Definition upd {T} (h : heap T) (a : Z) (v : T) : heap T :=
  fun x => if x =? a then Some v else h x.

Definition rd {T} (h : heap T) (a : Z) : res T :=
  match h a with Some v => Ok v | None => UB end.

Definition wr {T} (h : heap T) (a : Z) (v : T) : res (heap T) :=
  match h a with Some _ => Ok (upd h a v) | None => UB end.

(** A tensor or view: base address (the [data()] pointer), extents, strides
    (src/include/einsums/Tensor.hpp, members [_data]/[_dims]/[_strides] of
    Tensor and TensorView). *)
Record desc := mkDesc { dbase : Z; ddims : list Z; dstrides : list Z }.

(** Address of an element: [data() + inner_product(index, strides)]
    (Tensor.hpp 455-537). *)
Definition addr (d : desc) (idx : list Z) : Z := dbase d + dotp idx (dstrides d).

(** The descriptor's elements are all allocated. *)
Definition alloc {T} (h : heap T) (d : desc) : Prop :=
  forall idx, inb idx (ddims d) -> exists v, h (addr d idx) = Some v.

(** Distinct indices have distinct cells. *)
Definition inj (d : desc) : Prop :=
  forall i j, inb i (ddims d) -> inb j (ddims d) -> addr d i = addr d j -> i = j.

(** Two descriptors share no cell. *)
Definition disj (d e : desc) : Prop :=
  forall i j, inb i (ddims d) -> inb j (ddims e) -> addr d i <> addr e j.

(** Address [a] is a cell of [d]. *)
Definition cell (d : desc) (a : Z) : Prop := exists i, inb i (ddims d) /\ a = addr d i.

(** Element of a descriptor (meaningful when allocated); specification-level
    read with an explicit failure. *)
Definition elem {T} (h : heap T) (d : desc) (idx : list Z) : option T := h (addr d idx).

Lemma upd_same : forall T (h : heap T) a v, upd h a v a = Some v.
Proof. intros. unfold upd. now rewrite Z.eqb_refl. Qed.

Lemma upd_other : forall T (h : heap T) a b v, b <> a -> upd h a v b = h b.
Proof. intros. unfold upd. destruct (Z.eqb_spec b a); congruence. Qed.

Lemma rd_some : forall T (h : heap T) a v, h a = Some v -> rd h a = Ok v.
Proof. intros. unfold rd. now rewrite H. Qed.

Lemma wr_some : forall T (h : heap T) a v w, h a = Some w -> wr h a v = Ok (upd h a v).
Proof. intros. unfold wr. now rewrite H. Qed.

Lemma forM_app : forall X S (l m : list X) (f : X -> S -> res S) s,
  forM (l ++ m) f s = bind (forM l f s) (forM m f).
Proof.
  induction l as [|x l IH]; intros m f s; simpl; auto.
  destruct (f x s); simpl; auto.
Qed.

Lemma forM_ext : forall X S (l : list X) (f g : X -> S -> res S) s,
  (forall x s, In x l -> f x s = g x s) -> forM l f s = forM l g s.
Proof.
  induction l as [|x l IH]; intros f g s H; simpl; auto.
  rewrite H by (now left). destruct (g x s); simpl; auto.
  apply IH. intros. apply H. now right.
Qed.

(** A pure loop: every step succeeds with a known result. *)
Lemma forM_pure : forall X S (l : list X) (f : X -> S -> res S) (g : S -> X -> S) s,
  (forall x s, In x l -> f x s = Ok (g s x)) -> forM l f s = Ok (fold_left g l s).
Proof.
  induction l as [|x l IH]; intros f g s H; simpl; auto.
  rewrite H by (now left). simpl. apply IH. intros. apply H. now right.
Qed.

(** Loop over cells: each task owns one cell and computes its new value from
    its own cell and from cells no task owns.  Then the loop succeeds, each
    owned cell has its task's value and nothing else changes. *)
Lemma forM_cells : forall X T (l : list X) (ad : X -> Z) (val : X -> T)
    (body : X -> heap T -> res (heap T)) (h : heap T),
  NoDup (map ad l) ->
  (forall x h', In x l ->
     (forall a, a = ad x \/ ~ In a (map ad l) -> h' a = h a) ->
     body x h' = Ok (upd h' (ad x) (val x))) ->
  exists h', forM l body h = Ok h' /\
    (forall x, In x l -> h' (ad x) = Some (val x)) /\
    (forall a, ~ In a (map ad l) -> h' a = h a).
Proof.
  intros X T l ad val body.
  (* generalise: processed prefix *)
  assert (G : forall r h0 h, NoDup (map ad r) -> 
    (forall a, In a (map ad r) -> h a = h0 a) ->
    (forall x h', In x r ->
       (forall a, a = ad x -> h' a = h0 a) ->
       (forall a, ~ In a (map ad r) -> h' a = h a) ->
       body x h' = Ok (upd h' (ad x) (val x))) ->
    exists h', forM r body h = Ok h' /\
      (forall x, In x r -> h' (ad x) = Some (val x)) /\
      (forall a, ~ In a (map ad r) -> h' a = h a)).
  { induction r as [|x r IH]; intros h0 h Hnd Hh Hb.
    - exists h. simpl. repeat split; auto. intros x [].
    - simpl in *. inversion Hnd as [|? ? Hni Hnd']; subst.
      rewrite (Hb x h); auto.
      simpl. 
      destruct (IH h0 (upd h (ad x) (val x))) as (h' & E & Hv & Hf); auto.
      + intros a Ha. rewrite upd_other; auto. intros ->. contradiction.
      + intros y h' Hy Hy1 Hy2. apply Hb; auto.
        intros a Ha. rewrite Hy2 by tauto. apply upd_other. intros ->. tauto.
      + exists h'. repeat split; auto.
        * intros y [->|Hy]; auto. rewrite Hf by auto. apply upd_same.
        * intros a Ha. rewrite Hf by tauto. apply upd_other. intros ->. tauto. }
  intros h Hnd Hb. apply (G l h h); auto.
  intros x h' Hx H1 H2. apply Hb; auto. intros a [->|Ha]; auto.
Qed.

(** The same loop run in any order of the tasks gives pointwise the same memory. *)
Lemma forM_cells_perm : forall X T (l l' : list X) (ad : X -> Z) (val : X -> T)
    (body : X -> heap T -> res (heap T)) (h : heap T),
  Permutation l l' ->
  NoDup (map ad l) ->
  (forall x h', In x l ->
     (forall a, a = ad x \/ ~ In a (map ad l) -> h' a = h a) ->
     body x h' = Ok (upd h' (ad x) (val x))) ->
  exists h', forM l' body h = Ok h' /\
    (forall x, In x l -> h' (ad x) = Some (val x)) /\
    (forall a, ~ In a (map ad l) -> h' a = h a).
Proof.
  intros X T l l' ad val body h HP Hnd Hb.
  assert (HPm := Permutation_map ad HP).
  destruct (forM_cells X T l' ad val body h) as (h' & E & Hv & Hf).
  - eapply Permutation_NoDup; eauto.
  - intros x h' Hx Ha. apply Hb.
    + eapply Permutation_in; [apply Permutation_sym|]; eauto.
    + intros a [Ha'|Ha']; apply Ha; auto. right. intros Hi. apply Ha'.
      eapply Permutation_in; [apply Permutation_sym; eauto|auto].
  - exists h'. repeat split; auto.
    + intros x Hx. apply Hv. eapply Permutation_in; eauto.
    + intros a Ha. apply Hf. intros Hi. apply Ha.
      eapply Permutation_in; [apply Permutation_sym; eauto|auto].
Qed.

(** Loop over the cells of an injective descriptor. *)
Lemma addr_NoDup : forall d, inj d -> NoDup (map (addr d) (indices (ddims d))).
Proof.
  intros d Hi.
  assert (G : forall l, NoDup l -> (forall x, In x l -> inb x (ddims d)) -> NoDup (map (addr d) l)).
  { induction l as [|x l IH]; intros Hn Hin; simpl; constructor; inversion Hn; subst.
    - rewrite in_map_iff. intros (y & E & Hy). apply Hi in E; [subst; contradiction| |];
        apply Hin; [now right|now left].
    - apply IH; auto. intros. apply Hin. now right. }
  apply G. apply indices_NoDup. intros x. apply in_indices.
Qed.

Lemma in_addrs : forall d a, In a (map (addr d) (indices (ddims d))) <-> cell d a.
Proof.
  intros. rewrite in_map_iff. unfold cell. split; intros (i & H1 & H2).
  - exists i. apply in_indices in H2. auto.
  - exists i. split; auto. now apply in_indices.
Qed.
