(** * Base: element operations, finite sums, index ranges.

    Shared vocabulary of the model.  Nothing here models a particular function
    of the code base, except where a comment cites one. *)
From Coq Require Import List ZArith Lia Bool Permutation Ring_theory Ring.
Import ListNotations.
Open Scope Z_scope.

#[global] Arguments Z.mul : simpl never.
#[global] Arguments Z.add : simpl never.
#[global] Arguments Z.sub : simpl never.
#[global] Arguments Z.div : simpl never.
#[global] Arguments Z.modulo : simpl never.
#[global] Arguments Z.of_nat : simpl never.
#[global] Arguments Z.to_nat : simpl never.

(** Element type of a tensor: a carrier with the arithmetic the C++ templates
    use on [T] ([+ - * /], unary minus, [==], the literals 0 and 1).  No laws
    are assumed, so IEEE types are instances. *)
Record Ops := mkOps {
  car   : Type;
  o0    : car;
  o1    : car;
  oadd  : car -> car -> car;
  omul  : car -> car -> car;
  osub  : car -> car -> car;
  oopp  : car -> car;
  odiv  : car -> car -> car;
  oeqb  : car -> car -> bool
}.
Arguments o0 {_}.
Arguments o1 {_}.
Arguments oadd {_} _ _.
Arguments omul {_} _ _.
Arguments osub {_} _ _.
Arguments oopp {_} _.
Arguments odiv {_} _ _.
Arguments oeqb {_} _ _.

(** The laws needed when sums are reassociated: commutative ring with
    decidable equality.  [odiv] is unconstrained. *)
Record is_ring (O : Ops) : Prop := mkRing {
  ir_rt  : ring_theory (R := car O) o0 o1 oadd omul osub oopp (@eq (car O));
  ir_eqb : forall x y : car O, oeqb x y = true <-> x = y
}.

(** Exact integers, used for examples. *)
Definition ZOps : Ops := mkOps Z 0 1 Z.add Z.mul Z.sub Z.opp Z.div Z.eqb.

Lemma ZOps_ring : is_ring ZOps.
Proof.
  split; simpl.
  - exact InitialRing.Zth.
  - intros; apply Z.eqb_eq.
Qed.

(** Integers with an absorbing "not a number", as IEEE NaN behaves under
    [+], [*], [-] and [==]; used to exhibit NaN-propagation. *)
Definition lift2 {A} (f : A -> A -> A) (x y : option A) : option A :=
  match x, y with Some a, Some b => Some (f a b) | _, _ => None end.
Definition NanOps : Ops :=
  mkOps (option Z) (Some 0) (Some 1) (lift2 Z.add) (lift2 Z.mul) (lift2 Z.sub)
        (fun x => match x with Some a => Some (- a) | None => None end)
        (lift2 Z.div)
        (fun x y => match x, y with Some a, Some b => a =? b | _, _ => false end).

(** ** Ranges and multi-indices *)

(** [zrange n] = [0; 1; ...; n-1] (empty when [n <= 0]). *)
Definition zrange (n : Z) : list Z := map Z.of_nat (seq 0 (Z.to_nat n)).

(** All multi-indices of a shape, last index fastest. *)
Fixpoint indices (dims : list Z) : list (list Z) :=
  match dims with
  | [] => [[]]
  | d :: ds => flat_map (fun i => map (cons i) (indices ds)) (zrange d)
  end.

(** A multi-index lies inside a shape. *)
Definition inb (idx dims : list Z) : Prop := Forall2 (fun i d => 0 <= i < d) idx dims.

Fixpoint zprod (l : list Z) : Z :=
  match l with [] => 1 | d :: ds => d * zprod ds end.

(** Inner product of an index with strides. *)
Fixpoint dotp (idx strides : list Z) : Z :=
  match idx, strides with
  | i :: is, s :: ss => i * s + dotp is ss
  | _, _ => 0
  end.

Lemma zrange_in : forall n x, In x (zrange n) <-> 0 <= x < n.
Proof.
  intros. unfold zrange. rewrite in_map_iff. split.
  - intros (k & <- & Hk). apply in_seq in Hk. lia.
  - intros H. exists (Z.to_nat x). split; [lia|]. apply in_seq. lia.
Qed.

Lemma zrange_NoDup : forall n, NoDup (zrange n).
Proof.
  intros. unfold zrange. apply FinFun.Injective_map_NoDup.
  - intros a b. lia.
  - apply seq_NoDup.
Qed.

Lemma zrange_length : forall n, length (zrange n) = Z.to_nat n.
Proof. intros. unfold zrange. now rewrite map_length, seq_length. Qed.

Lemma zrange_nth : forall n k d, 0 <= k < n -> nth (Z.to_nat k) (zrange n) d = k.
Proof.
  intros. unfold zrange. rewrite nth_indep with (d' := Z.of_nat 0).
  - rewrite map_nth, seq_nth; lia.
  - rewrite map_length, seq_length. lia.
Qed.

Lemma zrange_nonpos : forall n, n <= 0 -> zrange n = [].
Proof. intros. unfold zrange. replace (Z.to_nat n) with 0%nat by lia. reflexivity. Qed.

Lemma zrange_succ : forall n, 0 <= n -> zrange (n + 1) = zrange n ++ [n].
Proof.
  intros. unfold zrange. replace (Z.to_nat (n + 1)) with (S (Z.to_nat n)) by lia.
  rewrite seq_S, map_app. simpl. f_equal. f_equal. lia.
Qed.

Lemma inb_length : forall idx dims, inb idx dims -> length idx = length dims.
Proof. induction 1; simpl; auto. Qed.

Lemma inb_nil : inb [] [].
Proof. constructor. Qed.

Lemma inb_cons : forall i d is ds, inb (i :: is) (d :: ds) <-> 0 <= i < d /\ inb is ds.
Proof.
  intros. split; intros H.
  - inversion H; subst; auto.
  - destruct H. constructor; auto.
Qed.

Lemma inb_nil_l : forall ds, inb [] ds <-> ds = [].
Proof. intros; split; intros H; [inversion H; auto | subst; constructor]. Qed.

Lemma in_indices : forall dims idx, In idx (indices dims) <-> inb idx dims.
Proof.
  induction dims as [|d ds IH]; intros idx; simpl.
  - split.
    + intros [<-|[]]. constructor.
    + intros H. inversion H. auto.
  - rewrite in_flat_map. split.
    + intros (i & Hi & H). apply in_map_iff in H. destruct H as (r & <- & Hr).
      apply zrange_in in Hi. apply IH in Hr. apply inb_cons. auto.
    + intros H. inversion H as [|i d' r ds' Hi Hr]; subst.
      exists i. split. now apply zrange_in.
      apply in_map. now apply IH.
Qed.

Lemma NoDup_map_cons : forall {A} (x : A) l, NoDup l -> NoDup (map (cons x) l).
Proof. intros. apply FinFun.Injective_map_NoDup; auto. intros a b H0. now inversion H0. Qed.

Lemma NoDup_app_disj : forall {A} (l m : list A),
  NoDup l -> NoDup m -> (forall x, In x l -> In x m -> False) -> NoDup (l ++ m).
Proof.
  induction l as [|a l IH]; intros m Hl Hm Hd; simpl; auto.
  inversion Hl; subst. constructor.
  - rewrite in_app_iff. intros [H|H]; auto. eapply Hd; eauto. now left.
  - apply IH; auto. intros x H H'. eapply Hd; eauto. now right.
Qed.

Lemma NoDup_flat_map : forall {A B} (f : A -> list B) l,
  NoDup l -> (forall a, In a l -> NoDup (f a)) ->
  (forall a b x, In a l -> In b l -> In x (f a) -> In x (f b) -> a = b) ->
  NoDup (flat_map f l).
Proof.
  induction l as [|a l IH]; intros Hl Hf Hd; simpl. constructor.
  inversion Hl; subst. apply NoDup_app_disj.
  - apply Hf. now left.
  - apply IH; auto. intros. apply Hf. now right.
    intros; eapply Hd; eauto; now right.
  - intros x Hx Hx'. apply in_flat_map in Hx'. destruct Hx' as (b & Hb & Hxb).
    assert (a = b). { eapply Hd; eauto. now left. now right. }
    subst. contradiction.
Qed.

Lemma indices_NoDup : forall dims, NoDup (indices dims).
Proof.
  induction dims as [|d ds IH]; simpl.
  - constructor; auto. constructor.
  - apply NoDup_flat_map.
    + apply zrange_NoDup.
    + intros. now apply NoDup_map_cons.
    + intros a b x _ _ Ha Hb. apply in_map_iff in Ha, Hb.
      destruct Ha as (? & <- & _), Hb as (? & E & _). now inversion E.
Qed.

Lemma dotp_nil_r : forall i, dotp i [] = 0.
Proof. destruct i; reflexivity. Qed.

Lemma dotp_app : forall i1 i2 s1 s2, length i1 = length s1 ->
  dotp (i1 ++ i2) (s1 ++ s2) = dotp i1 s1 + dotp i2 s2.
Proof.
  induction i1 as [|x i1 IH]; intros i2 [|y s1] s2 H; simpl in *; try discriminate; auto.
  rewrite IH by lia. lia.
Qed.

Lemma zprod_app : forall a b, zprod (a ++ b) = zprod a * zprod b.
Proof. induction a; intros; simpl; [ring|]. rewrite IHa. ring. Qed.

Lemma zprod_nonneg : forall l, Forall (fun d => 0 <= d) l -> 0 <= zprod l.
Proof. induction 1; simpl; nia. Qed.

Lemma zprod_pos : forall l, Forall (fun d => 0 < d) l -> 0 < zprod l.
Proof. induction 1; simpl; nia. Qed.

Lemma inb_pos : forall idx dims, inb idx dims -> Forall (fun d => 0 < d) dims.
Proof. induction 1; constructor; auto. lia. Qed.

Lemma inb_zprod_pos : forall idx dims, inb idx dims -> 0 < zprod dims.
Proof. intros. apply zprod_pos. eapply inb_pos; eauto. Qed.

Lemma inb_app : forall i1 d1 i2 d2, inb i1 d1 -> inb i2 d2 -> inb (i1 ++ i2) (d1 ++ d2).
Proof. intros. apply Forall2_app; auto. Qed.

Lemma inb_app_inv : forall i1 i2 d1 d2, length i1 = length d1 ->
  inb (i1 ++ i2) (d1 ++ d2) -> inb i1 d1 /\ inb i2 d2.
Proof.
  induction i1 as [|a i1 IH]; intros i2 [|b d1] d2 HL H; simpl in *; try discriminate.
  - split; [constructor|auto].
  - apply inb_cons in H. destruct H as [H1 H2]. apply IH in H2; [|lia].
    destruct H2. split; auto. now constructor.
Qed.

(** Decidability of being inside a shape. *)
Fixpoint inb_b (idx dims : list Z) : bool :=
  match idx, dims with
  | [], [] => true
  | i :: is, d :: ds => (0 <=? i) && (i <? d) && inb_b is ds
  | _, _ => false
  end.

Lemma inb_b_spec : forall idx dims, inb_b idx dims = true <-> inb idx dims.
Proof.
  induction idx as [|i is IH]; intros [|d ds]; simpl; split; intros H;
    try discriminate; try (now inversion H); try constructor; auto.
  - apply andb_true_iff in H. destruct H as [H H2]. apply IH in H2. lia.
  - apply andb_true_iff in H. destruct H as [H H2]. apply IH in H2. auto.
  - apply inb_cons in H. destruct H as [H H2]. apply IH in H2. rewrite H2. lia.
Qed.

(** ** Finite sums *)
Section Sums.
  Variable O : Ops.
  Notation K := (car O).

  (** Sum of [f] over a list. *)
  Definition lsum {A} (l : list A) (f : A -> K) : K :=
    fold_right (fun a s => oadd (f a) s) o0 l.

  (** Sum of [f 0 .. f (n-1)]. *)
  Definition zsum (n : Z) (f : Z -> K) : K := lsum (zrange n) f.

  Hypothesis HR : is_ring O.
  Let rt := ir_rt O HR.
  Add Ring Kring : rt.

  Lemma lsum_ext : forall A (l : list A) f g,
    (forall a, In a l -> f a = g a) -> lsum l f = lsum l g.
  Proof.
    induction l as [|a l IH]; intros f g H; simpl; auto.
    rewrite H by (now left). f_equal. apply IH. intros. apply H. now right.
  Qed.

  Lemma lsum_app : forall A (l m : list A) f, lsum (l ++ m) f = oadd (lsum l f) (lsum m f).
  Proof. induction l as [|a l IH]; intros m f; simpl; [ring|]. rewrite IH. ring. Qed.

  Lemma lsum_0 : forall A (l : list A), lsum l (fun _ => o0) = o0.
  Proof. induction l as [|a l IH]; simpl; auto. rewrite IH. ring. Qed.

  Lemma lsum_add : forall A (l : list A) f g,
    lsum l (fun a => oadd (f a) (g a)) = oadd (lsum l f) (lsum l g).
  Proof. induction l as [|a l IH]; intros f g; simpl; [ring|]. rewrite IH. ring. Qed.

  Lemma lsum_mul_l : forall A (l : list A) c f,
    lsum l (fun a => omul c (f a)) = omul c (lsum l f).
  Proof. induction l as [|a l IH]; intros c f; simpl; [ring|]. rewrite IH. ring. Qed.

  Lemma lsum_mul_r : forall A (l : list A) c f,
    lsum l (fun a => omul (f a) c) = omul (lsum l f) c.
  Proof. induction l as [|a l IH]; intros c f; simpl; [ring|]. rewrite IH. ring. Qed.

  Lemma lsum_map : forall A B (g : A -> B) l f, lsum (map g l) f = lsum l (fun a => f (g a)).
  Proof. induction l as [|a l IH]; intros f; simpl; auto. now rewrite IH. Qed.

  Lemma lsum_flat_map : forall A B (g : A -> list B) l f,
    lsum (flat_map g l) f = lsum l (fun a => lsum (g a) f).
  Proof. induction l as [|a l IH]; intros f; simpl; auto. now rewrite lsum_app, IH. Qed.

  Lemma lsum_perm : forall A (l m : list A) f, Permutation l m -> lsum l f = lsum m f.
  Proof. induction 1; simpl; try congruence. ring. Qed.

  Lemma lsum_swap : forall A B (l : list A) (m : list B) f,
    lsum l (fun a => lsum m (fun b => f a b)) = lsum m (fun b => lsum l (fun a => f a b)).
  Proof.
    induction l as [|a l IH]; intros m f; simpl.
    - now rewrite lsum_0.
    - rewrite IH. symmetry. apply lsum_add.
  Qed.

  Lemma fold_left_lsum : forall A (l : list A) f acc,
    fold_left (fun s a => oadd s (f a)) l acc = oadd acc (lsum l f).
  Proof. induction l as [|a l IH]; intros f acc; simpl; [ring|]. rewrite IH. ring. Qed.

  (** Splitting a sum over [0..m*n) into rows. *)
  Lemma lsum_indices_cons : forall d ds (f : list Z -> K),
    lsum (indices (d :: ds)) f = zsum d (fun i => lsum (indices ds) (fun r => f (i :: r))).
  Proof.
    intros. unfold zsum. simpl. rewrite lsum_flat_map. apply lsum_ext.
    intros. now rewrite lsum_map.
  Qed.

  Lemma zsum_ext : forall n f g, (forall i, 0 <= i < n -> f i = g i) -> zsum n f = zsum n g.
  Proof. intros. apply lsum_ext. intros. apply H. now apply zrange_in. Qed.

  Lemma lsum_filter_ite : forall A (l : list A) (p : A -> bool) f,
    lsum (filter p l) f = lsum l (fun a => if p a then f a else o0).
  Proof.
    induction l as [|a l IH]; intros p f; simpl; auto.
    destruct (p a); simpl; rewrite IH; ring.
  Qed.

  Lemma lsum_single : forall A (l : list A) (x : A) f,
    NoDup l -> In x l -> (forall a, In a l -> a <> x -> f a = o0) -> lsum l f = f x.
  Proof.
    induction l as [|a l IH]; intros x f Hnd Hin Hz; simpl in *; [easy|].
    inversion Hnd; subst. destruct Hin as [->|Hin].
    - rewrite (lsum_ext _ l f (fun _ => o0)).
      + rewrite lsum_0. ring.
      + intros a Ha. apply Hz; [now right|]. intros ->. contradiction.
    - rewrite (Hz a); [|now left|intros ->; contradiction].
      rewrite (IH x f); auto. ring. 
  Qed.
End Sums.
Arguments lsum {O A} _ _.
Arguments zsum {O} _ _.
