(** * L_Value: invariant of programs with tensor variables. *)
From Coq Require Import List ZArith Lia Bool.
From Verif Require Import Base Heap Conc M_Addr S_Addr L_Addr M_Elt M_Value S_Value.
Import ListNotations.
Open Scope Z_scope.

Definition inside (o : tobj) (a : Z) : Prop := dbase (ob_desc o) <= a < dbase (ob_desc o) + ob_len o.
Definition ins (oo : option tobj) (a : Z) : Prop := match oo with Some o => inside o a | None => False end.
Definition seg {T} (h : heap T) (b : Z) (xs : list T) : Prop :=
  forall k, 0 <= k < Z.of_nat (length xs) -> h (b + k) = nth_error xs (Z.to_nat k).

Definition rep_obj {T} (h : heap T) (o : tobj) (v : aval T) : Prop :=
  match v with
  | Hollow st => ddims (ob_desc o) = st /\ ob_len o = 0
  | Val d xs => ob_desc o = tensor_ctor (dbase (ob_desc o)) d /\ d <> [] /\ Forall (fun k => 0 <= k) d /\
                ob_len o = zprod d /\ Z.of_nat (length xs) = zprod d /\ seg h (dbase (ob_desc o)) xs
  end.
Definition rep_opt {T} (h : heap T) (oo : option tobj) (v : option (aval T)) : Prop :=
  match oo, v with Some o, Some v => rep_obj h o v | None, None => True | _, _ => False end.

Definition Inv {T} (h0 : heap T) (st : vstate) (s : astore T) : Prop :=
  let '(vs, h) := st in
  (forall x, rep_opt h (vs x) (s x)) /\
  (forall x y a, x <> y -> ins (vs x) a -> ~ ins (vs y) a) /\
  (forall a, h0 a <> None -> h a = h0 a /\ forall x, ~ ins (vs x) a) /\
  (forall a, h a <> None -> h0 a <> None \/ exists x, ins (vs x) a).

Lemma ins_dec : forall oo a, ins oo a \/ ~ ins oo a.
Proof. intros [o|] a; simpl; [|auto]. unfold inside. lia. Qed.

Lemma rep_frame : forall T (h h' : heap T) o v, rep_obj h o v -> (forall a, inside o a -> h' a = h a) -> rep_obj h' o v.
Proof.
  intros T h h' o [st|d xs] H HF; simpl in *; auto. destruct H as (H1 & H2 & H3 & H4 & H5 & H6). repeat (split; auto).
  intros k Hk. rewrite HF; [now apply H6|]. unfold inside. lia.
Qed.

Lemma rep_opt_frame : forall T (h h' : heap T) o v, rep_opt h o v -> (forall a, ins o a -> h' a = h a) -> rep_opt h' o v.
Proof. intros T h h' [o|] [v|] H HF; simpl in *; auto. now apply (rep_frame _ h). Qed.

Lemma rep_alloc : forall T (h : heap T) o v a, rep_obj h o v -> inside o a -> h a <> None.
Proof.
  intros T h o [st|d xs] a H HI; simpl in H; unfold inside in HI; [lia|].
  destruct H as (H1 & H2 & H3 & H4 & H5 & H6). replace a with (dbase (ob_desc o) + (a - dbase (ob_desc o))) by lia.
  rewrite H6 by lia. apply nth_error_Some. lia.
Qed.

Lemma rep_opt_alloc : forall T (h : heap T) o v a, rep_opt h o v -> ins o a -> h a <> None.
Proof. intros T h [o|] [v|] a H HI; simpl in *; try tauto. now apply (rep_alloc _ h o v). Qed.

Lemma inv_ext : forall T (h0 : heap T) vs vs' h s s', Inv h0 (vs, h) s -> (forall x, vs' x = vs x) -> (forall x, s' x = s x) -> Inv h0 (vs', h) s'.
Proof.
  intros T h0 vs vs' h s s' (H1 & H2 & H3 & H4) EV ES. split; [|split; [|split]].
  - intros x. rewrite EV, ES. auto.
  - intros x y a. rewrite !EV. apply H2.
  - intros a Ha. destruct (H3 a Ha) as (A & B). split; auto. intros x. rewrite EV. auto.
  - intros a Ha. destruct (H4 a Ha) as [A|(x & A)]; auto. right. exists x. now rewrite EV.
Qed.

(** One variable changes its vector. *)
Lemma inv_set : forall T (h0 : heap T) vs h h' s x oo vv,
  Inv h0 (vs, h) s -> rep_opt h' oo vv ->
  (forall a, ins oo a -> ins (vs x) a \/ h a = None) ->
  (forall a, ~ ins (vs x) a -> ~ ins oo a -> h' a = h a) ->
  (forall a, ins (vs x) a -> ~ ins oo a -> h' a = None) ->
  Inv h0 (vset x oo vs, h') (aset x vv s).
Proof.
  intros T h0 vs h h' s x oo vv (H1 & H2 & H3 & H4) HR HN HF HD.
  assert (Hsep : forall y a, y <> x -> ins oo a -> ~ ins (vs y) a).
  { intros y a Hy Ha Hc. destruct (HN a Ha) as [Hx|Hx]; [apply (H2 x y a); auto|].
    apply (rep_opt_alloc _ h (vs y) (s y) a); auto. }
  split; [|split; [|split]].
  - intros y. unfold vset, aset. destruct (Nat.eqb_spec y x) as [->|Hy]; auto.
    apply (rep_opt_frame _ h); auto. intros a Ha. apply HF; [apply H2 with y; auto|]. intros Hc. apply (Hsep y a); auto.
  - intros y z a Hyz. unfold vset. destruct (Nat.eqb_spec y x) as [->|Hy]; destruct (Nat.eqb_spec z x) as [->|Hz]; try congruence.
    + apply Hsep; auto.
    + intros Ha Hc. apply (Hsep y a); auto.
    + now apply H2.
  - intros a Ha. destruct (H3 a Ha) as (A & B).
    assert (N : ~ ins oo a). { intros Hc. destruct (HN a Hc) as [Hx|Hx]; [apply (B x Hx)|congruence]. }
    split; [rewrite HF; auto|]. intros y. unfold vset. destruct (Nat.eqb_spec y x); auto.
  - intros a Ha. destruct (ins_dec oo a) as [Hi|Hi].
    { right. exists x. unfold vset. now rewrite Nat.eqb_refl. }
    destruct (ins_dec (vs x) a) as [Hx|Hx]; [rewrite HD in Ha; auto; congruence|].
    rewrite HF in Ha by auto. destruct (H4 a Ha) as [A|(y & A)]; auto. right. exists y. unfold vset.
    destruct (Nat.eqb_spec y x) as [->|]; [tauto|auto].
Qed.

(** Writes into one variable's vector. *)
Lemma inv_put : forall T (h0 : heap T) vs h h' s x o v, Inv h0 (vs, h) s -> vs x = Some o -> rep_obj h' o v ->
  (forall a, ~ inside o a -> h' a = h a) -> Inv h0 (vs, h') (aset x (Some v) s).
Proof.
  intros T h0 vs h h' s x o v HI E HR HF.
  apply inv_ext with (vs := vset x (Some o) vs) (s := aset x (Some v) s); auto.
  - apply (inv_set _ _ _ h); auto; rewrite E; simpl; auto; tauto.
  - intros y. unfold vset. destruct (Nat.eqb_spec y x); congruence.
Qed.

(** ** Loops over a vector *)
Lemma vec_loop : forall T b n (val : Z -> T) (body : Z -> heap T -> res (heap T)) (h : heap T),
  (forall k h', 0 <= k < n -> (forall a, a = b + k \/ ~ (b <= a < b + n) -> h' a = h a) -> body k h' = Ok (upd h' (b + k) (val k))) ->
  exists h', forM (zrange n) body h = Ok h' /\ (forall k, 0 <= k < n -> h' (b + k) = Some (val k)) /\
    (forall a, ~ (b <= a < b + n) -> h' a = h a).
Proof.
  intros T b n val body h HB.
  assert (HA : forall a, In a (map (fun k => b + k) (zrange n)) <-> b <= a < b + n).
  { intros a. rewrite in_map_iff. split.
    - intros (k & <- & Hk). apply zrange_in in Hk. lia.
    - intros Ha. exists (a - b). split; [lia|]. apply zrange_in. lia. }
  destruct (forM_cells Z T (zrange n) (fun k => b + k) val body h) as (h' & E & H1 & H2).
  - apply FinFun.Injective_map_NoDup; [|apply zrange_NoDup]. intros i j. lia.
  - intros k h' Hk Hag. apply HB; [now apply zrange_in|]. intros a [Ha|Ha]; apply Hag; auto. right. now rewrite HA.
  - exists h'. split; auto. split; [intros k Hk; apply H1; now apply zrange_in|]. intros a Ha. apply H2. now rewrite HA.
Qed.

Lemma seg_of : forall T (h : heap T) b (xs : list T) d,
  (forall k, 0 <= k < Z.of_nat (length xs) -> h (b + k) = Some (nth (Z.to_nat k) xs d)) -> seg h b xs.
Proof. intros T h b xs d H k Hk. rewrite H by auto. symmetry. apply nth_error_nth'. lia. Qed.

Lemma seg_some : forall T (h : heap T) b (xs : list T) d k, seg h b xs -> 0 <= k < Z.of_nat (length xs) -> h (b + k) = Some (nth (Z.to_nat k) xs d).
Proof. intros T h b xs d k H Hk. rewrite H by auto. apply nth_error_nth'. lia. Qed.

Lemma vec_rd_ok : forall T (o : tobj) k (h : heap T) v, 0 <= k < ob_len o -> h (dbase (ob_desc o) + k) = Some v -> vec_rd o k h = Ok v.
Proof.
  intros T o k h v Hk E. unfold vec_rd. destruct (Z.leb_spec 0 k); [|lia]. destruct (Z.ltb_spec k (ob_len o)); [|lia].
  cbn [andb]. now apply rd_some.
Qed.
Lemma vec_wr_ok : forall T (o : tobj) k (h : heap T) v w, 0 <= k < ob_len o -> h (dbase (ob_desc o) + k) = Some w ->
  vec_wr o k v h = Ok (upd h (dbase (ob_desc o) + k) v).
Proof.
  intros T o k h v w Hk E. unfold vec_wr. destruct (Z.leb_spec 0 k); [|lia]. destruct (Z.ltb_spec k (ob_len o)); [|lia].
  cbn [andb]. now apply wr_some with w.
Qed.

(** [std::copy] between vectors of the same length, apart or identical. *)
Lemma vec_copy_spec : forall T (dst src : tobj) (ys : list T) (h : heap T),
  ob_len dst = ob_len src -> Z.of_nat (length ys) = ob_len src ->
  (forall a, inside dst a -> h a <> None) -> seg h (dbase (ob_desc src)) ys ->
  (dbase (ob_desc dst) = dbase (ob_desc src) \/ forall a, inside dst a -> ~ inside src a) ->
  exists h', vec_copy dst src h = Ok h' /\ seg h' (dbase (ob_desc dst)) ys /\ (forall a, ~ inside dst a -> h' a = h a).
Proof.
  intros T dst src ys h EL LY HA HS HD. destruct ys as [|y0 ys'].
  { unfold vec_copy. simpl in LY. rewrite <- LY. exists h. split; [reflexivity|]. split; auto. intros k Hk. simpl in Hk. lia. }
  set (ys := y0 :: ys') in *. unfold vec_copy.
  destruct (vec_loop T (dbase (ob_desc dst)) (ob_len src) (fun k => nth (Z.to_nat k) ys y0)
    (fun k h => v <- vec_rd src k h ;; vec_wr dst k v h) h) as (h' & E & H1 & H2).
  - intros k h' Hk Hag.
    assert (S1 : h (dbase (ob_desc src) + k) = Some (nth (Z.to_nat k) ys y0)) by (apply (seg_some T h _ ys); auto; lia).
    assert (R : h' (dbase (ob_desc src) + k) = Some (nth (Z.to_nat k) ys y0)).
    { rewrite Hag; auto. destruct HD as [HD|HD]; [left; lia|]. right. intros Hc. apply (HD (dbase (ob_desc src) + k)); unfold inside; lia. }
    rewrite (vec_rd_ok T src k h' _ Hk R). cbn [bind].
    assert (W : h (dbase (ob_desc dst) + k) <> None) by (apply HA; unfold inside; lia).
    destruct (h (dbase (ob_desc dst) + k)) as [w|] eqn:Ew; [|congruence].
    apply vec_wr_ok with w; [lia|]. rewrite Hag; auto.
  - exists h'. split; auto. split.
    + apply seg_of with y0. intros k Hk. apply H1. lia.
    + intros a Ha. apply H2. unfold inside in Ha. lia.
Qed.

(** [std::vector::resize]. *)
Lemma vec_grow_spec : forall T (zero : T) pl b len n (xs : list T) (h : heap T),
  place_ok pl -> 0 <= len -> 0 <= n -> Z.of_nat (length xs) = len -> seg h b xs ->
  (vec_grow zero pl b len n h = Throw /\ exists h b len n, len < n /\ pl h b len n = None) \/
  exists p h', vec_grow zero pl b len n h = Ok (p, h') /\
    seg h' p (firstn (Z.to_nat n) (xs ++ zero_list zero n)) /\
    (forall a, p <= a < p + n -> b <= a < b + len \/ h a = None) /\
    (forall a, ~ (b <= a < b + len) -> ~ (p <= a < p + n) -> h' a = h a) /\
    (forall a, b <= a < b + len -> ~ (p <= a < p + n) -> h' a = None).
Proof.
  intros T zero pl b len n xs h HP Hl Hn LX HS. unfold vec_grow. destruct (Z.leb_spec n len) as [Hle|Hgt].
  - right. exists b, (fun a => if (b + n <=? a) && (a <? b + len) then None else h a). split; auto.
    assert (LF : length (firstn (Z.to_nat n) (xs ++ zero_list zero n)) = Z.to_nat n).
    { apply firstn_length_le. rewrite app_length. lia. }
    split; [|split; [|split]].
    + intros k Hk. rewrite LF in Hk. destruct (Z.leb_spec (b + n) (b + k)); [lia|]. cbn [andb].
      rewrite HS by lia. rewrite firstn_app. replace (Z.to_nat n - length xs)%nat with 0%nat by lia.
      cbn [firstn]. rewrite app_nil_r. symmetry.
      rewrite <- (firstn_skipn (Z.to_nat n) xs) at 2. rewrite nth_error_app1; auto. rewrite firstn_length_le; lia.
    + intros a Ha. left. lia.
    + intros a N1 N2. destruct (Z.leb_spec (b + n) a); destruct (Z.ltb_spec a (b + len)); cbn [andb]; auto; lia.
    + intros a N1 N2. destruct (Z.leb_spec (b + n) a); destruct (Z.ltb_spec a (b + len)); cbn [andb]; auto; lia.
  - destruct (pl h b len n) as [p|] eqn:Ep; [|left; split; auto; exists h, b, len, n; auto]. right.
    exists p. eexists. split; [reflexivity|].
    assert (LF : length (firstn (Z.to_nat n) (xs ++ zero_list zero n)) = Z.to_nat n).
    { apply firstn_length_le. rewrite app_length. unfold zero_list. rewrite repeat_length. lia. }
    split; [|split; [|split]].
    + intros k Hk. rewrite LF in Hk. destruct (Z.leb_spec p (p + k)); [|lia]. destruct (Z.ltb_spec (p + k) (p + n)); [|lia].
      cbn [andb]. replace (p + k - p) with k by lia.
      assert (G : nth_error (firstn (Z.to_nat n) (xs ++ zero_list zero n)) (Z.to_nat k) = nth_error (xs ++ zero_list zero n) (Z.to_nat k)).
      { rewrite <- (firstn_skipn (Z.to_nat n) (xs ++ zero_list zero n)) at 2. rewrite nth_error_app1; auto. rewrite LF. lia. }
      rewrite G. destruct (Z.ltb_spec k len).
      * rewrite nth_error_app1 by lia. apply HS. lia.
      * rewrite nth_error_app2 by lia. unfold zero_list. symmetry. apply nth_error_repeat. lia.
    + intros a Ha. destruct (HP h b len n p (a - p) Hgt Ep) as [E|(E & E2)]; [lia| |].
      * right. now replace (p + (a - p)) with a in E by lia.
      * left. lia.
    + intros a N1 N2. destruct (Z.leb_spec p a); destruct (Z.ltb_spec a (p + n)); cbn [andb]; try lia;
        destruct (Z.leb_spec b a); destruct (Z.ltb_spec a (b + len)); cbn [andb]; auto; lia.
    + intros a N1 N2. destruct (Z.leb_spec p a); destruct (Z.ltb_spec a (p + n)); cbn [andb]; try lia;
        destruct (Z.leb_spec b a); destruct (Z.ltb_spec a (b + len)); cbn [andb]; auto; lia.
Qed.

(** ** Positions *)
Lemma position_spec : forall dims inds acc k, position acc dims inds = Some k ->
  inb (wrap_negative dims inds) dims /\ k = acc * zprod dims + dotp (wrap_negative dims inds) (row_major_strides dims).
Proof.
  induction dims as [|d ds IH]; intros [|i is] acc k H; simpl in H; try discriminate.
  - injection H as <-. split; [constructor|]. simpl. lia.
  - simpl wrap_negative. rewrite rms_cons. cbn [zprod fold_right dotp].
    destruct (Z.leb_spec 0 i); destruct (Z.ltb_spec i d); cbn [andb] in H.
    + destruct (IH _ _ _ H) as (A & B). destruct (Z.ltb_spec i 0); [lia|]. split; [constructor; auto|]. simpl. rewrite B. ring.
    + destruct (Z.leb_spec (- d) i); destruct (Z.ltb_spec i 0); cbn [andb] in H; try discriminate; lia.
    + destruct (Z.leb_spec (- d) i); destruct (Z.ltb_spec i 0); cbn [andb] in H; try discriminate; try lia.
      destruct (IH _ _ _ H) as (A & B). split; [constructor; auto; lia|]. simpl. rewrite B. ring.
    + destruct (Z.leb_spec (- d) i); destruct (Z.ltb_spec i 0); cbn [andb] in H; try discriminate; try lia.
Qed.

Lemma position_range : forall dims inds k, position 0 dims inds = Some k -> 0 <= k < zprod dims /\ k = dotp (wrap_negative dims inds) (row_major_strides dims).
Proof.
  intros dims inds k H. apply position_spec in H as (A & B). assert (R := rm_range _ _ A). split; lia.
Qed.

Lemma wrap_inb : forall dims idx, inb idx dims -> wrap_negative dims idx = idx.
Proof. intros dims idx H. induction H as [|i d is ds Hi Hr IH]; auto. simpl. destruct (Z.ltb_spec i 0); [lia|]. now rewrite IH. Qed.
