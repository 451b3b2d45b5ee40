(** * L_Tiled: lemmas on tiled tensors. *)
From Coq Require Import List ZArith Lia Bool Permutation Ring.
From Verif Require Import Base Heap Conc M_Addr M_Elt M_Einsum M_Blas M_Block M_Tiled S_Addr S_Einsum S_Blas S_Block S_Tiled
  L_Addr L_Elt L_Einsum L_Blas L_Block.
Import ListNotations.
Open Scope Z_scope.

(** ** Offsets *)
Lemma off_cons : forall n s k, off (n :: s) (S k) = n + off s k.
Proof. reflexivity. Qed.

Lemma offset_loop_spec : forall s sum,
  offset_loop sum s = (map (fun k => sum + off s k) (seq 0 (length s)), sum + off s (length s)).
Proof.
  induction s as [|n s IH]; intros sum; simpl.
  - unfold off. simpl. f_equal. lia.
  - rewrite IH. f_equal.
    + rewrite <- seq_shift, map_map. f_equal.
      * unfold off. simpl. lia.
      * apply map_ext. intros k. rewrite off_cons. lia.
    + rewrite off_cons. lia.
Qed.

Lemma ctor_ok : forall sizes, sizes_ok sizes -> tt_ok (tt_ctor sizes).
Proof.
  intros sizes H. constructor; simpl; auto; try (constructor; fail); try discriminate.
  - apply map_ext. intros s. now rewrite offset_loop_spec.
  - unfold dense_dims. apply map_ext. intros s. now rewrite offset_loop_spec.
Qed.

(** ** tile_of *)
Lemma last_seq_off : forall s, s <> [] -> last (map (off s) (seq 0 (length s))) 0 = off s (length s - 1).
Proof.
  intros s Hs. destruct (length s) as [|n] eqn:E; [destruct s; [congruence|discriminate]|].
  replace (S n) with (n + 1)%nat by lia. rewrite seq_app, map_app. simpl. rewrite last_last. f_equal. lia.
Qed.

Lemma tile_search_spec : forall s x c, Forall (fun n => 0 <= n) s -> off s c <= x < off s (S c) ->
  forall m k, (k <= c < k + m)%nat -> (c <> k + m)%nat ->
  tile_search (Z.of_nat k) (map (off s) (seq k (S m))) x = Z.of_nat c.
Proof.
  intros s x c HN Hx. induction m as [|m IH]; intros k Hk Hne; [lia|].
  change (seq k (S (S m))) with (k :: S k :: seq (S (S k)) m). cbn [map tile_search].
  destruct (Nat.eq_dec c k) as [->|Hck].
  - destruct (Z.ltb_spec x (off s (S k))); [|lia]. destruct (Z.leb_spec (off s k) x); [|lia]. reflexivity.
  - assert (M := off_mono s (S k) c HN). destruct (Z.ltb_spec x (off s (S k))); [lia|]. cbn [andb].
    replace (Z.of_nat k + 1) with (Z.of_nat (S k)) by lia. apply (IH (S k)); lia.
Qed.

Lemma tile_of_axis_spec : forall s k x, Forall (fun n => 0 <= n) s -> spells (off s (length s)) k x ->
  exists c, (c < length s)%nat /\ off s c <= x < off s (S c) /\
    tile_of_axis (map (off s) (seq 0 (length s))) (off s (length s)) k = Ok (Z.of_nat c).
Proof.
  intros s k x HN (Hx & Hk). destruct (off_cover s x HN Hx) as (c & Hc & Hcx). exists c. split; auto. split; auto.
  unfold tile_of_axis.
  assert (E : (if k <? 0 then k + off s (length s) else k) = x).
  { destruct Hk as [->| ->]; destruct (Z.ltb_spec x 0); try lia; destruct (Z.ltb_spec (x - off s (length s)) 0); lia. }
  rewrite E. destruct (Z.ltb_spec x 0); [lia|]. destruct (Z.geb_spec x (off s (length s))); [lia|]. cbn [orb].
  assert (Hs : s <> []) by (destruct s; [simpl in Hc; lia|discriminate]).
  destruct (map (off s) (seq 0 (length s))) as [|o os] eqn:Em.
  { destruct s; [congruence|discriminate]. }
  rewrite <- Em. rewrite last_seq_off by auto. rewrite map_length, seq_length.
  destruct (Z.geb_spec x (off s (length s - 1))) as [L|L].
  - f_equal. assert (c = (length s - 1)%nat); [|lia].
    apply (off_unique s x); auto. replace (S (length s - 1)) with (length s) by lia. lia.
  - f_equal. assert (c < length s - 1)%nat.
    { destruct (Nat.lt_ge_cases c (length s - 1)); auto. assert (c = (length s - 1)%nat) by lia. subst c. lia. }
    destruct (length s) as [|m] eqn:El; [lia|]. apply (tile_search_spec s x c HN Hcx m 0%nat); lia.
Qed.

Lemma tile_of_axis_out : forall s k, Forall (fun n => 0 <= n) s -> ~ (- off s (length s) <= k < off s (length s)) ->
  tile_of_axis (map (off s) (seq 0 (length s))) (off s (length s)) k = Throw.
Proof.
  intros s k HN H. unfold tile_of_axis. assert (N := off_nonneg s (length s) HN).
  set (x := if k <? 0 then k + off s (length s) else k).
  assert ((x <? 0) || (x >=? off s (length s)) = true) as ->; auto.
  unfold x. destruct (Z.ltb_spec k 0); rewrite orb_true_iff, Z.ltb_lt, Z.geb_le; lia.
Qed.

Lemma tile_of_spec : forall sizes ks idx, Forall (Forall (fun n => 0 <= n)) sizes ->
  spell (dense_dims sizes) ks idx ->
  exists c j, tile_of_loop (map (fun s => map (off s) (seq 0 (length s))) sizes) (dense_dims sizes) ks = Ok c /\
    tile_pos sizes idx c j /\
    local_index (map (fun s => map (off s) (seq 0 (length s))) sizes) (dense_dims sizes) ks c = j.
Proof.
  induction sizes as [|s ss IH]; intros ks idx HF H; cbn [dense_dims map] in H; inversion H as [|? ? k ks0 i is H2 H4]; subst.
  - exists [], []. repeat split. constructor.
  - inversion HF as [|? ? Hs HF']; subst.
    destruct (tile_of_axis_spec s k i Hs H2) as (c & Hc & Hcx & E).
    destruct (IH ks0 is HF' H4) as (cs & js & E' & P' & L').
    exists (Z.of_nat c :: cs), (i - off s c :: js). cbn [map dense_dims tile_of_loop]. rewrite E. cbn [bind].
    fold (dense_dims ss). rewrite E'. cbn [bind]. split; auto. split.
    + constructor; auto; rewrite ?Nat2Z.id; try lia. rewrite off_S in Hcx. lia.
    + cbn [local_index]. rewrite L'. f_equal. rewrite Nat2Z.id.
      rewrite nth_indep with (d' := off s 0) by (rewrite map_length, seq_length; auto).
      rewrite map_nth, seq_nth by auto. cbn [Nat.add]. f_equal.
      destruct H2 as (Hx & Hk). destruct Hk as [->| ->]; [destruct (Z.ltb_spec i 0); lia|].
      destruct (Z.ltb_spec (i - off s (length s)) 0); lia.
Qed.

Lemma tile_of_out : forall sizes ks, Forall (Forall (fun n => 0 <= n)) sizes -> length ks = length sizes ->
  ~ Forall2 (fun k d => - d <= k < d) ks (dense_dims sizes) ->
  tile_of_loop (map (fun s => map (off s) (seq 0 (length s))) sizes) (dense_dims sizes) ks = Throw.
Proof.
  induction sizes as [|s ss IH]; intros [|k ks] HF HL Hn; try discriminate.
  - elim Hn. constructor.
  - inversion HF as [|? ? Hs HF']; subst. cbn [map dense_dims tile_of_loop]. fold (dense_dims ss).
    set (D := off s (length s)) in *.
    assert (Dec : - D <= k < D \/ ~ (- D <= k < D)) by lia.
    destruct Dec as [Hk|Hk].
    + destruct (tile_of_axis_spec s k (if k <? 0 then k + D else k) Hs) as (c & _ & _ & E).
      { fold D. destruct (Z.ltb_spec k 0); split; lia. }
      unfold D. rewrite E. cbn [bind]. rewrite IH; auto. intros H. apply Hn. constructor; auto.
    + unfold D. rewrite tile_of_axis_out; auto.
Qed.

(** ** Positions *)
Lemma tile_pos_unique : forall sizes idx c j c' j', Forall (Forall (fun n => 0 <= n)) sizes ->
  tile_pos sizes idx c j -> tile_pos sizes idx c' j' -> c' = c /\ j' = j.
Proof.
  intros sizes idx c j c' j' HF H. revert c' j'.
  induction H as [|s ss x xs c cs j js Hc Hj Hx H IH]; intros c' j' H'.
  { inversion H'; subst; auto. }
  inversion H' as [|? ? ? ? c0 cs0 j0 js0 Hc0 Hj0 Hx0 H0]; subst.
  inversion HF as [|? ? Hs HF']; subst. destruct (IH HF' _ _ H0) as (-> & ->).
  assert (c = c0).
  { apply Z2Nat.inj; try lia. apply (off_unique s (off s (Z.to_nat c) + j)); auto; rewrite off_S; lia. }
  subst c0. split; auto. f_equal. lia.
Qed.

Lemma tile_pos_inb : forall sizes idx c j, Forall (Forall (fun n => 0 <= n)) sizes -> tile_pos sizes idx c j ->
  inb idx (dense_dims sizes) /\ inb c (map (fun s => Z.of_nat (length s)) sizes) /\ inb j (tile_dims sizes c).
Proof.
  intros sizes idx c j HF H. induction H as [|s ss x xs c cs j js Hc Hj Hx H IH]; [repeat split; constructor|].
  inversion HF as [|? ? H5 HF']; subst. destruct IH as (I1 & I2 & I3); auto.
  cbn [dense_dims map tile_dims]. split; [|split; apply inb_cons; auto].
  apply inb_cons. split; auto.
  assert (M := off_mono s (S (Z.to_nat c)) (length s) H5). assert (N := off_nonneg s (Z.to_nat c) H5).
  rewrite off_S in M. lia.
Qed.

Lemma tile_pos_exists : forall sizes c j, inb c (map (fun s => Z.of_nat (length s)) sizes) -> inb j (tile_dims sizes c) ->
  exists idx, tile_pos sizes idx c j.
Proof.
  induction sizes as [|s ss IH]; intros c j Hc Hj.
  - inversion Hc; subst. inversion Hj; subst. exists []. constructor.
  - destruct c as [|x c]; [inversion Hc|]. apply inb_cons in Hc as (Hx & Hc).
    destruct j as [|y j]; [inversion Hj|]. apply inb_cons in Hj as (Hy & Hj).
    destruct (IH c j Hc Hj) as (idx & H). exists (off s (Z.to_nat x) + y :: idx). constructor; auto.
Qed.

Lemma tile_pos_cover : forall sizes idx, Forall (Forall (fun n => 0 <= n)) sizes -> inb idx (dense_dims sizes) ->
  exists c j, tile_pos sizes idx c j.
Proof.
  intros sizes idx HF H. destruct (tile_of_spec sizes idx idx HF (spell_self _ _ H)) as (c & j & _ & P & _). eauto.
Qed.

Lemma tile_pos_fun : forall sizes idx idx' c j, tile_pos sizes idx c j -> tile_pos sizes idx' c j -> idx' = idx.
Proof.
  intros sizes idx idx' c j H. revert idx'. induction H; intros idx' H'; inversion H'; subst; auto. f_equal; auto.
Qed.

Lemma tile_dims_nonneg : forall sizes c, Forall (Forall (fun n => 0 <= n)) sizes -> Forall (fun n => 0 <= n) (tile_dims sizes c).
Proof.
  induction sizes as [|s ss IH]; intros [|k c] HF; simpl; constructor; inversion HF; subst; auto.
  unfold tile_extent. now apply nth_nonneg.
Qed.

Lemma tile_dims_length : forall sizes c, length c = length sizes -> length (tile_dims sizes c) = length sizes.
Proof. induction sizes as [|s ss IH]; intros [|k c] H; simpl in *; auto; try discriminate. Qed.

Lemma tile_dims_ne : forall sizes c, sizes <> [] -> inb c (map (fun s => Z.of_nat (length s)) sizes) -> tile_dims sizes c <> [].
Proof.
  intros sizes c Hne H. apply inb_length in H. rewrite map_length in H.
  intros E. assert (L := tile_dims_length sizes c H). rewrite E in L. destruct sizes; [congruence|discriminate].
Qed.

(** ** Tile coordinates *)
Lemma wrap_coords_inb : forall sizes c, inb c (map (fun s => Z.of_nat (length s)) sizes) -> wrap_coords sizes c = Some c.
Proof.
  induction sizes as [|s ss IH]; intros c H.
  - inversion H; subst. reflexivity.
  - destruct c as [|x c]; [inversion H|]. apply inb_cons in H as (Hx & Hc). cbn [wrap_coords]. cbv zeta.
    rewrite (proj2 (Z.ltb_ge x 0)) by lia. destruct (Z.geb_spec x (Z.of_nat (length s))); [lia|].
    rewrite (proj2 (Z.ltb_ge x 0)) by lia. cbn [orb]. rewrite IH by auto. reflexivity.
Qed.

Lemma coords_in_inb : forall sizes c, inb c (map (fun s => Z.of_nat (length s)) sizes) -> coords_in sizes c = true.
Proof.
  induction sizes as [|s ss IH]; intros c H.
  - inversion H; subst. reflexivity.
  - destruct c as [|x c]; [inversion H|]. apply inb_cons in H as (Hx & Hc). cbn [coords_in].
    destruct (Z.geb_spec x (Z.of_nat (length s))); [lia|]. destruct (Z.ltb_spec x 0); [lia|]. cbn [orb]. auto.
Qed.

Lemma coords_in_out : forall sizes c, length c = length sizes -> ~ inb c (map (fun s => Z.of_nat (length s)) sizes) ->
  coords_in sizes c = false.
Proof.
  induction sizes as [|s ss IH]; intros [|x c] HL H; try discriminate.
  - elim H. constructor.
  - cbn [coords_in]. destruct (Z.geb_spec x (Z.of_nat (length s))) as [L|L]; [reflexivity|].
    destruct (Z.ltb_spec x 0) as [L'|L']; [reflexivity|]. cbn [orb].
    apply IH; [simpl in HL; lia|]. intros Hc. apply H. cbn [map]. apply inb_cons. split; [lia|auto].
Qed.

Lemma wrap_coords_some : forall sizes c x, length c = length sizes -> wrap_coords sizes c = Some x ->
  inb x (map (fun s => Z.of_nat (length s)) sizes).
Proof.
  induction sizes as [|s ss IH]; intros [|k c] x HL H; try discriminate.
  - injection H as <-. constructor.
  - cbn [wrap_coords] in H. set (y := if k <? 0 then k + Z.of_nat (length s) else k) in *.
    destruct (Z.geb_spec y (Z.of_nat (length s))); [discriminate|]. destruct (Z.ltb_spec y 0); [discriminate|]. cbn [orb] in H.
    destruct (wrap_coords ss c) as [cs|] eqn:E; [|discriminate]. injection H as <-. cbn [map]. apply inb_cons.
    split; [lia|]. apply (IH c); auto.
Qed.

Lemma find_tile_in : forall c d l, find_tile c l = Some d -> In (c, d) l.
Proof.
  induction l as [|(k, e) l IH]; simpl; intros H; [discriminate|].
  destruct (list_eq_dec Z.eq_dec k c); [left; congruence|right; auto].
Qed.

Lemma in_find_tile : forall c d l, NoDup (map fst l) -> In (c, d) l -> find_tile c l = Some d.
Proof.
  induction l as [|(k, e) l IH]; simpl; intros Hn H; [tauto|]. inversion Hn; subst.
  destruct (list_eq_dec Z.eq_dec k c) as [->|Hne].
  - destruct H as [H|H]; [congruence|]. elim H2. apply in_map_iff. exists (c, d). auto.
  - destruct H as [H|H]; [congruence|auto].
Qed.

Lemma find_tile_none : forall c l, find_tile c l = None -> ~ In c (map fst l).
Proof.
  induction l as [|(k, e) l IH]; simpl; intros H; auto.
  destruct (list_eq_dec Z.eq_dec k c); [discriminate|]. intros [->|Hc]; auto. now apply IH.
Qed.

(** ** Loops over the cells of one dense tensor *)
Lemma flat_loop : forall T b dims (body : Z -> heap T -> res (heap T)) (val : list Z -> T) (h : heap T),
  dims <> [] -> nonneg dims ->
  (forall idx h', inb idx dims -> 
     (forall a, a = b + dotp idx (row_major_strides dims) \/ ~ cell (tensor_ctor b dims) a -> h' a = h a) ->
     body (dotp idx (row_major_strides dims)) h' = Ok (upd h' (b + dotp idx (row_major_strides dims)) (val idx))) ->
  exists h', forM (zrange (data_size dims)) body h = Ok h' /\ holds h' (tensor_ctor b dims) val /\
    (forall a, ~ cell (tensor_ctor b dims) a -> h' a = h a).
Proof.
  intros T b dims body val h Hne HN Hb. rewrite data_size_eq by auto.
  set (sti := fun n => sentinel_to_indices n (row_major_strides dims)).
  assert (ST : forall n, 0 <= n < zprod dims -> inb (sti n) dims /\ dotp (sti n) (row_major_strides dims) = n).
  { intros n Hn. split; [apply rm_sti_inb; auto|apply rm_sti_ordinal; auto]. }
  assert (AD : forall a, In a (map (fun i => b + i) (zrange (zprod dims))) <-> cell (tensor_ctor b dims) a).
  { intros a. rewrite tensor_cell by auto. rewrite in_map_iff. split.
    - intros (i & <- & Hi). apply zrange_in in Hi. lia.
    - intros Ha. exists (a - b). split; [lia|]. apply zrange_in. lia. }
  destruct (forM_cells Z T (zrange (zprod dims)) (fun i => b + i) (fun i => val (sti i)) body h) as (h' & E & Hv & Hf).
  - apply FinFun.Injective_map_NoDup; [|apply zrange_NoDup]. intros x y. lia.
  - intros i h' Hi Hag. apply zrange_in in Hi. destruct (ST i Hi) as (S1 & S2).
    assert (B := Hb (sti i) h' S1). rewrite S2 in B. apply B.
    intros a [->|Ha]; apply Hag; auto. right. rewrite AD. auto.
  - exists h'. split; auto. split.
    + intros idx Hi. simpl in Hi. unfold addr. simpl. assert (R := rm_range dims idx Hi).
      rewrite Hv by (apply zrange_in; lia). f_equal. f_equal. unfold sti. apply rm_roundtrip; auto.
    + intros a Ha. apply Hf. rewrite AD. auto.
Qed.

Lemma tile_op_spec : forall (O : Ops) op (v : car O) d dims f (h : heap (car O)),
  d = tensor_ctor (dbase d) dims -> dims <> [] -> nonneg dims -> holds h d f ->
  exists h', tile_op op v d h = Ok h' /\ holds h' d (fun i => op (f i) v) /\ (forall a, ~ cell d a -> h' a = h a).
Proof.
  intros O op v d dims f h Hd Hne HN HH. unfold tile_op. rewrite Hd in *. simpl dbase. simpl ddims.
  apply flat_loop; auto. intros idx h' Hi Hag.
  assert (E : h' (dbase d + dotp idx (row_major_strides dims)) = Some (f idx)).
  { rewrite Hag by auto. now apply HH. }
  rewrite (rd_some _ _ _ _ E). cbn [bind]. now rewrite (wr_some _ _ _ _ _ E).
Qed.

Lemma tile_fill_spec : forall (O : Ops) (v : car O) d dims (h : heap (car O)),
  d = tensor_ctor (dbase d) dims -> dims <> [] -> nonneg dims -> alloc h d ->
  exists h', tile_fill v d h = Ok h' /\ holds h' d (fun _ => v) /\ (forall a, ~ cell d a -> h' a = h a).
Proof.
  intros O v d dims h Hd Hne HN HA. unfold tile_fill, set_all. rewrite Hd in *. simpl dbase. simpl ddims.
  apply flat_loop; auto. intros idx h' Hi Hag.
  destruct (HA idx Hi) as (w & Hw). unfold addr in Hw. simpl in Hw. 
  assert (E : h' (dbase d + dotp idx (row_major_strides dims)) = Some w).
  { rewrite Hag by auto. auto. }
  now rewrite (wr_some _ _ _ _ _ E).
Qed.

Lemma tile_op2_spec : forall (O : Ops) op d e dims f g (h : heap (car O)),
  d = tensor_ctor (dbase d) dims -> e = tensor_ctor (dbase e) dims -> dims <> [] -> nonneg dims ->
  holds h d f -> holds h e g -> disj d e ->
  exists h', tile_op2 op e d h = Ok h' /\ holds h' d (fun i => op (f i) (g i)) /\ (forall a, ~ cell d a -> h' a = h a).
Proof.
  intros O op d e dims f g h Hd He Hne HN HF HG HD. unfold tile_op2. rewrite Hd, He in *. simpl dbase. simpl ddims.
  rewrite Z.eqb_refl. cbn [negb].
  apply flat_loop; auto. intros idx h' Hi Hag.
  assert (E : h' (dbase d + dotp idx (row_major_strides dims)) = Some (f idx)).
  { rewrite Hag by auto. now apply HF. }
  assert (E' : h' (dbase e + dotp idx (row_major_strides dims)) = Some (g idx)).
  { rewrite Hag; [now apply HG|]. right. intros (x & Hx & Ex). apply (HD x idx Hx Hi). auto. }
  rewrite (rd_some _ _ _ _ E'). cbn [bind]. rewrite (rd_some _ _ _ _ E). cbn [bind]. now rewrite (wr_some _ _ _ _ _ E).
Qed.

(** ** Changing one tile *)
Lemma find_key_in : forall c d l, In (c, d) l -> exists e, find_tile c l = Some e.
Proof.
  induction l as [|(k, e) l IH]; simpl; intros H; [tauto|]. destruct (list_eq_dec Z.eq_dec k c); [eauto|].
  destruct H as [H|H]; [congruence|auto].
Qed.

Lemma tile_cell_unique : forall t c d c' d' a, tt_ok t -> find_tile c (tt_tiles t) = Some d -> find_tile c' (tt_tiles t) = Some d' ->
  cell d a -> cell d' a -> c = c'.
Proof.
  intros t c d c' d' a Hok H1 H2 (x & Hx & Ex) (y & Hy & Ey). destruct (list_eq_dec Z.eq_dec c c'); auto.
  elim (ok_sep t Hok c c' d d' H1 H2 n x y Hx Hy). congruence.
Qed.

Lemma tile_facts : forall t c d, tt_ok t -> find_tile c (tt_tiles t) = Some d ->
  d = tensor_ctor (dbase d) (tile_dims (tt_sizes t) c) /\ ddims d = tile_dims (tt_sizes t) c /\
  tile_dims (tt_sizes t) c <> [] /\ nonneg (tile_dims (tt_sizes t) c) /\
  inb c (map (fun s => Z.of_nat (length s)) (tt_sizes t)).
Proof.
  intros t c d Hok H. destruct (ok_tile t Hok c d H) as (I & E). destruct (ok_sizes t Hok) as (N & F).
  split; auto. split; [rewrite E; reflexivity|]. split; [now apply tile_dims_ne|]. split; auto. now apply tile_dims_nonneg.
Qed.

(** The element at position [j] of tile [c]. *)
Definition at_tile {T} (f : list Z -> T) (sizes : list (list Z)) (c j : list Z) : T :=
  f (map (fun p => off (fst (fst p)) (Z.to_nat (snd (fst p))) + snd p) (combine (combine sizes c) j)).

Lemma at_tile_pos : forall T (f : list Z -> T) sizes idx c j, tile_pos sizes idx c j -> at_tile f sizes c j = f idx.
Proof.
  intros T f sizes idx c j H. unfold at_tile. f_equal. induction H; simpl; auto. f_equal; auto.
Qed.

Lemma holds_tile : forall (O : Ops) (h : heap (car O)) t f c d, tt_ok t -> tt_holds h t f -> find_tile c (tt_tiles t) = Some d ->
  holds h d (at_tile f (tt_sizes t) c).
Proof.
  intros O h t f c d Hok HH Hc j Hj. destruct (tile_facts t c d Hok Hc) as (_ & E & _ & _ & I). rewrite E in Hj.
  destruct (tile_pos_exists _ _ _ I Hj) as (idx & P). rewrite (at_tile_pos _ _ _ _ _ _ P).
  assert (H := HH idx c j P). now rewrite Hc in H.
Qed.

Lemma update_tile : forall (O : Ops) (h h' : heap (car O)) t (f f' : list Z -> car O) c d, tt_ok t -> tt_holds h t f ->
  find_tile c (tt_tiles t) = Some d ->
  (forall a, ~ cell d a -> h' a = h a) ->
  holds h' d (at_tile f' (tt_sizes t) c) ->
  (forall idx c' j, tile_pos (tt_sizes t) idx c' j -> c' <> c -> f' idx = f idx) ->
  tt_holds h' t f'.
Proof.
  intros O h h' t f f' c d Hok HH Hc Hf Hd Hs idx c' j P.
  destruct (ok_sizes t Hok) as (_ & HF). destruct (tile_pos_inb _ _ _ _ HF P) as (_ & Ic & Ij).
  destruct (list_eq_dec Z.eq_dec c' c) as [->|Hne].
  - rewrite Hc. rewrite <- (at_tile_pos _ f' _ _ _ _ P). apply Hd.
    destruct (tile_facts t c d Hok Hc) as (_ & E & _). now rewrite E.
  - rewrite (Hs idx c' j P Hne). assert (H := HH idx c' j P).
    destruct (find_tile c' (tt_tiles t)) as [d'|] eqn:E'; auto.
    rewrite Hf; auto. intros Hcell. apply Hne.
    apply (tile_cell_unique t c' d' c d (addr d' j)); auto.
    exists j. split; auto. destruct (tile_facts t c' d' Hok E') as (_ & -> & _). auto.
Qed.

(** ** Creating a tile *)
Lemma add_tile_spec : forall (O : Ops) al (h : heap (car O)) t f c, al_ok al -> tt_ok t -> tt_holds h t f ->
  inb c (map (fun s => Z.of_nat (length s)) (tt_sizes t)) -> find_tile c (tt_tiles t) = None ->
  (al h (data_size (tile_dims (tt_sizes t) c)) = None /\ add_tile al c (t, h) = Throw) \/
  exists d t' h', add_tile al c (t, h) = Ok (d, (t', h')) /\ tt_ok t' /\ tt_holds h' t' f /\
    tt_sizes t' = tt_sizes t /\ find_tile c (tt_tiles t') = Some d /\
    (forall c', c' <> c -> find_tile c' (tt_tiles t') = find_tile c' (tt_tiles t)) /\
    (forall a, cell d a -> h a = None) /\ (forall a, ~ cell d a -> h' a = h a).
Proof.
  intros O al h t f c Hal Hok HH Ic Hn. unfold add_tile.
  destruct (ok_sizes t Hok) as (Hne & HF).
  set (dims := tile_dims (tt_sizes t) c).
  assert (Dne : dims <> []) by (apply tile_dims_ne; auto).
  assert (DN : nonneg dims) by (apply tile_dims_nonneg; auto).
  destruct (al h (data_size dims)) as [b|] eqn:Ea; [right|left; auto].
  assert (Hfree := Hal _ _ _ Ea). set (d := tensor_ctor b dims).
  assert (Hcell : forall a, cell d a <-> b <= a < b + data_size dims).
  { intros a. unfold d. rewrite tensor_cell by auto. now rewrite data_size_eq by auto. }
  set (h0 := alloc_buffer o0 b (data_size dims) h).
  assert (HA : alloc h0 d).
  { intros j Hj. exists o0. unfold h0. apply alloc_buffer_cell. apply Hcell. exists j. auto. }
  destruct (tile_fill_spec O o0 d dims h0 eq_refl Dne DN HA) as (h' & E & V & F).
  unfold tile_fill in E. simpl dbase in E. simpl ddims in E. rewrite E. cbn [bind].
  assert (Fr : forall a, ~ cell d a -> h' a = h a).
  { intros a Ha. rewrite F by auto. unfold h0. apply alloc_buffer_other. rewrite <- Hcell. auto. }
  set (t' := mkTT (tt_sizes t) (tt_offsets t) (tt_dims t) ((c, d) :: tt_tiles t)).
  exists d, t', h'. split; auto.
  assert (Fc : find_tile c (tt_tiles t') = Some d).
  { simpl. destruct (list_eq_dec Z.eq_dec c c); congruence. }
  assert (Fo : forall c', c' <> c -> find_tile c' (tt_tiles t') = find_tile c' (tt_tiles t)).
  { intros c' Hc'. simpl. destruct (list_eq_dec Z.eq_dec c c'); congruence. }
  assert (New : forall c' d' a, find_tile c' (tt_tiles t) = Some d' -> cell d' a -> ~ cell d a).
  { intros c' d' a Hc' (j & Hj & ->) Hc2. apply Hcell in Hc2. assert (Hx := holds_tile O h t f c' d' Hok HH Hc' j Hj).
    rewrite Hfree in Hx by auto. discriminate. }
  assert (OK' : tt_ok t').
  { constructor; simpl.
    - apply (ok_sizes t Hok).
    - apply (ok_offsets t Hok).
    - apply (ok_dims t Hok).
    - constructor; [|apply (ok_keys t Hok)]. now apply find_tile_none.
    - intros c' d' H. destruct (list_eq_dec Z.eq_dec c c') as [<-|Hc'].
      + injection H as <-. split; auto.
      + apply (ok_tile t Hok); auto.
    - intros c1 c2 d1 d2 H1 H2 Hne12 x y Hx Hy Exy.
      destruct (list_eq_dec Z.eq_dec c c1) as [<-|N1]; destruct (list_eq_dec Z.eq_dec c c2) as [<-|N2]; try congruence.
      + injection H1 as <-. apply (New c2 d2 (addr d2 y) H2); [exists y; auto|]. rewrite <- Exy. exists x; auto.
      + injection H2 as <-. apply (New c1 d1 (addr d1 x) H1); [exists x; auto|]. rewrite Exy. exists y; auto.
      + apply (ok_sep t Hok c1 c2 d1 d2 H1 H2 Hne12 x y Hx Hy Exy). }
  split; auto. split.
  { intros idx c' j P. simpl in P. destruct (list_eq_dec Z.eq_dec c' c) as [->|Hc'].
    - rewrite Fc. assert (H := HH idx c j P). rewrite Hn in H. rewrite H.
      destruct (tile_pos_inb _ _ _ _ HF P) as (_ & _ & Ij). apply (V j). exact Ij.
    - rewrite (Fo c' Hc'). assert (H := HH idx c' j P). destruct (find_tile c' (tt_tiles t)) as [d'|] eqn:E'; auto.
      rewrite Fr; auto. apply (New c' d'); auto. exists j. split; auto.
      destruct (tile_facts t c' d' Hok E') as (_ & -> & _). destruct (tile_pos_inb _ _ _ _ HF P) as (_ & _ & Ij). auto. }
  split; auto. split; auto. split; auto. split; auto.
  intros a Ha. apply Hfree. now apply Hcell.
Qed.

Lemma tile_spec : forall (O : Ops) al (h : heap (car O)) t f c, al_ok al -> tt_ok t -> tt_holds h t f ->
  inb c (map (fun s => Z.of_nat (length s)) (tt_sizes t)) ->
  (al h (data_size (tile_dims (tt_sizes t) c)) = None /\ find_tile c (tt_tiles t) = None /\ tile al c (t, h) = Throw) \/
  exists d t' h', tile al c (t, h) = Ok (d, (t', h')) /\ tt_ok t' /\ tt_holds h' t' f /\
    tt_sizes t' = tt_sizes t /\ find_tile c (tt_tiles t') = Some d /\
    (forall c', c' <> c -> find_tile c' (tt_tiles t') = find_tile c' (tt_tiles t)) /\
    (forall a, tt_cell t' a -> tt_cell t a \/ h a = None) /\
    (forall a, h a <> None -> h' a = h a).
Proof.
  intros O al h t f c Hal Hok HH Ic. unfold tile. simpl fst. rewrite wrap_coords_inb by auto.
  destruct (find_tile c (tt_tiles t)) as [d|] eqn:E.
  - right. exists d, t, h. repeat (split; auto).
  - destruct (add_tile_spec O al h t f c Hal Hok HH Ic E) as [(E1 & E2)|(d & t' & h' & E1 & O1 & H1 & S1 & F1 & F2 & N1 & N2)].
    + left. auto.
    + right. exists d, t', h'. split; auto. split; auto. split; auto. split; auto. split; auto. split; auto. split.
      * intros a (c' & d' & Hc' & Ha). destruct (list_eq_dec Z.eq_dec c' c) as [->|Hne].
        -- right. apply N1. congruence.
        -- left. exists c', d'. split; auto. rewrite <- F2; auto.
      * intros a Ha. apply N2. intros Hc. apply Ha. auto.
Qed.

(** ** Whole-tensor loops over the existing tiles *)
Lemma for_tiles_spec : forall (O : Ops) (h : heap (car O)) t f (F : desc -> heap (car O) -> res (heap (car O))) (u : car O -> car O),
  tt_ok t -> tt_holds h t f ->
  (forall d dims g h1, d = tensor_ctor (dbase d) dims -> dims <> [] -> nonneg dims -> holds h1 d g ->
     exists h2, F d h1 = Ok h2 /\ holds h2 d (fun i => u (g i)) /\ (forall a, ~ cell d a -> h2 a = h1 a)) ->
  exists h', for_tiles F (t, h) = Ok (t, h') /\
    (forall idx c j, tile_pos (tt_sizes t) idx c j ->
       match find_tile c (tt_tiles t) with
       | Some d => h' (addr d j) = Some (u (f idx))
       | None => f idx = o0
       end) /\
    (forall a, ~ tt_cell t a -> h' a = h a).
Proof.
  intros O h t f F u Hok HH HF.
  assert (IN : forall p, In p (tt_tiles t) -> find_tile (fst p) (tt_tiles t) = Some (snd p)).
  { intros (c, d) Hp. apply in_find_tile; auto. apply (ok_keys t Hok). }
  unfold for_tiles. simpl fst. simpl snd.
  destruct (forM_regions (list Z * desc) (car O) (fun p a => cell (snd p) a)
    (fun p h1 => holds h1 (snd p) (fun i => u (at_tile f (tt_sizes t) (fst p) i)))
    (fun p h => F (snd p) h) (tt_tiles t) h) as (h' & E & H1 & H2).
  - apply (NoDup_map_inv fst). apply (ok_keys t Hok).
  - intros p q a Hp Hq Ha Hb. assert (E1 := IN p Hp). assert (E2 := IN q Hq).
    assert (E : fst p = fst q) by (apply (tile_cell_unique t _ (snd p) _ (snd q) a); auto).
    destruct p as [c d], q as [c' d']. simpl in *. congruence.
  - intros p h1 h2 Hp Hag Hh i Hi. rewrite <- Hag; [now apply Hh|]. exists i; auto.
  - intros p h1 Hp Hag. destruct (tile_facts t _ _ Hok (IN p Hp)) as (Ed & Dd & Dne & DN & Ic).
    destruct (HF (snd p) _ (at_tile f (tt_sizes t) (fst p)) h1 Ed Dne DN) as (h2 & E2 & V2 & F2).
    + intros i Hi. rewrite Hag; [now apply (holds_tile O h t f (fst p)); auto|]. left. exists i; auto.
    + exists h2. auto.
  - rewrite E. cbn [bind]. exists h'. split; auto. split.
    + intros idx c j P. assert (H := HH idx c j P). destruct (find_tile c (tt_tiles t)) as [d|] eqn:Ec; auto.
      assert (Hin := find_tile_in _ _ _ Ec). destruct (ok_sizes t Hok) as (_ & HS).
      destruct (tile_pos_inb _ _ _ _ HS P) as (_ & _ & Ij).
      destruct (tile_facts t c d Hok Ec) as (_ & Dd & _).
      assert (V := H1 (c, d) Hin j). cbn [fst snd] in V. rewrite V by (rewrite Dd; auto).
      now rewrite (at_tile_pos _ f _ _ _ _ P).
    + intros a Ha. apply H2. intros p Hp Hc. apply Ha. exists (fst p), (snd p). split; auto.
Qed.

Lemma zero_spec : forall (O : Ops) (h : heap (car O)) t, tt_ok t ->
  tt_ok (fst (tt_zero (t, h))) /\ tt_sizes (fst (tt_zero (t, h))) = tt_sizes t /\
  (forall c, find_tile c (tt_tiles (fst (tt_zero (t, h)))) = None) /\
  (forall a, ~ tt_cell t a -> snd (tt_zero (t, h)) a = h a).
Proof.
  intros O h t Hok. unfold tt_zero. simpl fst. simpl snd. split; [|split; [|split]].
  - constructor; simpl; try discriminate; try constructor; apply Hok.
  - reflexivity.
  - intros c. reflexivity.
  - intros a Ha.
    assert (G : forall l (h0 : heap (car O)), (forall p, In p l -> In p (tt_tiles t)) -> h0 a = h a ->
              fold_left (fun h p => free (snd p) h) l h0 a = h a).
    { induction l as [|p l IH]; intros h0 Hin E; simpl; auto. apply IH; [intros q Hq; apply Hin; now right|].
      unfold free. rewrite <- E.
      assert (Hp : find_tile (fst p) (tt_tiles t) = Some (snd p)).
      { apply in_find_tile; [apply (ok_keys t Hok)|]. destruct p. apply Hin. now left. }
      destruct (tile_facts t _ _ Hok Hp) as (Ed & Dd & Dne & DN & _).
      destruct (_ && _) eqn:B; auto. exfalso. rewrite andb_true_iff, Z.leb_le, Z.ltb_lt in B.
      apply Ha. exists (fst p), (snd p). split; auto. rewrite Ed, tensor_cell by auto.
      rewrite Dd, data_size_eq in B by auto. auto. }
    apply G; auto.
Qed.

(** ** Elements *)
Lemma has_tile_c_inb : forall t c, inb c (map (fun s => Z.of_nat (length s)) (tt_sizes t)) ->
  has_tile_c t c = match find_tile c (tt_tiles t) with Some _ => true | None => false end.
Proof. intros t c H. unfold has_tile_c. now rewrite coords_in_inb. Qed.

Lemma has_tile_inb : forall t c, inb c (map (fun s => Z.of_nat (length s)) (tt_sizes t)) ->
  has_tile t c = match find_tile c (tt_tiles t) with Some _ => true | None => false end.
Proof. intros t c H. unfold has_tile. now rewrite wrap_coords_inb. Qed.

Lemma const_tile_inb : forall t c d, inb c (map (fun s => Z.of_nat (length s)) (tt_sizes t)) ->
  find_tile c (tt_tiles t) = Some d -> const_tile t c = Ok d.
Proof. intros t c d H E. unfold const_tile. now rewrite wrap_coords_inb, E. Qed.

Lemma tile_of_ok : forall t ks idx, tt_ok t -> spell (tt_dims t) ks idx ->
  exists c j, tile_of t ks = Ok c /\ tile_pos (tt_sizes t) idx c j /\
    local_index (tt_offsets t) (tt_dims t) ks c = j /\
    inb c (map (fun s => Z.of_nat (length s)) (tt_sizes t)) /\ inb j (tile_dims (tt_sizes t) c).
Proof.
  intros t ks idx Hok H. destruct (ok_sizes t Hok) as (_ & HF). rewrite (ok_dims t Hok) in H.
  destruct (tile_of_spec _ _ _ HF H) as (c & j & E & P & L). exists c, j.
  unfold tile_of. rewrite (ok_offsets t Hok), (ok_dims t Hok). split; auto. split; auto. split; auto.
  destruct (tile_pos_inb _ _ _ _ HF P) as (_ & I1 & I2). auto.
Qed.

Lemma read_spec : forall (O : Ops) (h : heap (car O)) t f ks idx, tt_ok t -> tt_holds h t f ->
  spell (tt_dims t) ks idx -> tt_read t ks h = Ok (f idx).
Proof.
  intros O h t f ks idx Hok HH Hs. unfold tt_read.
  destruct (tile_of_ok t ks idx Hok Hs) as (c & j & E & P & L & Ic & Ij). rewrite E. cbn [bind]. rewrite L.
  rewrite has_tile_c_inb by auto. assert (H := HH idx c j P).
  destruct (find_tile c (tt_tiles t)) as [d|] eqn:Ec; [|congruence].
  rewrite (const_tile_inb t c d) by auto. cbn [bind].
  destruct (tile_facts t c d Hok Ec) as (Ed & Dd & _).
  rewrite subscript_inb by (rewrite Dd; auto). now apply rd_some.
Qed.

Lemma throw_spec : forall t ks, tt_ok t -> length ks = length (tt_dims t) ->
  ~ (exists idx, spell (tt_dims t) ks idx) -> tile_of t ks = Throw.
Proof.
  intros t ks Hok HL Hn. destruct (ok_sizes t Hok) as (_ & HF). unfold tile_of. rewrite (ok_offsets t Hok).
  rewrite (ok_dims t Hok) in *. apply tile_of_out; auto.
  - unfold dense_dims in HL. now rewrite map_length in HL.
  - intros H. apply Hn. now apply spell_exists.
Qed.

Lemma spell_normal : forall dims ks idx, spell dims ks idx -> normal dims ks = idx.
Proof.
  intros dims ks idx H. induction H as [|d ds k ks i is (Hi & Hk) H IH]; auto.
  unfold normal in *. simpl. f_equal; auto.
  destruct Hk as [->| ->]; [destruct (Z.ltb_spec i 0); lia|]. destruct (Z.ltb_spec (i - d) 0); lia.
Qed.

Lemma write_spec : forall (O : Ops) al (h : heap (car O)) t f ks idx v, al_ok al -> tt_ok t -> tt_holds h t f ->
  spell (tt_dims t) ks idx ->
  ((exists n, al h n = None) /\ tt_write al ks v (t, h) = Throw) \/
  exists t' h', tt_write al ks v (t, h) = Ok (t', h') /\ tt_ok t' /\ tt_sizes t' = tt_sizes t /\
    tt_holds h' t' (fun x => if list_eq_dec Z.eq_dec x idx then v else f x) /\
    (forall a, tt_cell t' a -> tt_cell t a \/ h a = None) /\
    (forall a, h a <> None -> ~ tt_cell t a -> h' a = h a).
Proof.
  intros O al h t f ks idx v Hal Hok HH Hs. unfold tt_write. simpl fst.
  destruct (tile_of_ok t ks idx Hok Hs) as (c & j & E & P & L & Ic & Ij). rewrite E. cbn [bind].
  destruct (tile_spec O al h t f c Hal Hok HH Ic) as [(E1 & E2 & E3)|(d & t' & h1 & E1 & O1 & H1 & S1 & F1 & F2 & N1 & N2)].
  - left. split; [eauto|]. rewrite E3. reflexivity.
  - right. rewrite E1. cbn [bind]. simpl fst. simpl snd. rewrite L.
    destruct (tile_facts t' c d O1 F1) as (Ed & Dd & Dne & DN & _). rewrite S1 in *.
    rewrite subscript_inb by (rewrite Dd; auto).
    assert (P' : tile_pos (tt_sizes t') idx c j) by (rewrite S1; auto).
    assert (Hv : h1 (addr d j) = Some (f idx)) by (assert (H := H1 idx c j P'); now rewrite F1 in H).
    rewrite (wr_some _ _ _ _ _ Hv). cbn [bind]. exists t', (upd h1 (addr d j) v). split; auto. split; auto. split; auto. split.
    + apply (update_tile O h1 _ t' f _ c d); auto.
      * intros a Ha. apply upd_other. intros ->. apply Ha. exists j. split; auto. now rewrite Dd.
      * intros j' Hj'. rewrite Dd in Hj'. destruct (tile_pos_exists _ _ _ Ic Hj') as (idx' & P2).
        rewrite S1, (at_tile_pos _ _ _ _ _ _ P2).
        destruct (list_eq_dec Z.eq_dec idx' idx) as [->|Hne].
        -- destruct (ok_sizes t Hok) as (_ & HS). destruct (tile_pos_unique _ _ _ _ _ _ HS P P2) as (_ & ->). apply upd_same.
        -- rewrite upd_other.
           ++ assert (H := H1 idx' c j'). rewrite S1, F1 in H. auto.
           ++ intros Ea. apply Hne. assert (j' = j).
              { assert (I := rm_inj (dbase d) (tile_dims (tt_sizes t) c)). rewrite <- Ed in I.
                apply I; auto; rewrite Dd; auto. }
              subst j'. apply (tile_pos_fun _ _ _ _ _ P P2).
      * intros idx' c' j' P2 Hne. destruct (list_eq_dec Z.eq_dec idx' idx) as [->|]; auto.
        elim Hne. rewrite S1 in P2. destruct (ok_sizes t Hok) as (_ & HS). apply (tile_pos_unique _ _ _ _ _ _ HS P P2).
    + split; auto. intros a Ha Hc. rewrite upd_other; auto. intros ->.
      assert (C' : tt_cell t' (addr d j)) by (exists c, d; split; auto; exists j; rewrite Dd; auto).
      destruct (N1 _ C') as [|Hno]; auto.
Qed.

(** ** Sums over an axis, tile by tile *)
Lemma zsum_split : forall (O : Ops), is_ring O -> forall s n (g : Z -> car O), Forall (fun n => 0 <= n) s ->
  zsum (off s n) g = lsum (seq 0 n) (fun k => zsum (nth k s 0) (fun p => g (off s k + p))).
Proof.
  intros O HR s n g HN. induction n as [|n IH]; [reflexivity|].
  rewrite off_S. replace (S n) with (n + 1)%nat by lia. rewrite seq_app, (lsum_app O HR). rewrite <- IH. cbn [seq Nat.add].
  unfold zsum at 1. assert (N1 := off_nonneg s n HN). assert (N2 := nth_nonneg s n HN).
  rewrite zrange_split by auto. rewrite (lsum_app O HR), lsum_map. f_equal.
  assert (R := ir_rt O HR). unfold zsum. simpl. rewrite (Radd_comm R), (Radd_0_l R). reflexivity.
Qed.

(** Coordinates of the tile of an element. *)
Definition coord (sizes : list (list Z)) (idx : list Z) : list Z :=
  match tile_of_loop (map (fun s => map (off s) (seq 0 (length s))) sizes) (dense_dims sizes) idx with Ok c => c | _ => [] end.
Lemma coord_pos : forall sizes idx c j, Forall (Forall (fun n => 0 <= n)) sizes -> tile_pos sizes idx c j -> coord sizes idx = c.
Proof.
  intros sizes idx c j HF P. destruct (tile_pos_inb _ _ _ _ HF P) as (I & _).
  destruct (tile_of_spec sizes idx idx HF (spell_self _ _ I)) as (c' & j' & E & P' & _).
  unfold coord. rewrite E. apply (tile_pos_unique _ _ _ _ _ _ HF P P').
Qed.

Definition patch {T} (sizes : list (list Z)) (f g : list Z -> T) (c : list Z) (idx : list Z) : T :=
  if list_eq_dec Z.eq_dec (coord sizes idx) c then g idx else f idx.
Lemma patch_in : forall T sizes (f g : list Z -> T) c idx j, Forall (Forall (fun n => 0 <= n)) sizes ->
  tile_pos sizes idx c j -> patch sizes f g c idx = g idx.
Proof.
  intros. unfold patch. rewrite (coord_pos _ _ _ _ H H0). destruct (list_eq_dec Z.eq_dec c c); congruence.
Qed.
Lemma patch_out : forall T sizes (f g : list Z -> T) c idx c' j, Forall (Forall (fun n => 0 <= n)) sizes ->
  tile_pos sizes idx c' j -> c' <> c -> patch sizes f g c idx = f idx.
Proof.
  intros. unfold patch. rewrite (coord_pos _ _ _ _ H H0). destruct (list_eq_dec Z.eq_dec c' c); congruence.
Qed.

(** Replacing the contents of one tile. *)
Lemma update_patch : forall (O : Ops) (h h' : heap (car O)) t (f g : list Z -> car O) c d, tt_ok t -> tt_holds h t f ->
  find_tile c (tt_tiles t) = Some d ->
  (forall a, ~ cell d a -> h' a = h a) ->
  holds h' d (at_tile g (tt_sizes t) c) ->
  tt_holds h' t (patch (tt_sizes t) f g c).
Proof.
  intros O h h' t f g c d Hok HH Hc Hf Hd. destruct (ok_sizes t Hok) as (_ & HF).
  apply (update_tile O h h' t f _ c d); auto.
  - intros j Hj. rewrite Hd by auto. f_equal. destruct (tile_facts t c d Hok Hc) as (_ & E & _ & _ & I). rewrite E in Hj.
    destruct (tile_pos_exists _ _ _ I Hj) as (idx & P). rewrite (at_tile_pos _ g _ _ _ _ P), (at_tile_pos _ (patch _ f g c) _ _ _ _ P).
    symmetry. apply (patch_in _ _ _ _ _ _ _ HF P).
  - intros idx c' j P Hne. apply (patch_out _ _ _ _ _ _ _ _ HF P Hne).
Qed.

Lemma cell_alloc : forall (O : Ops) (h : heap (car O)) t f a, tt_ok t -> tt_holds h t f -> tt_cell t a -> h a <> None.
Proof.
  intros O h t f a Hok HH (c & d & Hc & (j & Hj & ->)). rewrite (holds_tile O h t f c d Hok HH Hc j Hj). discriminate.
Qed.

Lemma holds_frame : forall (O : Ops) (h h' : heap (car O)) t f, tt_ok t -> tt_holds h t f ->
  (forall a, tt_cell t a -> h' a = h a) -> tt_holds h' t f.
Proof.
  intros O h h' t f Hok HH Hag idx c j P. assert (H := HH idx c j P). destruct (ok_sizes t Hok) as (_ & HF).
  destruct (tile_pos_inb _ _ _ _ HF P) as (_ & _ & Ij).
  destruct (find_tile c (tt_tiles t)) as [d|] eqn:E; auto. rewrite Hag; auto. exists c, d. split; auto. exists j. split; auto.
  destruct (tile_facts t c d Hok E) as (_ & -> & _). auto.
Qed.

Lemma tt_holds_ext : forall (O : Ops) (h : heap (car O)) t (f g : list Z -> car O),
  (forall idx c j, tile_pos (tt_sizes t) idx c j -> f idx = g idx) -> tt_holds h t f -> tt_holds h t g.
Proof.
  intros O h t f g E H idx c j P. assert (X := H idx c j P). rewrite (E idx c j P) in X. exact X.
Qed.

Lemma tile_cell_dec : forall d dims z, d = tensor_ctor (dbase d) dims -> dims <> [] -> nonneg dims -> cell d z \/ ~ cell d z.
Proof. intros d dims z -> H1 H2. rewrite tensor_cell by auto. lia. Qed.

(** ** Loops that rewrite one tile per iteration (any order), while some other
    tiled tensors keep their contents. *)
Lemma patch_loop_inv : forall {O : Ops} {X} (inv : list X -> tt -> Prop) (key : X -> list Z) (step : X -> tt * heap (car O) -> res (tt * heap (car O))) (sizes : list (list Z))
    (F : list Z -> car O -> car O) (prot : list (tt * (list Z -> car O))) (oom : Prop) (order : list X),
  Forall (Forall (fun n => 0 <= n)) sizes ->
  NoDup (map key order) ->
  (forall x rest t h c, In x order -> inv (x :: rest) t -> tt_ok t -> tt_sizes t = sizes -> tt_holds h t c ->
     Forall (fun p => tt_ok (fst p) /\ tt_holds h (fst p) (snd p) /\ tt_disj t (fst p)) prot ->
     (oom /\ step x (t, h) = Throw) \/
     exists t' h', step x (t, h) = Ok (t', h') /\ inv rest t' /\ tt_ok t' /\ tt_sizes t' = sizes /\
       tt_holds h' t' (patch sizes c (fun idx => F idx (c idx)) (key x)) /\
       (forall z, tt_cell t' z -> tt_cell t z \/ h z = None) /\
       (forall z, h z <> None -> h' z <> None) /\
       (forall z, h z <> None -> ~ tt_cell t z -> h' z = h z)) ->
  forall t h c, inv order t -> tt_ok t -> tt_sizes t = sizes -> tt_holds h t c ->
     Forall (fun p => tt_ok (fst p) /\ tt_holds h (fst p) (snd p) /\ tt_disj t (fst p)) prot ->
     (oom /\ forM order step (t, h) = Throw) \/
     exists t' h', forM order step (t, h) = Ok (t', h') /\ tt_ok t' /\ tt_sizes t' = sizes /\
       tt_holds h' t' (fun idx => if in_dec (list_eq_dec Z.eq_dec) (coord sizes idx) (map key order) then F idx (c idx) else c idx) /\
       (forall z, tt_cell t' z -> tt_cell t z \/ h z = None) /\
       (forall z, h z <> None -> h' z <> None) /\
       (forall z, h z <> None -> ~ tt_cell t z -> h' z = h z).
Proof.
  intros O X inv key step sizes F prot oom order HF. induction order as [|x order IH]; intros ND HS t h c Hi Hok Hs HC HP.
  - right. exists t, h. split; auto. split; auto 8.
  - simpl map in ND. inversion ND as [|y l Hni ND']; subst y l. cbn [forM].
    destruct (HS x order t h c (or_introl eq_refl) Hi Hok Hs HC HP) as [(E1 & E2)|(t1 & h1 & E1 & I1 & O1 & S1 & H1 & N1 & N0 & N2)].
    { left. rewrite E2. auto. }
    rewrite E1. cbn [bind].
    assert (HP1 : Forall (fun p => tt_ok (fst p) /\ tt_holds h1 (fst p) (snd p) /\ tt_disj t1 (fst p)) prot).
    { eapply Forall_impl; [|exact HP]. intros (u, g) (Ou & Hu & Du). cbn [fst snd] in *. split; auto. split.
      - apply (holds_frame O h h1 u g Ou Hu). intros z Hz. apply N2; [apply (cell_alloc O h u g z Ou Hu Hz)|].
        intros Hc. apply (Du z Hc Hz).
      - intros z Hz Hzu. destruct (N1 z Hz) as [H|H]; [apply (Du z H Hzu)|]. apply (cell_alloc O h u g z Ou Hu Hzu H). }
    destruct (IH ND' (fun y rest t h c Hy => HS y rest t h c (or_intror Hy)) t1 h1 _ I1 O1 S1 H1 HP1) as [(E2 & E3)|(t2 & h2 & E2 & O2 & S2 & H2 & M1 & M0 & M2)].
    { left. auto. }
    right. exists t2, h2. split; auto. split; auto. split; auto. split; [|split; [|split]].
    + revert H2. apply tt_holds_ext. rewrite S2. intros idx k l P. unfold patch. rewrite (coord_pos _ _ _ _ HF P). cbn [map].
      destruct (list_eq_dec Z.eq_dec k (key x)) as [->|Hne].
      * destruct (in_dec _ (key x) (map key order)); [contradiction|].
        destruct (in_dec _ (key x) (key x :: map key order)) as [_|N]; [reflexivity|elim N; now left].
      * destruct (in_dec _ k (map key order)) as [J1|J1]; destruct (in_dec _ k (key x :: map key order)) as [I2|I2]; auto.
        -- elim I2. now right.
        -- destruct I2 as [I2|I2]; [congruence|contradiction].
    + intros z Hz. destruct (M1 z Hz) as [H|H]; auto. right. destruct (h z) eqn:Ez; auto. elim (N0 z); congruence.
    + auto.
    + intros z Hz Hc. rewrite M2; [apply N2; auto|rewrite N2; auto|]. intros H. destruct (N1 z H); auto.
Qed.

Lemma patch_loop : forall {O : Ops} {X} (key : X -> list Z) (step : X -> tt * heap (car O) -> res (tt * heap (car O))) (sizes : list (list Z))
    (F : list Z -> car O -> car O) (prot : list (tt * (list Z -> car O))) (oom : Prop) (order : list X),
  Forall (Forall (fun n => 0 <= n)) sizes ->
  NoDup (map key order) ->
  (forall x t h c, In x order -> tt_ok t -> tt_sizes t = sizes -> tt_holds h t c ->
     Forall (fun p => tt_ok (fst p) /\ tt_holds h (fst p) (snd p) /\ tt_disj t (fst p)) prot ->
     (oom /\ step x (t, h) = Throw) \/
     exists t' h', step x (t, h) = Ok (t', h') /\ tt_ok t' /\ tt_sizes t' = sizes /\
       tt_holds h' t' (patch sizes c (fun idx => F idx (c idx)) (key x)) /\
       (forall z, tt_cell t' z -> tt_cell t z \/ h z = None) /\
       (forall z, h z <> None -> h' z <> None) /\
       (forall z, h z <> None -> ~ tt_cell t z -> h' z = h z)) ->
  forall t h c, tt_ok t -> tt_sizes t = sizes -> tt_holds h t c ->
     Forall (fun p => tt_ok (fst p) /\ tt_holds h (fst p) (snd p) /\ tt_disj t (fst p)) prot ->
     (oom /\ forM order step (t, h) = Throw) \/
     exists t' h', forM order step (t, h) = Ok (t', h') /\ tt_ok t' /\ tt_sizes t' = sizes /\
       tt_holds h' t' (fun idx => if in_dec (list_eq_dec Z.eq_dec) (coord sizes idx) (map key order) then F idx (c idx) else c idx) /\
       (forall z, tt_cell t' z -> tt_cell t z \/ h z = None) /\
       (forall z, h z <> None -> h' z <> None) /\
       (forall z, h z <> None -> ~ tt_cell t z -> h' z = h z).
Proof.
  intros O X key step sizes F prot oom order HF ND HS t h c Hok Hs HC HP.
  apply (patch_loop_inv (fun _ _ => True) key step sizes F prot oom order); auto.
  intros x rest t0 h0 c0 Hx _ O0 S0 H0 P0. destruct (HS x t0 h0 c0 Hx O0 S0 H0 P0) as [X0|(t' & h' & E & R)]; [left; auto|].
  right. exists t', h'. split; auto.
Qed.
