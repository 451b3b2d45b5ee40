(** * L_Block: lemmas on block tensors. *)
From Coq Require Import List ZArith Lia Bool Permutation Ring.
From Verif Require Import Base Heap Conc M_Addr M_Elt M_Einsum M_Blas M_Block S_Addr S_Einsum S_Blas S_Block
  L_Addr L_Elt L_Blas.
Import ListNotations.
Open Scope Z_scope.

(** ** Offsets *)
Lemma off_0 : forall s, off s 0 = 0.
Proof. reflexivity. Qed.

Lemma off_S : forall s k, off s (S k) = off s k + nth k s 0.
Proof.
  unfold off. induction s as [|n s IH]; intros [|k]; simpl; try lia.
  change (firstn (S k) (n :: s)) with (n :: firstn k s) in *. rewrite <- Z.add_assoc, <- IH. reflexivity.
Qed.

Lemma nth_nonneg : forall s k, Forall (fun n => 0 <= n) s -> 0 <= nth k s 0.
Proof.
  intros s k H. destruct (Nat.lt_ge_cases k (length s)).
  - rewrite Forall_forall in H. apply H. now apply nth_In.
  - rewrite nth_overflow by auto. lia.
Qed.

Lemma off_mono : forall s j k, Forall (fun n => 0 <= n) s -> (j <= k)%nat -> off s j <= off s k.
Proof.
  intros s j k H L. induction L as [|k L IH]; [lia|]. rewrite off_S. assert (H1 := nth_nonneg s k H). lia.
Qed.

Lemma off_nonneg : forall s k, Forall (fun n => 0 <= n) s -> 0 <= off s k.
Proof. intros. rewrite <- (off_0 s). apply off_mono; auto. lia. Qed.

Lemma off_cover : forall s x, Forall (fun n => 0 <= n) s -> 0 <= x < off s (length s) ->
  exists k, (k < length s)%nat /\ off s k <= x < off s (S k).
Proof.
  intros s x H Hx.
  assert (G : forall m, x < off s m -> exists k, (k < m)%nat /\ off s k <= x < off s (S k)).
  { induction m as [|m IH]; intros Hm; [rewrite off_0 in Hm; lia|].
    destruct (Z_lt_ge_dec x (off s m)) as [L|L].
    - destruct (IH L) as (k & Hk & E). exists k. split; auto.
    - exists m. split; auto. lia. }
  apply G. lia.
Qed.

Lemma off_unique : forall s x j k, Forall (fun n => 0 <= n) s ->
  off s j <= x < off s (S j) -> off s k <= x < off s (S k) -> j = k.
Proof.
  intros s x j k H Hj Hk. destruct (lt_eq_lt_dec j k) as [[L|L]|L]; auto; exfalso.
  - assert (M := off_mono s (S j) k H). lia.
  - assert (M := off_mono s (S k) j H). lia.
Qed.

(** ** update_dims *)
Lemma update_loop_spec : forall bs sum ds rs total, update_loop sum bs = (ds, rs, total) ->
  ds = map (fun b => tdim b 0) bs /\ length rs = length bs /\
  (forall k, (k < length bs)%nat -> nth k rs (0, 0) = (sum + off ds k, sum + off ds (S k))) /\
  total = sum + off ds (length bs).
Proof.
  induction bs as [|b bs IH]; intros sum ds rs total E; simpl in E.
  - injection E as <- <- <-. simpl. split; [auto|]. split; [auto|]. split; [intros; lia|]. unfold off; simpl; lia.
  - destruct (update_loop (sum + tdim b 0) bs) as [[ds' rs'] total'] eqn:E'. injection E as <- <- <-.
    destruct (IH _ _ _ _ E') as (H1 & H2 & H3 & H4). subst ds'. simpl. split; auto. split; [lia|]. split.
    + intros [|k] Hk.
      * unfold off. simpl. f_equal; lia.
      * simpl. rewrite H3 by lia. unfold off. simpl. f_equal; lia.
    + unfold off in *. simpl in *. lia.
Qed.

Lemma update_dims_tiled : forall t, tiled_by (update_dims t) (map (fun b => tdim b 0) (bt_blocks t)) /\
  bt_blocks (update_dims t) = bt_blocks t /\ bt_zero (update_dims t) = bt_zero t.
Proof.
  intros t. unfold update_dims. destruct (update_loop 0 (bt_blocks t)) as [[ds rs] total] eqn:E.
  destruct (update_loop_spec _ _ _ _ _ E) as (H1 & H2 & H3 & H4). split; [|split; reflexivity].
  unfold tiled_by. simpl. rewrite map_length. rewrite <- H1. split; auto.
Qed.

(** ** Lookup *)
Lemma find_range_spec : forall rs k x,
  match find_range k rs x with
  | Some i => (k <= i < k + length rs)%nat /\ (let '(lo, hi) := nth (i - k) rs (0, 0) in lo <= x < hi) /\
              (forall j, (j < i - k)%nat -> let '(lo, hi) := nth j rs (0, 0) in ~ (lo <= x < hi))
  | None => forall j, (j < length rs)%nat -> let '(lo, hi) := nth j rs (0, 0) in ~ (lo <= x < hi)
  end.
Proof.
  induction rs as [|(lo, hi) rs IH]; intros k x; simpl find_range.
  - simpl. intros; lia.
  - destruct (andb (lo <=? x) (x <? hi)) eqn:E.
    + rewrite andb_true_iff, Z.leb_le, Z.ltb_lt in E. replace (k - k)%nat with 0%nat by lia. simpl.
      repeat split; try lia.
    + assert (NE : ~ (lo <= x < hi)).
      { intros H. rewrite andb_false_iff, Z.leb_gt, Z.ltb_ge in E. lia. }
      specialize (IH (S k) x). destruct (find_range (S k) rs x) as [i|].
      * destruct IH as (H1 & H2 & H3). simpl length. split; [lia|].
        replace (i - k)%nat with (S (i - S k)) by lia. split; [exact H2|].
        intros [|j] Hj; [exact NE|]. apply (H3 j). lia.
      * intros [|j] Hj; [exact NE|]. simpl in Hj. apply (IH j). lia.
Qed.

Lemma find_range_tiled : forall t sizes x k, Forall (fun n => 0 <= n) sizes -> tiled_by t sizes ->
  (k < length sizes)%nat -> off sizes k <= x < off sizes (S k) ->
  find_range 0 (bt_ranges t) x = Some k.
Proof.
  intros t sizes x k HN (HL & HR & HD) Hk Hx. assert (F := find_range_spec (bt_ranges t) 0 x).
  destruct (find_range 0 (bt_ranges t) x) as [i|].
  - destruct F as (H1 & H2 & _). rewrite Nat.sub_0_r, HR in H2 by lia. f_equal. eapply off_unique; eauto.
  - specialize (F k). rewrite HR in F by auto. elim F; auto. lia.
Qed.

Lemma find_range_out : forall t sizes x, Forall (fun n => 0 <= n) sizes -> tiled_by t sizes ->
  ~ (0 <= x < off sizes (length sizes)) -> find_range 0 (bt_ranges t) x = None.
Proof.
  intros t sizes x HN (HL & HR & HD) Hx. assert (F := find_range_spec (bt_ranges t) 0 x).
  destruct (find_range 0 (bt_ranges t) x) as [i|]; auto.
  destruct F as (H1 & H2 & _). rewrite Nat.sub_0_r, HR in H2 by lia. elim Hx.
  assert (A := off_nonneg sizes i HN). assert (B := off_mono sizes (S i) (length sizes) HN). lia.
Qed.

(** ** The dense image *)
Lemma in_blk_b_spec : forall sizes idx k,
  in_blk_b sizes idx k = true <-> Forall (fun x => off sizes k <= x < off sizes (S k)) idx.
Proof.
  intros. unfold in_blk_b. rewrite forallb_forall, Forall_forall. split; intros H x Hx; specialize (H x Hx).
  - rewrite andb_true_iff, Z.leb_le, Z.ltb_lt in H. lia.
  - rewrite andb_true_iff, Z.leb_le, Z.ltb_lt. lia.
Qed.

Lemma in_blk_unique : forall sizes idx j k, Forall (fun n => 0 <= n) sizes -> idx <> [] ->
  in_blk sizes j idx -> in_blk sizes k idx -> j = k.
Proof.
  intros sizes [|x idx] j k HN Hne (_ & H1) (_ & H2); [congruence|].
  inversion H1; inversion H2; subst. eapply off_unique; eauto.
Qed.

Lemma dense_in : forall (O : Ops) sizes (f : nat -> list Z -> car O) idx k,
  Forall (fun n => 0 <= n) sizes -> idx <> [] -> in_blk sizes k idx ->
  dense sizes f idx = f k (map (fun x => x - off sizes k) idx).
Proof.
  intros O sizes f idx k HN Hne (Hk & H). unfold dense.
  destruct (find (in_blk_b sizes idx) (seq 0 (length sizes))) as [j|] eqn:E.
  - apply find_some in E as (H1 & H2). apply in_seq in H1. rewrite in_blk_b_spec in H2.
    replace j with k; auto. apply (in_blk_unique sizes idx); auto; split; auto. lia.
  - apply find_none with (x := k) in E; [|apply in_seq; lia].
    apply in_blk_b_spec in H. congruence.
Qed.

Lemma dense_out : forall (O : Ops) sizes (f : nat -> list Z -> car O) idx,
  (forall k, ~ in_blk sizes k idx) -> dense sizes f idx = o0.
Proof.
  intros O sizes f idx H. unfold dense.
  destruct (find (in_blk_b sizes idx) (seq 0 (length sizes))) as [j|] eqn:E; auto.
  apply find_some in E as (H1 & H2). apply in_seq in H1. rewrite in_blk_b_spec in H2.
  elim (H j). split; auto. lia.
Qed.

Lemma in_blk_dec : forall sizes idx, (exists k, in_blk sizes k idx) \/ (forall k, ~ in_blk sizes k idx).
Proof.
  intros. destruct (find (in_blk_b sizes idx) (seq 0 (length sizes))) as [j|] eqn:E.
  - left. apply find_some in E as (H1 & H2). apply in_seq in H1. rewrite in_blk_b_spec in H2.
    exists j. split; auto. lia.
  - right. intros k (Hk & H). apply find_none with (x := k) in E; [|apply in_seq; lia].
    apply in_blk_b_spec in H. congruence.
Qed.

Lemma in_blk_inb : forall rank sizes k idx, length idx = rank ->
  in_blk sizes k idx -> inb (map (fun x => x - off sizes k) idx) (repeat (nth k sizes 0) rank).
Proof.
  intros rank sizes k idx HL (_ & H). revert rank HL.
  induction H as [|x idx Hx H IH]; intros rank <-; simpl; [constructor|].
  constructor; [rewrite off_S in Hx; lia|]. apply IH. auto.
Qed.

Lemma inb_in_blk : forall rank sizes k j, (k < length sizes)%nat -> inb j (repeat (nth k sizes 0) rank) ->
  in_blk sizes k (map (fun x => off sizes k + x) j).
Proof.
  intros rank sizes k j Hk H. split; auto. rewrite Forall_forall. intros y Hy. apply in_map_iff in Hy as (x & <- & Hx).
  assert (G : forall r j, inb j (repeat (nth k sizes 0) r) -> In x j -> 0 <= x < nth k sizes 0).
  { clear. induction r as [|r IH]; intros j Hj Hx; inversion Hj; subst; simpl in *; [contradiction|].
    destruct Hx as [->|Hx]; auto. eapply IH; eauto. }
  rewrite off_S. specialize (G _ _ H Hx). lia.
Qed.

Lemma shift_back : forall o j, map (fun x => x - o) (map (fun x => o + x) j) = j.
Proof. intros. rewrite map_map. rewrite <- (map_id j) at 2. apply map_ext. intros. lia. Qed.
Lemma shift_forth : forall o j, map (fun x => o + x) (map (fun x => x - o) j) = j.
Proof. intros. rewrite map_map. rewrite <- (map_id j) at 2. apply map_ext. intros. lia. Qed.

Lemma inb_repeat : forall n r idx, length idx = r -> (inb idx (repeat n r) <-> Forall (fun x => 0 <= x < n) idx).
Proof.
  intros n r idx <-. induction idx as [|x idx IH]; simpl; split; intros H; auto; try (constructor; fail).
  - inversion H; subst. constructor; auto. now apply IH.
  - inversion H; subst. constructor; auto. now apply IH.
Qed.

(** ** Loops whose steps own disjoint regions *)
Lemma forM_regions : forall X T (own : X -> Z -> Prop) (P : X -> heap T -> Prop) (f : X -> heap T -> res (heap T)) l h,
  NoDup l ->
  (forall x y a, In x l -> In y l -> own x a -> own y a -> x = y) ->
  (forall x h1 h2, In x l -> (forall a, own x a -> h1 a = h2 a) -> P x h1 -> P x h2) ->
  (forall x h1, In x l -> (forall a, own x a \/ (forall y, In y l -> ~ own y a) -> h1 a = h a) ->
     exists h2, f x h1 = Ok h2 /\ P x h2 /\ (forall a, ~ own x a -> h2 a = h1 a)) ->
  exists h', forM l f h = Ok h' /\ (forall x, In x l -> P x h') /\
    (forall a, (forall x, In x l -> ~ own x a) -> h' a = h a).
Proof.
  intros X T own P f l h Hnd Hown HP Hf.
  assert (G : forall r done h1, incl r l -> NoDup r -> incl done l -> (forall x, In x r -> ~ In x done) ->
    (forall x, In x done -> P x h1) ->
    (forall a, (forall x, In x done -> ~ own x a) -> h1 a = h a) ->
    exists h', forM r f h1 = Ok h' /\ (forall x, In x (done ++ r) -> P x h') /\
      (forall a, (forall x, In x (done ++ r) -> ~ own x a) -> h' a = h a)).
  { induction r as [|x r IH]; intros done h1 Hin Hn Hd Hx HPd Hfr.
    - exists h1. rewrite app_nil_r. auto.
    - inversion Hn as [|? ? Hni Hn']; subst. assert (Hxl : In x l) by (apply Hin; now left).
      destruct (Hf x h1 Hxl) as (h2 & E & P2 & F2).
      { intros a [Ha|Ha]; apply Hfr; intros y Hy Hya.
        - assert (x = y) by (eapply Hown; eauto). subst y. apply (Hx x); auto. now left.
        - apply (Ha y); auto. }
      simpl. rewrite E. simpl.
      destruct (IH (done ++ [x]) h2) as (h' & E' & P' & F'); auto.
      + intros y Hy. apply Hin. now right.
      + intros y Hy. apply in_app_iff in Hy as [Hy|[<-|[]]]; auto.
      + intros y Hy Hc. apply in_app_iff in Hc as [Hc|[<-|[]]]; [|contradiction]. apply (Hx y); auto. now right.
      + intros y Hy. apply in_app_iff in Hy as [Hy|[<-|[]]]; auto.
        apply (HP y h1); auto. intros a Ha. symmetry. apply F2. intros Hxa.
        assert (x = y) by (eapply Hown; eauto). subst y. apply (Hx x); auto. now left.
      + intros a Ha. rewrite F2 by (apply Ha; apply in_app_iff; right; now left).
        apply Hfr. intros y Hy. apply Ha. apply in_app_iff; auto.
      + exists h'. split; auto. split.
        * intros y Hy. apply P'. rewrite <- app_assoc. exact Hy.
        * intros a Ha. apply F'. rewrite <- app_assoc. exact Ha. }
  destruct (G l [] h) as (h' & E & H1 & H2); auto.
  - apply incl_refl.
  - intros y [].
  - intros y [].
  - exists h'. auto.
Qed.

(** ** Element lookup *)
Lemma index_loop_in : forall miss rank t sizes, bt_ok rank t sizes ->
  forall ks n idx b acc, spell (repeat (bt_dim t) n) ks idx -> (b < length sizes)%nat ->
  index_loop miss t (Some b) acc ks =
    if in_blk_b sizes idx b then Ok (Some (b, rev acc ++ map (fun x => x - off sizes b) idx)) else Ok None.
Proof.
  intros miss rank t sizes (HN & HL & HB & HT) ks. destruct HT as (T1 & T2 & T3).
  induction ks as [|k ks IH]; intros n idx b acc Hs Hb.
  - inversion Hs; subst. simpl. now rewrite app_nil_r.
  - destruct n as [|n]; [inversion Hs|]. simpl in Hs.
    inversion Hs as [|? ? ? ? i is Hk Hs' E1 E2 E3]; subst.
    assert (Ek : (if k <? 0 then bt_dim t + k else k) = i).
    { destruct Hk as (Hi & [->| ->]); destruct (Z.ltb_spec i 0); destruct (Z.ltb_spec (i - bt_dim t) 0); lia. }
    cbn [index_loop]. rewrite Ek, T2 by auto.
    cbn [in_blk_b forallb]. unfold in_blk_b. cbn [forallb]. fold (in_blk_b sizes is b).
    destruct ((off sizes b <=? i) && (i <? off sizes (S b))); cbn [andb]; auto.
    rewrite (IH n is b _ Hs' Hb). destruct (in_blk_b sizes is b); auto.
    f_equal. f_equal. f_equal. simpl. rewrite <- app_assoc. reflexivity.
Qed.

Lemma index_loop_spec : forall miss rank t sizes, bt_ok rank t sizes -> (0 < rank)%nat ->
  forall ks idx, spell (repeat (bt_dim t) rank) ks idx ->
  (forall k, in_blk sizes k idx -> index_loop miss t None [] ks = Ok (Some (k, map (fun x => x - off sizes k) idx))) /\
  ((forall k, ~ in_blk sizes k idx) -> index_loop miss t None [] ks = Ok None).
Proof.
  intros miss rank t sizes Hok Hr ks idx Hs.
  assert (Hok' := Hok). destruct Hok' as (HN & HL & HB & HT). assert (HT' := HT). destruct HT' as (T1 & T2 & T3).
  destruct rank as [|n]; [lia|]. simpl in Hs.
  inversion Hs as [|? ? k0 ks' i is Hk Hs' E1 E2 E3]; subst.
  assert (Hi : 0 <= i < off sizes (length sizes)) by (destruct Hk; lia).
  destruct (off_cover sizes i HN Hi) as (b & Hb & Hbi).
  assert (Ek : (if k0 <? 0 then bt_dim t + k0 else k0) = i).
  { destruct Hk as (_ & [->| ->]); destruct (Z.ltb_spec i 0); destruct (Z.ltb_spec (i - bt_dim t) 0); lia. }
  assert (EL : index_loop miss t None [] (k0 :: ks') = index_loop miss t (Some b) [] (k0 :: ks')).
  { cbn [index_loop]. rewrite Ek. now rewrite (find_range_tiled t sizes i b HN HT Hb Hbi). }
  rewrite EL. rewrite (index_loop_in miss (S n) t sizes Hok (k0 :: ks') (S n) (i :: is) b [] Hs Hb). split.
  - intros k Hin. assert (k = b).
    { destruct Hin as (_ & HF). inversion HF; subst. eapply off_unique; eauto. }
    subst k. destruct Hin as (_ & HF). apply in_blk_b_spec in HF. now rewrite HF.
  - intros Hno. destruct (in_blk_b sizes (i :: is) b) eqn:E; auto. apply in_blk_b_spec in E. elim (Hno b). split; auto.
Qed.

Lemma spell_length : forall dims ks idx, spell dims ks idx -> length idx = length dims.
Proof. induction 1; simpl; auto. Qed.

Lemma bt_block : forall rank t sizes k, bt_ok rank t sizes -> (k < length sizes)%nat ->
  exists d, nth_error (bt_blocks t) k = Some d /\ ddims d = repeat (nth k sizes 0) rank /\ rowmaj d.
Proof.
  intros rank t sizes k (HN & HL & HB & HT) Hk.
  destruct (nth_error (bt_blocks t) k) as [d|] eqn:E; [|apply nth_error_None in E; lia].
  exists d. split; auto. destruct (HB k d E) as (H1 & H2). split; auto. now apply contiguous_rowmaj.
Qed.

(** ** Dense conversion *)
Lemma dense_items_in : forall rank t sizes, bt_ok rank t sizes -> (0 < rank)%nat ->
  forall b j, In (b, j) (flat_map (dense_items t) (seq 0 (length (bt_blocks t)))) <->
    (b < length sizes)%nat /\ inb j (repeat (nth b sizes 0) rank).
Proof.
  intros rank t sizes Hok Hr b j.
  assert (Hok' := Hok). destruct Hok' as (HN & HL & HB & (T1 & T2 & T3)).
  assert (HI : forall c, (c < length sizes)%nat -> (In (b, j) (dense_items t c) <-> b = c /\ inb j (repeat (nth c sizes 0) rank))).
  { intros c Hc. unfold dense_items. rewrite T2 by auto.
    destruct (bt_block rank t sizes c Hok Hc) as (d & Ed & Dd & _). rewrite Ed, Dd, repeat_length.
    rewrite off_S. replace (off sizes c + nth c sizes 0 - off sizes c) with (nth c sizes 0) by lia.
    unfold tdim. rewrite Dd. destruct rank as [|r]; [lia|]. cbn [repeat nth].
    destruct (Z.eqb_spec (nth c sizes 0) 0) as [E|E].
    - split; [intros []|]. intros (_ & Hj). inversion Hj; subst. lia.
    - rewrite in_map_iff. change (nth c sizes 0 :: repeat (nth c sizes 0) r) with (repeat (nth c sizes 0) (S r)). split.
      + intros (x & Ex & Hx). injection Ex as <- <-. apply in_indices in Hx. auto.
      + intros (-> & Hj). exists j. split; auto. now apply in_indices. }
  rewrite in_flat_map. split.
  - intros (c & Hc & Hin). apply in_seq in Hc. apply HI in Hin as (-> & Hj); [|lia]. split; auto. lia.
  - intros (Hb & Hj). exists b. split; [apply in_seq; lia|]. apply HI; auto.
Qed.

Lemma dense_items_NoDup : forall t, NoDup (flat_map (dense_items t) (seq 0 (length (bt_blocks t)))).
Proof.
  intros t.
  assert (A1 : forall c b j, In (b, j) (dense_items t c) -> b = c).
  { intros c b j. unfold dense_items. destruct (nth c (bt_ranges t) (0, 0)) as (lo, hi).
    destruct (nth_error (bt_blocks t) c) as [d|]; [|intros []]. destruct (tdim d 0 =? 0); [intros []|].
    intros H. apply in_map_iff in H as (x & E & _). congruence. }
  assert (A2 : forall c, NoDup (dense_items t c)).
  { intros c. unfold dense_items. destruct (nth c (bt_ranges t) (0, 0)) as (lo, hi).
    destruct (nth_error (bt_blocks t) c) as [d|]; [|constructor]. destruct (tdim d 0 =? 0); [constructor|].
    apply FinFun.Injective_map_NoDup; [intros x y E; congruence|]. apply indices_NoDup. }
  assert (G : forall l, NoDup l -> NoDup (flat_map (dense_items t) l)).
  { induction l as [|c l IH]; intros Hn; simpl; [constructor|]. inversion Hn; subst.
    assert (AP : forall A (l m : list A), NoDup l -> NoDup m -> (forall x, In x l -> ~ In x m) -> NoDup (l ++ m)).
    { clear. induction l as [|x l IH]; intros m Hl Hm Hd; simpl; auto. inversion Hl; subst. constructor.
      - intros Hx. apply in_app_iff in Hx as [Hx|Hx]; auto. apply (Hd x); auto. now left.
      - apply IH; auto. intros y Hy. apply Hd. now right. }
    apply AP; auto. intros (b, j) Hx Hy. apply A1 in Hx. subst b. apply in_flat_map in Hy as (c' & Hc' & Hy).
    apply A1 in Hy. subst c'. contradiction. }
  apply G. apply seq_NoDup.
Qed.

Lemma dense_slice : forall rank t sizes base b, bt_ok rank t sizes -> (b < length sizes)%nat ->
  let out := dense_desc rank t base in
  let s := slice_ranges out (repeat (off sizes b, off sizes (S b)) rank) in
  ddims s = repeat (nth b sizes 0) rank /\
  (forall j, inb j (repeat (nth b sizes 0) rank) ->
     addr s j = addr out (map (fun x => off sizes b + x) j) /\ inb (map (fun x => off sizes b + x) j) (ddims out)).
Proof.
  intros rank t sizes base b (HN & HL & HB & (T1 & T2 & T3)) Hb out s.
  assert (M1 := off_nonneg sizes b HN). assert (M2 := nth_nonneg sizes b HN). assert (M3 := off_S sizes b).
  assert (M4 := off_mono sizes (S b) (length sizes) HN ltac:(lia)).
  assert (HF : Forall2 arg_ok (map (fun r => SRange (fst r) (snd r)) (repeat (off sizes b, off sizes (S b)) rank)) (ddims out)).
  { unfold out, dense_desc. simpl. generalize rank. induction rank0; simpl; constructor; auto. apply ok_range; lia. }
  destruct (slice_ranges_correct out _ ltac:(unfold out; simpl; apply rms_length) HF) as (E1 & E2).
  split.
  - unfold s. rewrite E1. unfold out, dense_desc. simpl. generalize rank. induction rank0; simpl; auto.
    rewrite IHrank0. f_equal. destruct (Z.ltb_spec (off sizes (S b)) 0); lia.
  - intros j Hj. assert (HS : selects (map (fun r => SRange (fst r) (snd r)) (repeat (off sizes b, off sizes (S b)) rank))
        (ddims out) j (map (fun x => off sizes b + x) j)).
    { unfold out, dense_desc. simpl. clear - Hj M1 M2 M3 M4 T3. revert j Hj.
      induction rank as [|r IH]; intros j Hj; inversion Hj; subst; simpl; [constructor|].
      apply sel_range with (e := off sizes (S b)); auto; try lia. }
    split; [now apply E2|]. apply (selects_inb _ _ _ _ HS).
Qed.

(** ** Sums over the diagonal *)
Lemma zrange_split : forall a b, 0 <= a -> 0 <= b -> zrange (a + b) = zrange a ++ map (fun p => a + p) (zrange b).
Proof.
  intros a b Ha Hb. assert (E := zseq_app 0 a (a + b) ltac:(lia)). unfold zseq in E.
  replace (a + b - a) with b in E by lia. rewrite !Z.sub_0_r in E.
  assert (I : forall n, map (fun k => 0 + k) (zrange n) = zrange n).
  { intros n. rewrite <- (map_id (zrange n)) at 2. apply map_ext. intros; lia. }
  rewrite !I in E. auto.
Qed.

Lemma zsum_window : forall (O : Ops), is_ring O -> forall n lo w (g : Z -> car O),
  0 <= lo -> 0 <= w -> lo + w <= n -> (forall p, 0 <= p < n -> ~ (lo <= p < lo + w) -> g p = o0) ->
  zsum n g = zsum w (fun p => g (lo + p)).
Proof.
  intros O HR n lo w g H1 H2 H3 Hz. unfold zsum.
  replace n with (lo + w + (n - lo - w)) by lia. rewrite zrange_split by lia. rewrite zrange_split by lia.
  rewrite !(lsum_app O HR), !lsum_map.
  rewrite (lsum_ext O _ (zrange lo) g (fun _ => o0)).
  2:{ intros p Hp. apply zrange_in in Hp. apply Hz; lia. }
  rewrite (lsum_ext O _ (zrange (n - lo - w)) (fun p => g (lo + w + p)) (fun _ => o0)).
  2:{ intros p Hp. apply zrange_in in Hp. apply Hz; lia. }
  rewrite !(lsum_0 O HR). assert (R := ir_rt O HR).
  rewrite (Radd_0_l R), (Radd_comm R), (Radd_0_l R). reflexivity.
Qed.

Lemma zsum_zero : forall (O : Ops), is_ring O -> forall n (g : Z -> car O),
  (forall p, 0 <= p < n -> g p = o0) -> zsum n g = o0.
Proof.
  intros O HR n g H. unfold zsum. rewrite (lsum_ext O _ (zrange n) g (fun _ => o0)).
  - apply (lsum_0 O HR).
  - intros p Hp. apply zrange_in in Hp. auto.
Qed.

Lemma sq_mat : forall d n, ddims d = [n; n] -> rowmaj d -> mat d n n n.
Proof.
  intros d n H1 H2. unfold mat. rewrite H1. split; auto. split; [|lia]. rewrite H2, H1.
  unfold row_major_strides. simpl. f_equal; lia.
Qed.

Lemma off_bounds : forall sizes k, Forall (fun n => 0 <= n) sizes -> (k < length sizes)%nat ->
  0 <= off sizes k /\ 0 <= nth k sizes 0 /\ off sizes (S k) = off sizes k + nth k sizes 0 /\
  off sizes k + nth k sizes 0 <= off sizes (length sizes).
Proof.
  intros sizes k HN Hk. assert (M1 := off_nonneg sizes k HN). assert (M2 := nth_nonneg sizes k HN).
  assert (M3 := off_S sizes k). assert (M4 := off_mono sizes (S k) (length sizes) HN ltac:(lia)). lia.
Qed.

Lemma in_blk2 : forall sizes k i j, in_blk sizes k [i; j] <->
  (k < length sizes)%nat /\ off sizes k <= i < off sizes (S k) /\ off sizes k <= j < off sizes (S k).
Proof.
  intros. unfold in_blk. split.
  - intros (H & HF). inversion HF as [|? ? H1 H2]; subst. inversion H2; subst. auto.
  - intros (H & H1 & H2). split; auto.
Qed.

(** Loop over the blocks of [C], one dense call per non-empty block. *)
Lemma block_loop : forall (O : Ops) rank C sizes (c' : nat -> list Z -> car O) f order h,
  bt_ok rank C sizes -> (0 < rank)%nat -> bt_sep C ->
  Permutation order (seq 0 (length sizes)) ->
  (forall i d h1, (i < length sizes)%nat -> nth_error (bt_blocks C) i = Some d -> ddims d = repeat (nth i sizes 0) rank ->
     rowmaj d -> nth i sizes 0 <> 0 ->
     (forall a, cell d a \/ ~ bt_cell C a -> h1 a = h a) ->
     exists h2, f i h1 = Ok h2 /\ holds h2 d (c' i) /\ (forall a, ~ cell d a -> h2 a = h1 a)) ->
  (forall i h1, (i < length sizes)%nat -> nth i sizes 0 = 0 -> f i h1 = Ok h1) ->
  exists h', forM order f h = Ok h' /\ bt_holds h' C c' /\ (forall a, ~ bt_cell C a -> h' a = h a).
Proof.
  intros O rank C sizes c' f order h Hok Hr Hsep HP Hf H0.
  assert (IN : forall i, In i order <-> (i < length sizes)%nat).
  { intros i. split; intros H.
    - apply (Permutation_in _ HP) in H. apply in_seq in H. lia.
    - apply (Permutation_in _ (Permutation_sym HP)). apply in_seq. lia. }
  destruct (forM_regions nat (car O) (fun i a => exists d, nth_error (bt_blocks C) i = Some d /\ cell d a)
     (fun i h1 => forall d, nth_error (bt_blocks C) i = Some d -> holds h1 d (c' i)) f order h) as (h' & E & H1 & H2).
  - apply (Permutation_NoDup (Permutation_sym HP)). apply seq_NoDup.
  - intros i j a _ _ (d & Ed & (x & Hx & Ex)) (e & Ee & (y & Hy & Ey)).
    destruct (Nat.eq_dec i j); auto. elim (Hsep i j d e Ed Ee n x y Hx Hy). congruence.
  - intros i h1 h2 _ Hag Hh d Ed idx Hi. rewrite <- Hag; [now apply Hh|]. exists d. split; auto. exists idx; auto.
  - intros i h1 Hi Hag. apply IN in Hi. destruct (bt_block rank C sizes i Hok Hi) as (d & Ed & Dd & Rd).
    destruct (Z.eq_dec (nth i sizes 0) 0) as [Ez|Ez].
    + exists h1. split; auto. split; auto. intros d' Ed' idx Hx. assert (d' = d) by congruence. subst d'.
      rewrite Dd, Ez in Hx. destruct rank as [|r]; [lia|]. inversion Hx; subst. lia.
    + destruct (Hf i d h1 Hi Ed Dd Rd Ez) as (h2 & E2 & V2 & F2).
      * intros a [Ha|Ha]; apply Hag; [left; eauto|]. right. intros j _ (e & Ee & Hc). apply Ha. exists j, e. auto.
      * exists h2. split; auto. split.
        { intros d' Ed'. assert (d' = d) by congruence. now subst d'. }
        intros a Ha. apply F2. intros Hc. apply Ha. eauto.
  - exists h'. split; auto. split.
    + intros k d Ed. apply (H1 k); auto. apply IN. destruct Hok as (_ & HL & _). rewrite <- HL.
      apply nth_error_Some. congruence.
    + intros a Ha. apply H2. intros i _ (d & Ed & Hc). apply Ha. exists i, d. auto.
Qed.

Lemma block_perm : forall rank sizes, (0 < rank)%nat -> Forall (fun n => 0 <= n) sizes ->
  Permutation (filter (fun idx => existsb (in_blk_b sizes idx) (seq 0 (length sizes)))
                      (indices (repeat (off sizes (length sizes)) rank)))
    (flat_map (fun k => map (map (fun x => off sizes k + x)) (indices (repeat (nth k sizes 0) rank))) (seq 0 (length sizes))).
Proof.
  intros rank sizes Hr HN. apply NoDup_Permutation.
  - apply NoDup_filter, indices_NoDup.
  - assert (G : forall l, incl l (seq 0 (length sizes)) -> NoDup l -> NoDup (flat_map (fun k => map (map (fun x => off sizes k + x))
        (indices (repeat (nth k sizes 0) rank))) l)).
    { induction l as [|k l IH]; intros Hin Hn; simpl; [constructor|]. inversion Hn; subst.
      assert (AP : forall A (l m : list A), NoDup l -> NoDup m -> (forall x, In x l -> ~ In x m) -> NoDup (l ++ m)).
      { clear. induction l as [|x l IH]; intros m Hl Hm Hd; simpl; auto. inversion Hl; subst. constructor.
        - intros Hx. apply in_app_iff in Hx as [Hx|Hx]; auto. apply (Hd x); auto. now left.
        - apply IH; auto. intros y Hy. apply Hd. now right. }
      apply AP.
      - apply FinFun.Injective_map_NoDup; [|apply indices_NoDup]. intros x y E.
        apply (f_equal (map (fun x => x - off sizes k))) in E. now rewrite !shift_back in E.
      - apply IH; auto. intros x Hx. apply Hin. now right.
      - intros x Hx Hx'. apply in_map_iff in Hx as (j & <- & Hj). apply in_indices in Hj.
        apply in_flat_map in Hx' as (k' & Hk' & Hx'). apply in_map_iff in Hx' as (j' & E & Hj'). apply in_indices in Hj'.
        assert (K : (k < length sizes)%nat) by (specialize (Hin k ltac:(now left)); apply in_seq in Hin; lia).
        assert (K' : (k' < length sizes)%nat) by (specialize (Hin k' ltac:(now right)); apply in_seq in Hin; lia).
        assert (k' = k).
        { apply (in_blk_unique sizes (map (fun x => off sizes k + x) j)); auto.
          - apply inb_length in Hj. rewrite repeat_length in Hj. destruct j; [simpl in Hj; lia|discriminate].
          - rewrite <- E. eapply inb_in_blk; eauto.
          - eapply inb_in_blk; eauto. }
        subst k'. contradiction. }
    apply G; [apply incl_refl|apply seq_NoDup].
  - intros idx. rewrite filter_In, in_indices, in_flat_map, existsb_exists. split.
    + intros (Hi & k & Hk & HB). exists k. split; auto. apply in_seq in Hk. rewrite in_blk_b_spec in HB.
      apply in_map_iff. exists (map (fun x => x - off sizes k) idx). split; [apply shift_forth|]. apply in_indices.
      apply in_blk_inb; [|split; auto; lia]. apply inb_length in Hi. now rewrite repeat_length in Hi.
    + intros (k & Hk & Hi). apply in_map_iff in Hi as (j & <- & Hj). apply in_indices in Hj. assert (Hk' := Hk). apply in_seq in Hk'.
      assert (HB := inb_in_blk rank sizes k j ltac:(lia) Hj). split.
      * apply inb_repeat.
        { rewrite map_length. apply inb_length in Hj. now rewrite repeat_length in Hj. }
        destruct HB as (_ & HB). apply Forall_forall. intros x Hx. rewrite Forall_forall in HB. specialize (HB x Hx).
        destruct (off_bounds sizes k HN ltac:(lia)) as (? & ? & ? & ?). lia.
      * exists k. split; auto. apply in_blk_b_spec. apply HB.
Qed.

Lemma lsum_blocks : forall (O : Ops), is_ring O -> forall rank sizes (g : list Z -> car O),
  (0 < rank)%nat -> Forall (fun n => 0 <= n) sizes ->
  (forall idx, (forall k, ~ in_blk sizes k idx) -> g idx = o0) ->
  lsum (indices (repeat (off sizes (length sizes)) rank)) g =
  lsum (seq 0 (length sizes)) (fun k => lsum (indices (repeat (nth k sizes 0) rank)) (fun j => g (map (fun x => off sizes k + x) j))).
Proof.
  intros O HR rank sizes g Hr HN Hz.
  assert (E := lsum_perm O HR _ _ _ g (block_perm rank sizes Hr HN)).
  rewrite (lsum_filter_ite O HR) in E. rewrite (lsum_flat_map O HR) in E.
  transitivity (lsum (indices (repeat (off sizes (length sizes)) rank))
      (fun a => if existsb (in_blk_b sizes a) (seq 0 (length sizes)) then g a else o0)).
  - apply lsum_ext. intros idx _. destruct (existsb (in_blk_b sizes idx) (seq 0 (length sizes))) eqn:Ex; auto.
    apply Hz. intros k (Hk & HF). apply in_blk_b_spec in HF.
    assert (existsb (in_blk_b sizes idx) (seq 0 (length sizes)) = true); [|congruence].
    apply existsb_exists. exists k. split; auto. apply in_seq. lia.
  - rewrite E. apply lsum_ext. intros k _. now rewrite lsum_map.
Qed.
