(** * T_Block: block-diagonal tensors (C25-C27, C48). *)
From Coq Require Import List ZArith Lia Bool Permutation Ring.
From Verif Require Import Base Heap Conc M_Addr M_Elt M_Einsum M_Blas M_Block S_Addr S_Einsum S_Blas S_Block
  L_Addr L_Elt L_Einsum L_Blas L_Block T_Addr T_Blas.
Import ListNotations.
Open Scope Z_scope.

(** ** C25: after any history of pushes, insertions, in-place block resizes and
    conversions (throwing operations included), once the last operation is one
    that refreshes the bookkeeping -- or if no block was ever resized in place --
    the block intervals are consecutive, start at 0, end at the dimension, and
    [block_of] finds the one block containing an index and throws outside. *)
Definition block_lookup_correct (t : bt) : Prop :=
  let sizes := map (fun b => tdim b 0) (bt_blocks t) in
  tiled_by t sizes /\
  (forall i, 0 <= i < bt_dim t ->
     exists k, (k < length sizes)%nat /\ off sizes k <= i < off sizes (S k) /\ block_of t i = Ok (Z.of_nat k) /\
       (forall k', off sizes k' <= i < off sizes (S k') -> k' = k)) /\
  (forall i, ~ (0 <= i < bt_dim t) -> block_of t i = Throw).

Definition blocks_nonneg (t : bt) : Prop := Forall (fun b => 0 <= tdim b 0) (bt_blocks t).

Lemma tdim0_nonneg : forall b, Forall (fun d => 0 <= d) (ddims b) -> 0 <= tdim b 0.
Proof. intros b H. unfold tdim. destruct H; simpl; lia. Qed.

Lemma Forall_skipn' : forall A (P : A -> Prop) n l, Forall P l -> Forall P (skipn n l).
Proof. induction n as [|n IH]; intros l H; auto. destruct H; simpl; auto. Qed.

Lemma bop_step_nonneg : forall o t t', bop_wf o -> blocks_nonneg t -> bop_step o t = Ok t' -> blocks_nonneg t'.
Proof.
  intros o t t' Hw Hn E. unfold blocks_nonneg in *. destruct o as [b|p b|i base dims|]; simpl in *.
  - unfold push_block in E. destruct (square b); [|discriminate]. injection E as <-.
    rewrite (proj1 (proj2 (update_dims_tiled _))). simpl. apply Forall_app. split; auto.
    constructor; auto. now apply tdim0_nonneg.
  - unfold insert_block in E. destruct (square b); [|discriminate]. destruct (_ || _); [discriminate|].
    injection E as <-. rewrite (proj1 (proj2 (update_dims_tiled _))). simpl.
    rewrite <- (firstn_skipn (Z.to_nat p)) in Hn. apply Forall_app in Hn as (H1 & H2).
    apply Forall_app. split; auto. constructor; auto. now apply tdim0_nonneg.
  - unfold resize_block in E. destruct (_ || _); [discriminate|]. injection E as <-. cbn [bt_blocks]. assert (Hn' := Hn).
    rewrite <- (firstn_skipn (Z.to_nat i)) in Hn. apply Forall_app in Hn as (H1 & H2).
    apply Forall_app. split; auto. constructor; [now apply tdim0_nonneg|].
    change (Forall (fun b => 0 <= tdim b 0) (skipn (S (Z.to_nat i)) (bt_blocks t))).
    now apply Forall_skipn'.
  - injection E as <-. now rewrite (proj1 (proj2 (update_dims_tiled _))).
Qed.

Lemma tiled_lookup : forall t, blocks_nonneg t ->
  tiled_by t (map (fun b => tdim b 0) (bt_blocks t)) -> block_lookup_correct t.
Proof.
  intros t HN HT. unfold block_lookup_correct. set (sizes := map _ _) in *.
  assert (HN' : Forall (fun n => 0 <= n) sizes) by (unfold sizes; now apply Forall_map).
  split; auto. assert (HT' := HT). destruct HT' as (H1 & H2 & H3). rewrite H3. split.
  - intros i Hi. destruct (off_cover sizes i HN' Hi) as (k & Hk & E). exists k. split; auto. split; auto. split.
    + unfold block_of. now rewrite (find_range_tiled t sizes i k HN' HT Hk E).
    + intros k' E'. eapply off_unique; eauto.
  - intros i Hi. unfold block_of. now rewrite (find_range_out t sizes i HN' HT Hi).
Qed.

Lemma step_refreshes : forall o t t', bop_step o t = Ok t' -> ~ is_resize o ->
  tiled_by t' (map (fun b => tdim b 0) (bt_blocks t')).
Proof.
  intros o t t' E Hr. destruct o as [b|p b|i base dims|]; simpl in *; [| |elim Hr; auto|].
  - unfold push_block in E. destruct (square b); [|discriminate]. injection E as <-.
    destruct (update_dims_tiled (mkBt (bt_blocks t ++ [b]) (bt_ranges t) (bt_dims t) (bt_dim t) (bt_zero t))) as (H & H1 & _).
    now rewrite H1.
  - unfold insert_block in E. destruct (square b); [|discriminate]. destruct (_ || _); [discriminate|]. injection E as <-.
    match goal with |- tiled_by (update_dims ?t) _ => destruct (update_dims_tiled t) as (H & H1 & _) end.
    now rewrite H1.
  - injection E as <-. destruct (update_dims_tiled t) as (H & H1 & _). now rewrite H1.
Qed.

Lemma bruns_nonneg : forall os t t', bruns os t t' -> Forall bop_wf os -> blocks_nonneg t -> blocks_nonneg t'.
Proof.
  induction 1; intros HW HN; auto; inversion HW; subst; auto.
  apply IHbruns; auto. eapply bop_step_nonneg; eauto.
Qed.

Theorem C25_ranges_partial :
  forall (zero : Z) (history : list bop) (t : bt),
    Forall bop_wf history -> bruns history (empty_bt zero) t ->
    (forall o t', bop_wf o -> ~ is_resize o -> bop_step o t = Ok t' -> block_lookup_correct t') /\
    (Forall (fun o => ~ is_resize o) history -> block_lookup_correct t).
Proof.
  intros zero history t HW HB.
  assert (HN : blocks_nonneg t). { eapply bruns_nonneg; eauto. constructor. }
  split.
  - intros o t' Ho Hr E. apply tiled_lookup; [eapply bop_step_nonneg; eauto|eapply step_refreshes; eauto].
  - intros HF. apply tiled_lookup; auto.
    assert (G : forall os t1 t2, bruns os t1 t2 -> Forall (fun o => ~ is_resize o) os ->
      tiled_by t1 (map (fun b => tdim b 0) (bt_blocks t1)) -> tiled_by t2 (map (fun b => tdim b 0) (bt_blocks t2))).
    { induction 1; intros HF' HT; auto; inversion HF'; subst; auto.
      apply IHbruns; auto. eapply step_refreshes; eauto. }
    apply (G _ _ _ HB HF). split; auto. split; auto. simpl. intros; lia.
Qed.
Print Assumptions C25_ranges_partial.

(** Missing from the full statement: after [block(0).resize(...)] the recorded
    intervals are those of the old size. *)
Theorem C25_stale_refuted :
  exists (history : list bop) (t : bt),
    Forall bop_wf history /\ bruns history (empty_bt 100) t /\ ~ block_lookup_correct t /\
    block_of t 2 = Throw /\ 2 < tdim (nth 0 (bt_blocks t) (mkDesc 0 [] [])) 0.
Proof.
  exists [Push (tensor_ctor 0 [2; 2]); Resize 0 10 [3; 3]]. eexists.
  split; [repeat constructor; lia|]. split.
  { eapply br_ok; [reflexivity|]. eapply br_ok; [reflexivity|]. apply br_nil. }
  split; [|split; [reflexivity|vm_compute; reflexivity]].
  intros ((_ & H & _) & _). specialize (H 0%nat). simpl in H. specialize (H ltac:(lia)). discriminate.
Qed.
Print Assumptions C25_stale_refuted.

(** Insertion puts the block where it was asked: the blocks before it keep
    their intervals, those from there on move by its size; a block that is not
    square is rejected. *)
Theorem C25_insert :
  forall (t : bt) (pos : Z) (b : desc),
    tiled_by t (map (fun b => tdim b 0) (bt_blocks t)) -> 0 <= pos <= Z.of_nat (length (bt_blocks t)) ->
    ((forall d, In d (ddims b) -> d = tdim b 0) ->
     exists t', insert_block pos b t = Ok t' /\
       (push_block b t = Ok t' \/ pos <> Z.of_nat (length (bt_blocks t))) /\
       let p := Z.to_nat pos in
       nth_error (bt_blocks t') p = Some b /\
       (forall k, (k < p)%nat -> nth_error (bt_blocks t') k = nth_error (bt_blocks t) k /\
                                 nth k (bt_ranges t') (0, 0) = nth k (bt_ranges t) (0, 0)) /\
       (forall k, (p <= k < length (bt_blocks t))%nat ->
          nth_error (bt_blocks t') (S k) = nth_error (bt_blocks t) k /\
          nth (S k) (bt_ranges t') (0, 0) =
            (fst (nth k (bt_ranges t) (0, 0)) + tdim b 0, snd (nth k (bt_ranges t) (0, 0)) + tdim b 0)) /\
       bt_dim t' = bt_dim t + tdim b 0) /\
    ((exists d, In d (ddims b) /\ d <> tdim b 0) -> insert_block pos b t = Throw /\ push_block b t = Throw).
Proof.
  intros t pos b HT Hp. split.
  - intros Hsq. assert (Sq : square b = true).
    { unfold square. rewrite forallb_forall. intros x Hx. apply Z.eqb_eq. now apply Hsq. }
    unfold insert_block, push_block. rewrite Sq.
    destruct (Z.ltb_spec pos 0) as [?|_]; [lia|].
    destruct (Z.ltb_spec (Z.of_nat (length (bt_blocks t))) pos) as [?|_]; [lia|].
    cbn [orb]. eexists. split; [reflexivity|]. set (p := Z.to_nat pos).
    assert (Hpl : (p <= length (bt_blocks t))%nat) by lia.
    set (l := firstn p (bt_blocks t) ++ b :: skipn p (bt_blocks t)).
    split.
    { destruct (Z.eq_dec pos (Z.of_nat (length (bt_blocks t)))) as [E|E]; auto. left.
      f_equal. f_equal. f_equal. unfold l. rewrite firstn_all2, skipn_all2 by lia. reflexivity. }
    destruct (update_dims_tiled (mkBt l (bt_ranges t) (bt_dims t) (bt_dim t) (bt_zero t))) as ((T1 & T2 & T3) & B & _).
    simpl bt_blocks in T1, T2, T3, B. destruct HT as (H1 & H2 & H3). rewrite B.
    assert (Lf : length (firstn p (bt_blocks t)) = p) by (apply firstn_length_le; auto).
    assert (Ll : length l = S (length (bt_blocks t))).
    { unfold l. rewrite app_length. simpl. rewrite Lf, skipn_length. lia. }
    rewrite map_length in T2, T3, T1, H1, H2, H3.
    set (sz := map (fun b => tdim b 0) (bt_blocks t)) in *.
    assert (Em : map (fun b => tdim b 0) l = firstn p sz ++ tdim b 0 :: skipn p sz).
    { unfold l, sz. rewrite map_app. simpl. now rewrite firstn_map, skipn_map. }
    rewrite Em in T2, T3.
    assert (Ls : length (firstn p sz) = p). { apply firstn_length_le. unfold sz. now rewrite map_length. }
    assert (off_lo : forall k, (k <= p)%nat -> off (firstn p sz ++ tdim b 0 :: skipn p sz) k = off sz k).
    { intros k Hk. unfold off. rewrite firstn_app, Ls. replace (k - p)%nat with 0%nat by lia.
      rewrite firstn_O, app_nil_r, firstn_firstn. now rewrite Nat.min_l by auto. }
    assert (off_hi : forall k, (p <= k)%nat -> off (firstn p sz ++ tdim b 0 :: skipn p sz) (S k) = off sz k + tdim b 0).
    { intros k Hk. induction Hk as [|k Hk IH].
      - rewrite off_S, off_lo by auto. rewrite app_nth2 by lia. rewrite Ls, Nat.sub_diag. reflexivity.
      - rewrite off_S, IH, (off_S sz). rewrite app_nth2 by lia. rewrite Ls.
        replace (S k - p)%nat with (S (k - p)) by lia. cbn [nth].
        assert (En : nth (k - p) (skipn p sz) 0 = nth k sz 0).
        { rewrite <- (firstn_skipn p sz) at 2. rewrite app_nth2 by lia. now rewrite Ls. }
        rewrite En. lia. }
    split. { unfold l. rewrite nth_error_app2 by lia. rewrite Lf, Nat.sub_diag. reflexivity. }
    split.
    { intros k Hk. split.
      - unfold l. rewrite nth_error_app1 by lia. rewrite <- (firstn_skipn p (bt_blocks t)) at 2.
        now rewrite nth_error_app1 by lia.
      - rewrite T2, H2 by lia. now rewrite !off_lo by lia. }
    split.
    { intros k Hk. split.
      - unfold l. rewrite nth_error_app2 by lia. rewrite Lf. replace (S k - p)%nat with (S (k - p)) by lia. simpl.
        rewrite <- (firstn_skipn p (bt_blocks t)) at 2. rewrite nth_error_app2 by lia. now rewrite Lf.
      - rewrite T2, H2 by lia. now rewrite !off_hi by lia. }
    rewrite T3, H3, Ll. now rewrite off_hi by lia.
  - intros (d & Hd & Hne). assert (Sq : square b = false).
    { destruct (square b) eqn:E; auto. unfold square in E. rewrite forallb_forall in E.
      apply E in Hd. apply Z.eqb_eq in Hd. contradiction. }
    unfold insert_block, push_block. now rewrite Sq.
Qed.
Print Assumptions C25_insert.

Example C25_case :
  exists t, bruns [Push (tensor_ctor 0 [2; 2]); Push (tensor_ctor 10 [2; 3]); Insert 0 (tensor_ctor 20 [0; 0]);
                   Resize 1 30 [3; 3]; Insert 1 (tensor_ctor 40 [1; 1])] (empty_bt 100) t /\
    bt_ranges t = [(0, 0); (0, 1); (1, 4)] /\ bt_dim t = 4 /\ block_of t 0 = Ok 1 /\ block_of t 3 = Ok 2 /\ block_of t 4 = Throw.
Proof.
  eexists. split.
  { eapply br_ok; [reflexivity|]. eapply br_throw; [reflexivity|]. eapply br_ok; [reflexivity|].
    eapply br_ok; [reflexivity|]. eapply br_ok; [reflexivity|]. apply br_nil. }
  repeat split; reflexivity.
Qed.

(** ** C26: element access.  [ks] are the indices as the user writes them
    (negative ones count from the end), [idx] the positions they denote. *)
Theorem C26_read :
  forall (O : Ops), (forall z : car O, oeqb z o0 = true -> z = o0) ->
  forall (rank : nat) (t : bt) (sizes : list Z) (f : nat -> list Z -> car O) (h : heap (car O)) (ks idx : list Z) (zv : car O),
    (0 < rank)%nat -> bt_ok rank t sizes -> bt_holds h t f ->
    h (bt_zero t) = Some zv -> ~ bt_cell t (bt_zero t) ->
    spell (repeat (bt_dim t) rank) ks idx ->
    exists h', bt_read t ks h = Ok (dense sizes f idx, h') /\
      bt_holds h' t f /\ (forall a, a <> bt_zero t -> h' a = h a) /\ (exists zv', h' (bt_zero t) = Some zv').
Proof.
  intros O Heq rank t sizes f h ks idx zv Hr Hok HH Hz Hzc Hs.
  destruct (index_loop_spec Throw rank t sizes Hok Hr ks idx Hs) as (H1 & H2).
  assert (HL := spell_length _ _ _ Hs). rewrite repeat_length in HL.
  unfold bt_read, bt_subscript. destruct (in_blk_dec sizes idx) as [(k & Hk)|Hno].
  - rewrite (H1 k Hk). cbn [bind]. destruct (bt_block rank t sizes k Hok (proj1 Hk)) as (d & Ed & Dd & Rd).
    rewrite Ed. cbn [bind fst snd]. assert (Hin := in_blk_inb rank sizes k idx HL Hk). rewrite <- Dd in Hin.
    rewrite subscript_inb by auto. rewrite (rd_some _ _ _ _ (HH k d Ed _ Hin)). cbn [bind].
    exists h. rewrite (dense_in O sizes f idx k); auto; [|destruct Hok; auto|destruct idx; [simpl in HL; lia|discriminate]].
    split; auto. split; auto. split; eauto.
  - rewrite (H2 Hno). cbn [bind]. rewrite (rd_some _ _ _ _ Hz). cbn [bind].
    rewrite dense_out by auto. destruct (oeqb zv o0) eqn:E.
    + cbn [bind fst snd]. rewrite (rd_some _ _ _ _ Hz). cbn [bind]. apply Heq in E. subst zv.
      exists h. split; auto. split; auto. split; eauto.
    + rewrite (wr_some _ _ _ _ _ Hz). cbn [bind fst snd]. unfold rd. rewrite upd_same. cbn [bind].
      exists (upd h (bt_zero t) o0). split; auto. split.
      * intros k d Ed j Hj. rewrite upd_other; [now apply (HH k d Ed)|]. intros Ea. apply Hzc. exists k, d. split; auto.
        exists j. auto.
      * split; [intros; now apply upd_other|]. rewrite upd_same. eauto.
Qed.
Print Assumptions C26_read.

(** A write changes that element when it lies in a block; otherwise the tensor
    keeps its value everywhere (off-block elements still read as zero by
    [C26_read], whatever was written there). *)
Theorem C26_write :
  forall (O : Ops) (rank : nat) (t : bt) (sizes : list Z) (f : nat -> list Z -> car O) (h : heap (car O))
         (ks idx : list Z) (v zv : car O),
    (0 < rank)%nat -> bt_ok rank t sizes -> bt_sep t -> bt_holds h t f ->
    h (bt_zero t) = Some zv -> ~ bt_cell t (bt_zero t) ->
    spell (repeat (bt_dim t) rank) ks idx ->
    exists h' f', bt_write t ks v h = Ok h' /\ bt_holds h' t f' /\
      (forall k, in_blk sizes k idx -> dense sizes f' idx = v) /\
      (forall idx', length idx' = rank -> idx' <> idx \/ (forall k, ~ in_blk sizes k idx) ->
         dense sizes f' idx' = dense sizes f idx') /\
      (forall a, a <> bt_zero t -> ~ bt_cell t a -> h' a = h a) /\
      (exists zv', h' (bt_zero t) = Some zv').
Proof.
  intros O rank t sizes f h ks idx v zv Hr Hok Hsep HH Hz Hzc Hs.
  destruct (index_loop_spec Throw rank t sizes Hok Hr ks idx Hs) as (H1 & H2).
  assert (HL := spell_length _ _ _ Hs). rewrite repeat_length in HL.
  assert (HN : Forall (fun n => 0 <= n) sizes) by (destruct Hok; auto).
  assert (Hne : forall i : list Z, length i = rank -> i <> []) by (intros [|? ?] Hi; [simpl in Hi; lia|discriminate]).
  unfold bt_write, bt_subscript. destruct (in_blk_dec sizes idx) as [(k & Hk)|Hno].
  - rewrite (H1 k Hk). cbn [bind]. destruct (bt_block rank t sizes k Hok (proj1 Hk)) as (d & Ed & Dd & Rd).
    rewrite Ed. cbn [bind fst snd]. assert (Hin := in_blk_inb rank sizes k idx HL Hk).
    set (j := map (fun x => x - off sizes k) idx) in *. assert (Hin' := Hin). rewrite <- Dd in Hin'.
    rewrite subscript_inb by auto. rewrite (wr_some _ _ _ _ _ (HH k d Ed _ Hin')).
    set (f' := fun k' j' => if andb (Nat.eqb k' k) (if list_eq_dec Z.eq_dec j' j then true else false) then v else f k' j').
    assert (Ff' : forall k' j', (k' = k -> j' <> j) -> f' k' j' = f k' j').
    { intros k' j' Hc. unfold f'. destruct (Nat.eqb_spec k' k); cbn [andb]; auto.
      destruct (list_eq_dec Z.eq_dec j' j); auto. now elim (Hc e). }
    assert (Ff : f' k j = v).
    { unfold f'. rewrite Nat.eqb_refl. cbn [andb]. now destruct (list_eq_dec Z.eq_dec j j). }
    exists (upd h (addr d j) v), f'. split; auto. split.
    { intros k' d' Ed' j' Hj'. destruct (Nat.eq_dec k' k) as [->|Hk'].
      - assert (d' = d) by congruence. subst d'. destruct (list_eq_dec Z.eq_dec j' j) as [->|Hj].
        + rewrite upd_same. now rewrite Ff.
        + rewrite upd_other; [rewrite Ff' by auto; now apply (HH k d)|]. intros E. apply Hj.
          revert E. unfold addr. rewrite Rd. intros E.
          rewrite <- (rm_roundtrip _ j' Hj'), <- (rm_roundtrip _ j Hin'). f_equal. lia.
      - rewrite Ff' by (intros; contradiction). rewrite upd_other; [now apply (HH k' d')|].
        apply (Hsep k' k d' d); auto. }
    split.
    { intros k' Hk'. assert (k' = k) by (apply (in_blk_unique sizes idx); auto). subst k'.
      rewrite (dense_in O sizes f' idx k); auto. }
    split.
    { intros idx' HL' Hc. destruct (in_blk_dec sizes idx') as [(k' & Hk')|Hno']; [|now rewrite !dense_out by auto].
      rewrite (dense_in O sizes f' idx' k'), (dense_in O sizes f idx' k'); auto. apply Ff'. intros -> Ej.
      destruct Hc as [Hc|Hc]; [|now apply (Hc k)]. apply Hc.
      rewrite <- (shift_forth (off sizes k) idx'), Ej. unfold j. apply shift_forth. }
    split.
    { intros a Ha Hca. apply upd_other. intros ->. apply Hca. exists k, d. split; auto. exists j. auto. }
    exists zv. rewrite upd_other; auto. intros E. apply Hzc. exists k, d. split; auto. exists j. auto.
  - rewrite (H2 Hno). cbn [bind]. rewrite (rd_some _ _ _ _ Hz). cbn [bind].
    assert (K : forall g : heap (car O), (forall a, a <> bt_zero t -> g a = h a) -> bt_holds g t f).
    { intros g Hg k d Ed j Hj. rewrite Hg; [now apply (HH k d Ed)|]. intros Ea. apply Hzc. exists k, d. split; auto.
      exists j. auto. }
    assert (W : exists h', (r <- (if oeqb zv o0 then Ok (bt_zero t, h) else h'0 <- wr h (bt_zero t) o0 ;; Ok (bt_zero t, h'0)) ;;
                 wr (snd r) (fst r) v) = Ok h' /\ h' (bt_zero t) = Some v /\ (forall a, a <> bt_zero t -> h' a = h a)).
    { destruct (oeqb zv o0).
      - cbn [bind fst snd]. rewrite (wr_some _ _ _ _ _ Hz). eexists. split; [reflexivity|]. split; [apply upd_same|].
        intros. now apply upd_other.
      - rewrite (wr_some _ _ _ _ _ Hz). cbn [bind fst snd]. unfold wr. rewrite upd_same. eexists. split; [reflexivity|].
        split; [apply upd_same|]. intros. rewrite !upd_other; auto. }
    destruct W as (h' & E & Hz' & Hf). exists h', f. split; [exact E|]. split; [apply K; auto|].
    split; [intros k Hk; elim (Hno k); auto|]. split; auto. split; eauto.
Qed.
Print Assumptions C26_write.

(** An index whose first entry is out of range throws. *)
Theorem C26_out_of_range :
  forall (O : Ops) (rank : nat) (t : bt) (sizes : list Z) (h : heap (car O)) (k : Z) (ks : list Z) (v : car O),
    bt_ok rank t sizes -> ~ (- bt_dim t <= k < bt_dim t) ->
    bt_read t (k :: ks) h = Throw /\ bt_write t (k :: ks) v h = Throw.
Proof.
  intros O rank t sizes h k ks v (HN & HL & HB & HT) Hk.
  assert (E : index_loop Throw t None [] (k :: ks) = Throw).
  { cbn [index_loop]. rewrite (find_range_out t sizes); auto. destruct HT as (_ & _ & <-).
    assert (0 <= bt_dim t \/ bt_dim t < 0) by lia. destruct (Z.ltb_spec k 0); lia. }
  unfold bt_read, bt_write, bt_subscript. rewrite E. auto.
Qed.
Print Assumptions C26_out_of_range.

(** Through a constant tensor the elements of the blocks are read correctly;
    missing: an element outside the blocks is returned as a reference to a dead
    temporary. *)
Theorem C26_const_read_partial :
  forall (O : Ops) (rank : nat) (t : bt) (sizes : list Z) (f : nat -> list Z -> car O) (h : heap (car O)) (ks idx : list Z) k,
    (0 < rank)%nat -> bt_ok rank t sizes -> bt_holds h t f ->
    spell (repeat (bt_dim t) rank) ks idx -> in_blk sizes k idx ->
    bt_read_const t ks h = Ok (dense sizes f idx).
Proof.
  intros O rank t sizes f h ks idx k Hr Hok HH Hs Hk.
  destruct (index_loop_spec UB rank t sizes Hok Hr ks idx Hs) as (H1 & _).
  assert (HL := spell_length _ _ _ Hs). rewrite repeat_length in HL.
  unfold bt_read_const. rewrite (H1 k Hk). cbn [bind].
  destruct (bt_block rank t sizes k Hok (proj1 Hk)) as (d & Ed & Dd & Rd). rewrite Ed.
  assert (Hin := in_blk_inb rank sizes k idx HL Hk). rewrite <- Dd in Hin.
  assert (V := HH k d Ed _ Hin). unfold addr in V. rewrite (rd_some _ _ _ _ V).
  rewrite (dense_in O sizes f idx k); auto; [destruct Hok; auto|destruct idx; [simpl in HL; lia|discriminate]].
Qed.
Print Assumptions C26_const_read_partial.

Theorem C26_const_offblock_refuted :
  exists (t : bt) (sizes : list Z) (f : nat -> list Z -> Z) (h : heap Z),
    bt_ok 2 t sizes /\ bt_holds h t f /\ spell (repeat (bt_dim t) 2) [0; 2] [0; 2] /\
    @dense ZOps sizes f [0; 2] = 0 /\ @bt_read_const ZOps t [0; 2] h = UB.
Proof.
  exists (bt_ctor 2 100 [0; 10] [2; 1]), [2; 1], (fun _ _ => 7).
  exists (fun z => if (0 <=? z) && (z <? 20) then Some 7 else None).
  split.
  { split; [repeat constructor; lia|]. split; [reflexivity|]. split.
    - intros [|[|k]] d E; simpl in E; try (destruct k; discriminate); injection E as <-; repeat split; reflexivity.
    - split; [reflexivity|]. split; [|reflexivity]. intros [|[|k]] Hk; simpl in Hk; try lia; reflexivity. }
  split.
  { intros [|[|k]] d E; simpl in E; try (destruct k; discriminate); injection E as <-; intros idx Hi; simpl in Hi;
      apply inb2_inv in Hi as (i & j & -> & H1 & H2); unfold addr; simpl;
      match goal with |- (if ?c then _ else _) = _ => replace c with true; auto end;
      symmetry; rewrite andb_true_iff, Z.leb_le, Z.ltb_lt; lia. }
  split. { repeat constructor; simpl; try lia; left; reflexivity. }
  split; reflexivity.
Qed.
Print Assumptions C26_const_offblock_refuted.

(** Conversion to a dense tensor, for every distribution of the element copies
    over threads and every interleaving. *)
Theorem C26_to_dense :
  forall (O : Ops) (rank : nat) (t : bt) (sizes : list Z) (f : nat -> list Z -> car O) (h : heap (car O)) (base : Z)
         (threads : list (list (nat * list Z))),
    (0 < rank)%nat -> bt_ok rank t sizes -> bt_holds h t f ->
    (forall a, base <= a < base + bt_dim t ^ Z.of_nat rank -> h a = None) ->
    Permutation (concat threads) (flat_map (dense_items t) (seq 0 (length (bt_blocks t)))) ->
    let out := dense_desc rank t base in
    par_spec (map (fun r => pseq r (dense_body out t)) threads) (dense_start rank t base h) (fun h' =>
      ddims out = repeat (bt_dim t) rank /\ contiguous out /\ holds h' out (dense sizes f) /\
      (forall a, ~ cell out a -> h' a = h a)).
Proof.
  intros O rank t sizes f h base threads Hr Hok HH Hfree HP out.
  assert (Hok' := Hok). destruct Hok' as (HN & HL & HB & (T1 & T2 & T3)).
  assert (Hd0 : 0 <= bt_dim t) by (rewrite T3; now apply off_nonneg).
  assert (HF : Forall (fun d => 0 <= d) (repeat (bt_dim t) rank)).
  { apply Forall_forall. intros x Hx. apply repeat_spec in Hx. lia. }
  assert (Pz : zprod (repeat (bt_dim t) rank) = bt_dim t ^ Z.of_nat rank).
  { clear - Hd0. induction rank as [|r IH]; [reflexivity|]. rewrite Nat2Z.inj_succ, Z.pow_succ_r by lia.
    change (repeat (bt_dim t) (S r)) with (bt_dim t :: repeat (bt_dim t) r).
    change (zprod (bt_dim t :: repeat (bt_dim t) r)) with (bt_dim t * zprod (repeat (bt_dim t) r)). now rewrite IH. }
  assert (Dout : ddims out = repeat (bt_dim t) rank) by reflexivity.
  assert (Rout : rowmaj out) by reflexivity.
  assert (Iout : inj out).
  { intros i j Hi Hj E. unfold addr in E. rewrite Rout in E.
    rewrite <- (rm_roundtrip _ i Hi), <- (rm_roundtrip _ j Hj). f_equal. lia. }
  set (items := flat_map (dense_items t) (seq 0 (length (bt_blocks t)))).
  set (ad := fun it : nat * list Z => addr out (map (fun x => off sizes (fst it) + x) (snd it))).
  assert (IN : forall b j, In (b, j) items <-> (b < length sizes)%nat /\ inb j (repeat (nth b sizes 0) rank)).
  { intros. apply dense_items_in; auto. }
  assert (LEN : forall b j, In (b, j) items -> length j = rank).
  { intros b j Hi. apply IN in Hi as (_ & Hi). apply inb_length in Hi. now rewrite repeat_length in Hi. }
  assert (ADI : forall b j, In (b, j) items -> inb (map (fun x => off sizes b + x) j) (ddims out)).
  { intros b j Hi. apply IN in Hi as (Hb & Hj). apply (dense_slice rank t sizes base b Hok Hb); auto. }
  assert (ND : NoDup (map ad items)).
  { assert (G : forall l, incl l items -> NoDup l -> NoDup (map ad l)).
    { induction l as [|(b, j) l IH]; intros Hl Hn; simpl; constructor; inversion Hn; subst.
      - rewrite in_map_iff. intros ((b', j') & E & Hin'). unfold ad in E. simpl in E.
        assert (I1 : In (b, j) items) by (apply Hl; now left). assert (I2 : In (b', j') items) by (apply Hl; now right).
        apply Iout in E; [|apply ADI; auto|apply ADI; auto].
        assert (b' = b).
        { apply (in_blk_unique sizes (map (fun x => off sizes b + x) j)); auto.
          - intros Hc. assert (L := LEN _ _ I1). destruct j; [simpl in L; lia|discriminate].
          - rewrite <- E. apply IN in I2 as (? & ?). eapply inb_in_blk; eauto.
          - apply IN in I1 as (? & ?). eapply inb_in_blk; eauto. }
        subst b'. apply (f_equal (map (fun x => x - off sizes b))) in E. rewrite !shift_back in E. subst j'. contradiction.
      - apply IH; auto. intros x Hx. apply Hl. now right. }
    apply G; [apply incl_refl|]. apply dense_items_NoDup. }
  assert (OW : forall a, owned items ad a -> cell out a).
  { intros a Ha. unfold owned in Ha. apply in_map_iff in Ha as ((b, j) & <- & Hi).
    eexists. split; [apply (ADI b j Hi)|reflexivity]. }
  set (h0 := dense_start rank t base h).
  assert (NEr : repeat (bt_dim t) rank <> []) by (destruct rank; [lia|discriminate]).
  assert (H0in : forall a, cell out a -> h0 a = Some o0).
  { intros a Ha. change out with (tensor_ctor base (repeat (bt_dim t) rank)) in Ha. rewrite tensor_cell in Ha by auto.
    unfold h0, dense_start. rewrite data_size_eq by auto. now apply alloc_buffer_cell. }
  assert (H0out : forall a, ~ cell out a -> h0 a = h a).
  { intros a Ha. change out with (tensor_ctor base (repeat (bt_dim t) rank)) in Ha. rewrite tensor_cell in Ha by auto.
    unfold h0, dense_start. rewrite data_size_eq by auto. now apply alloc_buffer_other. }
  assert (BLK : forall k d, nth_error (bt_blocks t) k = Some d -> forall j, inb j (ddims d) -> ~ cell out (addr d j)).
  { intros k d Ed j Hj Hc. change out with (tensor_ctor base (repeat (bt_dim t) rank)) in Hc.
    rewrite tensor_cell in Hc by auto. rewrite Pz in Hc. specialize (Hfree _ Hc). rewrite (HH k d Ed j Hj) in Hfree. discriminate. }
  apply par_spec_weaken with (Q := fun h' => (forall x, In x items -> h' (ad x) = Some (f (fst x) (snd x))) /\
    (forall a, ~ owned items ad a -> h' a = h0 a)).
  { intros h' (V1 & V2). split; auto. split; [now apply contiguous_rowmaj|]. split.
    - intros idx Hi. assert (HLi : length idx = rank) by (apply inb_length in Hi; rewrite Dout, repeat_length in Hi; auto).
      assert (Hne : idx <> []) by (intros ->; simpl in HLi; lia).
      destruct (in_blk_dec sizes idx) as [(k & Hk)|Hno].
      + rewrite (dense_in O sizes f idx k); auto. set (j := map (fun x => x - off sizes k) idx).
        assert (Hj : In (k, j) items). { apply IN. split; [apply Hk|]. now apply in_blk_inb. }
        assert (V := V1 _ Hj). unfold ad in V. simpl in V. unfold j in V. now rewrite shift_forth in V.
      + rewrite dense_out by auto. rewrite V2.
        * apply H0in. exists idx. auto.
        * intros Ho. unfold owned in Ho. apply in_map_iff in Ho as ((b, j) & E & Hin). unfold ad in E. simpl in E.
          apply Iout in E; auto. apply IN in Hin as (? & ?). apply (Hno b). rewrite <- E. eapply inb_in_blk; eauto.
    - intros a Ha. rewrite V2; [now apply H0out|]. intros Ho. apply Ha. now apply OW. }
  apply par_cells; auto.
  intros (b, j) h' Hi Hag. assert (Hi' := Hi). apply IN in Hi' as (Hb & Hj).
  unfold dense_body. cbn [fst snd]. destruct (bt_block rank t sizes b Hok Hb) as (d & Ed & Dd & Rd). rewrite Ed.
  rewrite T2 by auto. rewrite Dd, repeat_length.
  destruct (dense_slice rank t sizes base b Hok Hb) as (S1 & S2).
  destruct (S2 j Hj) as (S3 & S4). fold out in S1, S3, S4. unfold copy_body.
  rewrite (subscript_inb d) by (rewrite Dd; auto). rewrite subscript_inb by (rewrite S1; auto). rewrite S3.
  assert (Hjd : inb j (ddims d)) by (rewrite Dd; auto).
  assert (NC := BLK b d Ed j Hjd).
  assert (NO : ~ owned items ad (addr d j)) by (intros Ho; apply NC; now apply OW).
  assert (V1 : h' (addr d j) = Some (f b j)). { rewrite Hag by auto. rewrite H0out by auto. now apply (HH b d). }
  assert (V2 : h' (ad (b, j)) = Some o0). { rewrite Hag by auto. apply H0in. eexists. split; [apply (ADI b j Hi)|reflexivity]. }
  change (addr out (map (fun x => off sizes b + x) j)) with (ad (b, j)).
  simpl. rewrite V1, V2. split.
  - split; [right; exact NO|]. exists (f b j). split; [auto|]. split; [auto|]. split; eauto.
  - eexists. split; [reflexivity|]. now rewrite upd_same.
Qed.
Print Assumptions C26_to_dense.

Example C26_case :
  let t := bt_ctor 2 100 [0; 10; 20] [2; 0; 1] in
  let h : heap Z := fun z => if (0 <=? z) && (z <? 30) then Some (z + 1) else if z =? 100 then Some 9 else None in
  @bt_read ZOps t [-1; 2] h = Ok (21, h) /\ @bt_read ZOps t [1; 0] h = Ok (3, h) /\
  (exists h', @bt_read ZOps t [1; 2] h = Ok (0, h') /\ @bt_write ZOps t [1; 2] 5 h' = Ok (upd (upd h 100 0) 100 5)) /\
  @bt_read ZOps t [3; 0] h = Throw /\ in_blk [2; 0; 1] 2 [2; 2] /\
  flat_map (dense_items t) (seq 0 3) = [(0%nat, [0; 0]); (0%nat, [0; 1]); (0%nat, [1; 0]); (0%nat, [1; 1]); (2%nat, [0; 0])].
Proof.
  split; [reflexivity|]. split; [reflexivity|]. split.
  { eexists. split; [reflexivity|]. reflexivity. }
  split; [reflexivity|]. split; [|reflexivity]. apply in_blk2. simpl. unfold off. simpl. lia.
Qed.

(** ** C27: gemm on block tensors with the same block sizes is the dense gemm
    of the block-diagonal matrices, whatever the order of the blocks. *)
Theorem C27_gemm :
  forall (O : Ops), is_ring O ->
  forall (TransA TransB : bool) (alpha beta : car O) (A B C : bt) (sizes : list Z) (a b c : nat -> list Z -> car O)
         (h : heap (car O)) (order : list nat),
    bt_ok 2 A sizes -> bt_ok 2 B sizes -> bt_ok 2 C sizes ->
    bt_holds h A a -> bt_holds h B b -> bt_holds h C c -> bt_sep C -> bt_disj C A -> bt_disj C B ->
    Permutation order (seq 0 (length sizes)) ->
    exists h' c', bt_gemm TransA TransB alpha A B beta C order h = Ok h' /\ bt_holds h' C c' /\
      (forall i j, 0 <= i < bt_dim C -> 0 <= j < bt_dim C ->
         dense sizes c' [i; j] =
           oadd (omul alpha (zsum (bt_dim C) (fun p => omul (op TransA (dense sizes a) i p) (op TransB (dense sizes b) p j))))
                (omul beta (dense sizes c [i; j]))) /\
      (forall z, ~ bt_cell C z -> h' z = h z).
Proof.
  intros O HR TA TB alpha beta A B C sizes a b c h order OA OB OC HA HB HC SC DA DB HP.
  assert (R := ir_rt O HR).
  assert (HN : Forall (fun n => 0 <= n) sizes) by (destruct OA; auto).
  assert (LA : length (bt_blocks A) = length sizes) by (destruct OA as (_ & E & _); auto).
  assert (LB : length (bt_blocks B) = length sizes) by (destruct OB as (_ & E & _); auto).
  assert (LC : length (bt_blocks C) = length sizes) by (destruct OC as (_ & E & _); auto).
  assert (DC : bt_dim C = off sizes (length sizes)) by (destruct OC as (_ & _ & _ & _ & _ & E); auto).
  unfold bt_gemm. rewrite LA, LB, LC, Nat.eqb_refl. cbn [negb orb].
  set (c' := fun k idx => match idx with
     | [i; j] => oadd (omul alpha (zsum (nth k sizes 0) (fun p => omul (op TA (a k) i p) (op TB (b k) p j)))) (omul beta (c k [i; j]))
     | _ => o0 end).
  match goal with |- context [forM order ?g h] => set (f := g) end.
  destruct (block_loop O 2 C sizes c' f order h) as (h' & E & H1 & H2); auto.
  - intros i d h1 Hi Ed Dd Rd Hnz Hag. unfold f.
    destruct (bt_block 2 A sizes i OA Hi) as (da & Eda & Dda & Rda).
    destruct (bt_block 2 B sizes i OB Hi) as (db & Edb & Ddb & Rdb).
    rewrite Eda, Edb, Ed. unfold tdim. rewrite Dda. cbn [repeat nth].
    destruct (Z.eqb_spec (nth i sizes 0) 0); [contradiction|].
    assert (Hn0 := nth_nonneg sizes i HN). cbn [repeat] in Dd, Dda, Ddb. set (n0 := nth i sizes 0) in *.
    assert (MA := sq_mat da n0 Dda Rda). assert (MB := sq_mat db n0 Ddb Rdb). assert (MC := sq_mat d n0 Dd Rd).
    assert (HA1 : holds h1 da (a i)).
    { intros x Hx. rewrite Hag; [now apply (HA i da)|]. right. intros (k & e & Ee & (y & Hy & Ey)).
      apply (DA k i e da Ee Eda y x Hy Hx). auto. }
    assert (HB1 : holds h1 db (b i)).
    { intros x Hx. rewrite Hag; [now apply (HB i db)|]. right. intros (k & e & Ee & (y & Hy & Ey)).
      apply (DB k i e db Ee Edb y x Hy Hx). auto. }
    assert (HC1 : holds h1 d (c i)).
    { intros x Hx. rewrite Hag; [now apply (HC i d)|]. left. exists x; auto. }
    destruct (C19_gemm_partial O HR TA TB alpha beta da db d n0 n0 n0 n0 n0 n0 (a i) (b i) (c i) h1) as (h2 & E2 & V2 & F2);
      auto; try lia; try (destruct TA; auto; fail); try (destruct TB; auto; fail).
    { apply (DA i i); auto. } { apply (DB i i); auto. }
    exists h2. split; auto. split; auto.
    intros x Hx. rewrite Dd in Hx. apply inb2_inv in Hx as (p & q & -> & Hp & Hq). rewrite V2 by auto. reflexivity.
  - intros i h1 Hi Hz. unfold f.
    destruct (bt_block 2 A sizes i OA Hi) as (da & Eda & Dda & Rda).
    destruct (bt_block 2 B sizes i OB Hi) as (db & Edb & Ddb & Rdb).
    destruct (bt_block 2 C sizes i OC Hi) as (dc & Edc & Ddc & Rdc).
    rewrite Eda, Edb, Edc. unfold tdim. rewrite Dda. cbn [repeat nth]. rewrite Hz, Z.eqb_refl. reflexivity.
  - exists h', c'. split; auto. split; auto. split; auto.
    intros i j Hi Hj. rewrite DC in *.
    assert (OPin : forall (tr : bool) (g : nat -> list Z -> car O) k x y, in_blk sizes k [x; y] ->
              op tr (dense sizes g) x y = op tr (g k) (x - off sizes k) (y - off sizes k)).
    { intros tr g k x y Hk. unfold op. destruct tr.
      - rewrite (dense_in O sizes g [y; x] k); auto; [discriminate|]. rewrite in_blk2 in *. tauto.
      - rewrite (dense_in O sizes g [x; y] k); auto. discriminate. }
    assert (OPout : forall (tr : bool) (g : nat -> list Z -> car O) x y, (forall k, ~ in_blk sizes k [x; y]) -> op tr (dense sizes g) x y = o0).
    { intros tr g x y Hk. unfold op. destruct tr; apply dense_out; auto. intros k Hc. apply (Hk k). rewrite in_blk2 in *. tauto. }
    destruct (off_cover sizes i HN Hi) as (k & Hk & Hki).
    destruct (off_bounds sizes k HN Hk) as (B1 & B2 & B3 & B4).
    assert (Zout : forall p, 0 <= p < off sizes (length sizes) -> ~ (off sizes k <= p < off sizes k + nth k sizes 0) ->
               op TA (dense sizes a) i p = o0).
    { intros p Hp Hn. apply OPout. intros k' Hk'. rewrite in_blk2 in Hk'. destruct Hk' as (K1 & K2 & K3).
      assert (k' = k) by (apply (off_unique sizes i); auto). subst k'. lia. }
    destruct (in_blk_dec sizes [i; j]) as [(k' & Hk')|Hno].
    + assert (k' = k) by (rewrite in_blk2 in Hk'; apply (off_unique sizes i); tauto). subst k'.
      rewrite (dense_in O sizes c' [i; j] k), (dense_in O sizes c [i; j] k); auto; try discriminate.
      unfold c'. cbn [map]. f_equal. f_equal.
      rewrite (zsum_window O HR (off sizes (length sizes)) (off sizes k) (nth k sizes 0)); auto; try lia.
      * apply zsum_ext. intros p Hp. rewrite (OPin TA a k), (OPin TB b k); try (rewrite in_blk2 in *; lia).
        replace (off sizes k + p - off sizes k) with p by lia. reflexivity.
      * intros p Hp Hn. rewrite Zout by auto. apply (omul_0_l HR).
    + rewrite !dense_out by auto. rewrite (zsum_zero O HR).
      * rewrite !(omul_0_r HR). now rewrite (Radd_0_l R).
      * intros p Hp. destruct (Z_le_gt_dec (off sizes k) p) as [L|L]; [destruct (Z_lt_ge_dec p (off sizes k + nth k sizes 0)) as [L2|L2]|].
        -- rewrite (OPout TB b); [apply (omul_0_r HR)|]. intros k' Hk'. rewrite in_blk2 in Hk'. destruct Hk' as (K1 & K2 & K3).
           assert (k' = k) by (apply (off_unique sizes p); auto; lia). subst k'. apply (Hno k). rewrite in_blk2. auto.
        -- rewrite Zout by lia. apply (omul_0_l HR).
        -- rewrite Zout by lia. apply (omul_0_l HR).
Qed.
Print Assumptions C27_gemm.

(** Different numbers of blocks are rejected before anything is written. *)
Theorem C27_gemm_rejects :
  forall (O : Ops) (TransA TransB : bool) (alpha beta : car O) (A B C : bt) (order : list nat) (h : heap (car O)),
    length (bt_blocks A) <> length (bt_blocks B) \/ length (bt_blocks A) <> length (bt_blocks C) ->
    bt_gemm TransA TransB alpha A B beta C order h = Throw.
Proof.
  intros. unfold bt_gemm.
  destruct (Nat.eqb_spec (length (bt_blocks A)) (length (bt_blocks B)));
    destruct (Nat.eqb_spec (length (bt_blocks A)) (length (bt_blocks C))); auto. tauto.
Qed.
Print Assumptions C27_gemm_rejects.

Example C27_case :
  let A := bt_ctor 2 100 [0; 10] [2; 1] in let B := bt_ctor 2 100 [20; 30] [2; 1] in let C := bt_ctor 2 100 [40; 50] [2; 1] in
  let h : heap Z := fun z => if (0 <=? z) && (z <? 60) then Some (z + 1) else None in
  exists h', @bt_gemm ZOps true false 2 A B (-1) C [1%nat; 0%nat] h = Ok h' /\
    h' 40 = Some (2 * (1 * 21 + 3 * 23) - 41) /\ h' 50 = Some (2 * (11 * 31) - 51).
Proof. eexists. split; [vm_compute; reflexivity|]. split; vm_compute; reflexivity. Qed.

(** ** C48: the other whole-tensor operations agree with the dense ones. *)
Theorem C48_scale :
  forall (O : Ops), is_ring O ->
  forall (rank : nat) (alpha : car O) (A : bt) (sizes : list Z) (a : nat -> list Z -> car O) (h : heap (car O)) (order : list nat),
    (0 < rank)%nat -> bt_ok rank A sizes -> bt_holds h A a -> bt_sep A -> Permutation order (seq 0 (length sizes)) ->
    exists h' a', bt_scale alpha A order h = Ok h' /\ bt_holds h' A a' /\
      (forall idx, length idx = rank -> dense sizes a' idx = omul alpha (dense sizes a idx)) /\
      (forall z, ~ bt_cell A z -> h' z = h z).
Proof.
  intros O HR rank alpha A sizes a h order Hr OA HA SA HP.
  assert (HN : Forall (fun n => 0 <= n) sizes) by (destruct OA; auto).
  set (a' := fun k idx => omul alpha (a k idx)). unfold bt_scale.
  match goal with |- context [forM order ?g h] => set (f := g) end.
  destruct (block_loop O rank A sizes a' f order h) as (h' & E & H1 & H2); auto.
  - intros i d h1 Hi Ed Dd Rd Hnz Hag. unfold f. rewrite Ed. unfold tdim. rewrite Dd.
    destruct rank as [|r]; [lia|]. cbn [repeat nth]. destruct (Z.eqb_spec (nth i sizes 0) 0); [contradiction|].
    destruct (C21_scale_partial O alpha d (a i) h1) as (h2 & E2 & V2 & F2).
    + rewrite Dd. discriminate.
    + unfold nonneg. rewrite Dd. apply Forall_forall. intros x Hx. apply repeat_spec in Hx. rewrite Hx. now apply nth_nonneg.
    + now apply contiguous_rowmaj.
    + intros x Hx. rewrite Hag; [now apply (HA i d)|]. left. exists x; auto.
    + exists h2. auto.
  - intros i h1 Hi Hz. unfold f. destruct (bt_block rank A sizes i OA Hi) as (d & Ed & Dd & Rd). rewrite Ed. unfold tdim. rewrite Dd.
    destruct rank as [|r]; [lia|]. cbn [repeat nth]. rewrite Hz, Z.eqb_refl. reflexivity.
  - exists h', a'. split; auto. split; auto. split; auto.
    intros idx HL. destruct (in_blk_dec sizes idx) as [(k & Hk)|Hno].
    + assert (idx <> []) by (intros ->; simpl in HL; lia). now rewrite !(dense_in O sizes _ idx k) by auto.
    + rewrite !dense_out by auto. now rewrite (omul_0_r HR).
Qed.
Print Assumptions C48_scale.

Theorem C48_axpby :
  forall (O : Ops), is_ring O ->
  forall (rank : nat) (alpha beta : car O) (X Y : bt) (sizes : list Z) (x y : nat -> list Z -> car O) (h : heap (car O)) (order : list nat),
    (0 < rank)%nat -> bt_ok rank X sizes -> bt_ok rank Y sizes -> bt_holds h X x -> bt_holds h Y y ->
    bt_sep Y -> bt_disj Y X -> Permutation order (seq 0 (length sizes)) ->
    (exists h' y', bt_axpby alpha beta X Y order h = Ok h' /\ bt_holds h' Y y' /\
      (forall idx, length idx = rank ->
         dense sizes y' idx = oadd (omul alpha (dense sizes x idx)) (omul beta (dense sizes y idx))) /\
      (forall z, ~ bt_cell Y z -> h' z = h z)) /\
    (exists h' y', bt_axpy alpha X Y order h = Ok h' /\ bt_holds h' Y y' /\
      (forall idx, length idx = rank ->
         dense sizes y' idx = oadd (omul alpha (dense sizes x idx)) (dense sizes y idx)) /\
      (forall z, ~ bt_cell Y z -> h' z = h z)).
Proof.
  intros O HR rank alpha beta X Y sizes x y h order Hr OX OY HX HY SY DYX HP. assert (R := ir_rt O HR).
  assert (HN : Forall (fun n => 0 <= n) sizes) by (destruct OX; auto).
  assert (RE : bt_ranges X = bt_ranges Y).
  { destruct OX as (_ & _ & _ & (X1 & X2 & _)). destruct OY as (_ & _ & _ & (Y1 & Y2 & _)).
    apply nth_ext with (d := (0, 0)) (d' := (0, 0)); [congruence|]. intros n Hn. rewrite X2, Y2 by congruence. reflexivity. }
  assert (LX : length (bt_blocks X) = length (bt_blocks Y)).
  { destruct OX as (_ & E1 & _). destruct OY as (_ & E2 & _). congruence. }
  assert (G : forall call (comb : car O -> car O -> car O), comb o0 o0 = o0 ->
    (forall d e u v h1, ddims d <> [] -> nonneg (ddims d) -> ddims e = ddims d -> contiguous d -> contiguous e ->
       holds h1 d u -> holds h1 e v -> disj e d ->
       exists h2, call d e h1 = Ok h2 /\ holds h2 e (fun idx => comb (u idx) (v idx)) /\ (forall z, ~ cell e z -> h2 z = h1 z)) ->
    exists h' y', bt_axpy_like call X Y order h = Ok h' /\ bt_holds h' Y y' /\
      (forall idx, length idx = rank -> dense sizes y' idx = comb (dense sizes x idx) (dense sizes y idx)) /\
      (forall z, ~ bt_cell Y z -> h' z = h z)).
  { intros call comb H0 Hcall. unfold bt_axpy_like. rewrite LX, Nat.eqb_refl. cbn [negb].
    match goal with |- context [if ?c then _ else _] => destruct c as [_|Hc]; [|now elim Hc] end.
    set (y' := fun k idx => comb (x k idx) (y k idx)).
    match goal with |- context [forM order ?g h] => set (f := g) end.
    destruct (block_loop O rank Y sizes y' f order h) as (h' & E & H1 & H2); auto.
    - intros i e h1 Hi Ee De Re Hnz Hag. unfold f. destruct (bt_block rank X sizes i OX Hi) as (d & Ed & Dd & Rd).
      rewrite Ed, Ee. unfold tdim. rewrite Dd.
      assert (Hne : ddims d <> []) by (rewrite Dd; destruct rank; [lia|discriminate]).
      destruct rank as [|r]; [lia|]. cbn [repeat nth]. destruct (Z.eqb_spec (nth i sizes 0) 0); [contradiction|].
      destruct (Hcall d e (x i) (y i) h1) as (h2 & E2 & V2 & F2); auto.
      + unfold nonneg. rewrite Dd. apply Forall_forall. intros z Hz. apply repeat_spec in Hz. rewrite Hz. now apply nth_nonneg.
      + congruence.
      + now apply contiguous_rowmaj.
      + now apply contiguous_rowmaj.
      + intros z Hz. rewrite Hag; [now apply (HX i d)|]. right. intros (k & e' & Ee' & (q & Hq & Eq)).
        apply (DYX k i e' d Ee' Ed q z Hq Hz). auto.
      + intros z Hz. rewrite Hag; [now apply (HY i e)|]. left. exists z; auto.
      + apply (DYX i i); auto.
      + exists h2. auto.
    - intros i h1 Hi Hz. unfold f. destruct (bt_block rank X sizes i OX Hi) as (d & Ed & Dd & Rd).
      destruct (bt_block rank Y sizes i OY Hi) as (e & Ee & De & Re). rewrite Ed, Ee. unfold tdim. rewrite Dd.
      destruct rank as [|r]; [lia|]. cbn [repeat nth]. rewrite Hz, Z.eqb_refl. reflexivity.
    - exists h', y'. split; auto. split; auto. split; auto.
      intros idx HL. destruct (in_blk_dec sizes idx) as [(k & Hk)|Hno].
      + assert (idx <> []) by (intros ->; simpl in HL; lia). now rewrite !(dense_in O sizes _ idx k) by auto.
      + now rewrite !dense_out by auto. }
  split.
  - apply (G _ (fun u v => oadd (omul alpha u) (omul beta v))).
    + now rewrite !(omul_0_r HR), (Radd_0_l R).
    + intros d e u v h1 G1 G2 G3 G4 G5 G6 G7 G8. apply (C21_axpby_partial O HR alpha beta d e u v h1); auto.
  - apply (G _ (fun u v => oadd (omul alpha u) v)).
    + now rewrite !(omul_0_r HR), (Radd_0_l R).
    + intros d e u v h1 G1 G2 G3 G4 G5 G6 G7 G8. apply (C21_axpby_partial O HR alpha beta d e u v h1); auto.
Qed.
Print Assumptions C48_axpby.

(** dot for equal block structure: the sum over all elements of the dense
    tensors, whatever the order of the reduction. *)
Theorem C48_dot :
  forall (O : Ops), is_ring O ->
  forall (rank : nat) (A B : bt) (sizes : list Z) (a b : nat -> list Z -> car O) (h : heap (car O)) (order : list nat),
    (0 < rank)%nat -> bt_ok rank A sizes -> bt_ok rank B sizes -> bt_holds h A a -> bt_holds h B b ->
    Permutation order (seq 0 (length sizes)) ->
    bt_dot A B order h =
      Some (Ok (lsum (indices (repeat (bt_dim A) rank)) (fun idx => omul (dense sizes a idx) (dense sizes b idx)))).
Proof.
  intros O HR rank A B sizes a b h order Hr OA OB HA HB HP. assert (R := ir_rt O HR).
  assert (HN : Forall (fun n => 0 <= n) sizes) by (destruct OA; auto).
  assert (RE : bt_ranges A = bt_ranges B).
  { destruct OA as (_ & _ & _ & (X1 & X2 & _)). destruct OB as (_ & _ & _ & (Y1 & Y2 & _)).
    apply nth_ext with (d := (0, 0)) (d' := (0, 0)); [congruence|]. intros n Hn. rewrite X2, Y2 by congruence. reflexivity. }
  assert (LX : length (bt_blocks A) = length (bt_blocks B)).
  { destruct OA as (_ & E1 & _). destruct OB as (_ & E2 & _). congruence. }
  assert (DA : bt_dim A = off sizes (length sizes)) by (destruct OA as (_ & _ & _ & _ & _ & E); auto).
  unfold bt_dot. rewrite LX, Nat.eqb_refl. cbn [negb].
  match goal with |- context [if ?c then _ else _] => destruct c as [_|Hc]; [|now elim Hc] end.
  f_equal. set (g := fun k => lsum (indices (repeat (nth k sizes 0) rank)) (fun j => omul (a k j) (b k j))).
  rewrite (forM_pure _ _ order _ (fun s k => oadd s (g k))).
  - f_equal. rewrite (fold_left_lsum O HR), (Radd_0_l R). rewrite (lsum_perm O HR _ _ _ g HP).
    rewrite DA, (lsum_blocks O HR); auto.
    + apply lsum_ext. intros k Hk. apply in_seq in Hk. apply lsum_ext. intros j Hj. apply in_indices in Hj.
      assert (HI := inb_in_blk rank sizes k j ltac:(lia) Hj).
      assert (map (fun x => off sizes k + x) j <> []).
      { apply inb_length in Hj. rewrite repeat_length in Hj. destruct j; [simpl in Hj; lia|discriminate]. }
      rewrite !(dense_in O sizes _ _ k) by auto. now rewrite shift_back.
    + intros idx Hno. rewrite dense_out by auto. apply (omul_0_l HR).
  - intros k s Hk. apply (Permutation_in _ HP), in_seq in Hk.
    destruct (bt_block rank A sizes k OA ltac:(lia)) as (d & Ed & Dd & Rd).
    destruct (bt_block rank B sizes k OB ltac:(lia)) as (e & Ee & De & Re). rewrite Ed, Ee.
    unfold tdim. rewrite Dd. unfold g. assert (Hn0 := nth_nonneg sizes k HN).
    destruct (Z.eqb_spec (nth 0 (repeat (nth k sizes 0) rank) 0) 0) as [Ez|Ez].
    + destruct rank as [|r]; [lia|]. cbn [repeat nth] in *. rewrite Ez. simpl. unfold lsum. simpl.
      now rewrite (Radd_comm R), (Radd_0_l R).
    + assert (Nd : nonneg (ddims d)).
      { unfold nonneg. rewrite Dd. apply Forall_forall. intros z Hz. apply repeat_spec in Hz. lia. }
      assert (ST : forall q, rowmaj q -> nonneg (ddims q) -> forall s, In s (dstrides q) -> 0 <= s).
      { clear. intros q Hq. rewrite Hq. generalize (ddims q). clear. induction l as [|x l IH]; intros HF s Hs.
        - rewrite rms_nil in Hs. destruct Hs.
        - inversion HF; subst. rewrite rms_cons in Hs. destruct Hs as [<-|Hs]; [now apply zprod_nonneg|]. now apply IH. }
      rewrite (C23_dot O HR true true d e (a k) (b k) h); auto.
      * cbn [bind]. now rewrite Dd.
      * rewrite Dd. destruct rank; [lia|discriminate].
      * congruence.
      * intros _. now apply contiguous_rowmaj.
      * intros _. now apply contiguous_rowmaj.
      * apply (ST d); auto.
      * apply (ST e); auto. rewrite De, <- Dd. auto.
      * rewrite Rd. apply rms_length.
      * rewrite Re. apply rms_length.
Qed.
Print Assumptions C48_dot.

(** dot for different block structures of the same extent (BLA 194-200): the
    call is not done block-wise but converts both operands to dense tensors
    (at [pA] and [pB], each by a parallel loop) and takes their dot product. *)
Theorem C48_dot_dense :
  forall (O : Ops), is_ring O ->
  forall (rank : nat) (A B : bt) (sA sB : list Z) (a b : nat -> list Z -> car O) (h : heap (car O)) (order : list nat)
         (pA pB : Z) (thA thB : list (list (nat * list Z))),
    (0 < rank)%nat -> bt_ok rank A sA -> bt_ok rank B sB -> bt_holds h A a -> bt_holds h B b -> bt_dim A = bt_dim B ->
    let n := bt_dim A ^ Z.of_nat rank in
    (forall z, pA <= z < pA + n \/ pB <= z < pB + n -> h z = None) -> pA + n <= pB \/ pB + n <= pA ->
    Permutation (concat thA) (flat_map (dense_items A) (seq 0 (length (bt_blocks A)))) ->
    Permutation (concat thB) (flat_map (dense_items B) (seq 0 (length (bt_blocks B)))) ->
    let outA := dense_desc rank A pA in let outB := dense_desc rank B pB in
    (sA <> sB -> bt_dot A B order h = None) /\
    par_spec (map (fun r => pseq r (dense_body outA A)) thA) (dense_start rank A pA h) (fun h1 =>
    par_spec (map (fun r => pseq r (dense_body outB B)) thB) (dense_start rank B pB h1) (fun h2 =>
      la_dot true true outA outB h2 =
      Ok (lsum (indices (repeat (bt_dim A) rank)) (fun idx => omul (dense sA a idx) (dense sB b idx))))).
Proof.
  intros O HR rank A B sA sB a b h order pA pB thA thB Hr OA OB HA HB Hdim n Hfree Hd PA PB outA outB.
  assert (Hd0 : forall t s, bt_ok rank t s -> 0 <= bt_dim t).
  { intros t s (H1 & _ & _ & (_ & _ & H2)). rewrite H2. now apply off_nonneg. }
  assert (HnA := Hd0 _ _ OA). assert (HnB := Hd0 _ _ OB).
  assert (NEr : forall x, repeat (x : Z) rank <> []) by (intros x; destruct rank; [lia|discriminate]).
  assert (Pz : forall x, 0 <= x -> zprod (repeat x rank) = x ^ Z.of_nat rank).
  { intros x Hx. clear - Hx. induction rank as [|r IH]; [reflexivity|]. rewrite Nat2Z.inj_succ, Z.pow_succ_r by lia.
    cbn [repeat zprod]. now rewrite IH. }
  assert (NN : forall x, 0 <= x -> Forall (fun d => 0 <= d) (repeat x rank)).
  { intros x Hx. apply Forall_forall. intros y Hy. apply repeat_spec in Hy. lia. }
  assert (CA : forall z, cell outA z <-> pA <= z < pA + n).
  { intros z. unfold outA, dense_desc. rewrite tensor_cell, Pz by auto. reflexivity. }
  assert (CB : forall z, cell outB z <-> pB <= z < pB + n).
  { intros z. unfold outB, dense_desc. rewrite tensor_cell, Pz by auto. rewrite <- Hdim. reflexivity. }
  split.
  - intros Hne. unfold bt_dot. destruct (Nat.eqb (length (bt_blocks A)) (length (bt_blocks B))) eqn:EL; auto. cbn [negb].
    apply Nat.eqb_eq in EL. match goal with |- context [if ?c then _ else _] => destruct c as [E|_]; auto end.
    exfalso. apply Hne. destruct OA as (NA & LA & BA & (X1 & X2 & _)). destruct OB as (NB & LB & BB & (Y1 & Y2 & _)).
    apply nth_ext with (d := 0) (d' := 0); [congruence|]. intros k Hk.
    destruct (nth_error (bt_blocks A) k) as [d|] eqn:Ed; [|apply nth_error_None in Ed; lia].
    destruct (nth_error (bt_blocks B) k) as [d'|] eqn:Ed'; [|apply nth_error_None in Ed'; lia].
    assert (R1 := X2 k ltac:(lia)). assert (R2 := Y2 k ltac:(lia)). rewrite E in R1. rewrite R1 in R2. injection R2 as E1 E2.
    rewrite !off_S in E2. lia.
  - eapply par_spec_weaken; [|apply (C26_to_dense O rank A sA a h pA thA Hr OA HA); auto].
    intros h1 (E1 & K1 & G1 & F1). fold outA in E1, K1, G1, F1.
    assert (HB1 : bt_holds h1 B b).
    { intros k d Ed j Hj. rewrite F1; [now apply (HB k d)|]. rewrite CA. intros Hc. specialize (Hfree _ (or_introl Hc)).
      rewrite (HB k d Ed j Hj) in Hfree. discriminate. }
    eapply par_spec_weaken; [|apply (C26_to_dense O rank B sB b h1 pB thB Hr OB HB1); auto].
    2:{ intros z Hz. rewrite <- Hdim in Hz. fold n in Hz. rewrite F1; [auto|]. rewrite CA. lia. }
    intros h2 (E2 & K2 & G2 & F2). fold outB in E2, K2, G2, F2.
    assert (G1' : holds h2 outA (dense sA a)).
    { intros idx Hi. rewrite F2; [now apply G1|]. rewrite CB. intros Hc.
      assert (Hc2 : cell outA (addr outA idx)) by (exists idx; auto). rewrite CA in Hc2. lia. }
    assert (ST : forall x p, 0 <= x -> forall s, In s (dstrides (tensor_ctor p (repeat x rank))) -> 0 <= s).
    { intros x p Hx. cbn [dstrides tensor_ctor]. assert (NX := NN x Hx). revert NX. generalize (repeat x rank). clear.
      induction l as [|y l IH]; intros HF s Hs.
      - rewrite rms_nil in Hs. destruct Hs.
      - inversion HF; subst. rewrite rms_cons in Hs. destruct Hs as [<-|Hs]; [now apply zprod_nonneg|]. now apply IH. }
    rewrite (C23_dot O HR true true outA outB (dense sA a) (dense sB b) h2); auto.
    + rewrite E1. auto.
    + unfold nonneg. rewrite E1. auto.
    + congruence.
    + apply (ST (bt_dim A) pA); auto.
    + apply (ST (bt_dim B) pB); auto.
    + unfold outA, dense_desc. cbn [dstrides ddims tensor_ctor]. apply rms_length.
    + unfold outB, dense_desc. cbn [dstrides ddims tensor_ctor]. apply rms_length.
Qed.
Print Assumptions C48_dot_dense.

(** Blocks 1, 2 against 2, 1. *)
Example C48_dot_dense_case :
  let A := bt_ctor 2 99 [0; 10] [1; 2] in let B := bt_ctor 2 99 [20; 30] [2; 1] in
  let h : heap Z := fun z => if (0 <=? z) && (z <? 40) then Some (z + 1) else None in
  let run p := forM p (fun q h => r <- run q h ;; Ok (snd r)) in
  bt_dim A = bt_dim B /\ bt_dot (O := ZOps) A B [0%nat; 1%nat] h = None /\
  (h1 <- run [pseq (flat_map (dense_items A) [0%nat; 1%nat]) (dense_body (O := ZOps) (dense_desc 2 A 100) A)] (dense_start (O := ZOps) 2 A 100 h) ;;
   h2 <- run [pseq (flat_map (dense_items B) [0%nat; 1%nat]) (dense_body (O := ZOps) (dense_desc 2 B 200) B)] (dense_start (O := ZOps) 2 B 200 h1) ;;
   la_dot (O := ZOps) true true (dense_desc 2 A 100) (dense_desc 2 B 200) h2) = Ok (1 * 21 + 11 * 24 + 14 * 31).
Proof. cbv zeta. split; [reflexivity|split]; vm_compute; reflexivity. Qed.

(** Scaling a row of the block-diagonal matrix. *)
Theorem C48_scale_row :
  forall (O : Ops), is_ring O ->
  forall (alpha : car O) (A : bt) (sizes : list Z) (a : nat -> list Z -> car O) (h : heap (car O)) (row : Z),
    bt_ok 2 A sizes -> bt_holds h A a -> bt_sep A ->
    (~ (0 <= row < bt_dim A) -> bt_scale_row row alpha A h = Throw) /\
    (0 <= row < bt_dim A ->
     exists h' a', bt_scale_row row alpha A h = Ok h' /\ bt_holds h' A a' /\
      (forall i j, dense sizes a' [i; j] = (if i =? row then omul alpha (dense sizes a [i; j]) else dense sizes a [i; j])) /\
      (forall z, ~ bt_cell A z -> h' z = h z)).
Proof.
  intros O HR alpha A sizes a h row OA HA SA.
  assert (OA' := OA). destruct OA' as (HN & HL & HB & HT). assert (HT' := HT). destruct HT' as (T1 & T2 & T3).
  unfold bt_scale_row, block_of. split.
  { intros Hr. rewrite T3 in Hr. now rewrite (find_range_out A sizes row HN HT Hr). }
  intros Hr. rewrite T3 in Hr. destruct (off_cover sizes row HN Hr) as (k & Hk & Hrk).
  rewrite (find_range_tiled A sizes row k HN HT Hk Hrk). cbn [bind]. rewrite Nat2Z.id.
  destruct (bt_block 2 A sizes k OA Hk) as (d & Ed & Dd & Rd). rewrite Ed, T2 by auto. cbn [fst].
  destruct (off_bounds sizes k HN Hk) as (B1 & B2 & B3 & B4). cbn [repeat] in Dd. set (n := nth k sizes 0) in *.
  assert (Sd : dstrides d = [n; 1]) by (apply (sq_mat d n Dd Rd)).
  assert (ES : slice d [SInt (row - off sizes k); SAll] = mkDesc (addr d [row - off sizes k; 0]) [n] [1]).
  { unfold slice, addr. rewrite Dd, Sd. simpl. unfold wrap_negative.
    destruct (Z.ltb_spec (row - off sizes k) 0); [lia|]. f_equal; lia. }
  rewrite ES. set (r0 := row - off sizes k) in *. assert (Hr0 : 0 <= r0 < n) by (unfold r0; lia).
  assert (AD : forall i j, addr d [i; j] = dbase d + i * n + j). { intros. unfold addr. rewrite Sd. simpl. lia. }
  set (row_d := mkDesc (addr d [r0; 0]) [n] [1]).
  destruct (C21_scale_partial O alpha row_d (fun idx => a k (r0 :: idx)) h) as (h' & E & V & F).
  - discriminate.
  - repeat constructor; simpl; lia.
  - repeat split.
  - intros idx Hi. simpl in Hi. apply inb1_inv in Hi as (j & -> & Hj).
    assert (V := HA k d Ed [r0; j] ltac:(rewrite Dd; apply inb2; auto)). rewrite <- V. f_equal. unfold row_d, addr.
    simpl. rewrite Sd. simpl. lia.
  - set (a' := fun k' idx => if andb (Nat.eqb k' k) (nth 0 idx (-1) =? r0) then omul alpha (a k' idx) else a k' idx).
    assert (CR : forall i j, 0 <= i < n -> 0 <= j < n -> (cell row_d (addr d [i; j]) <-> i = r0)).
    { intros i j Hi Hj. split.
      - intros (x & Hx & Ex). simpl in Hx. apply inb1_inv in Hx as (q & -> & Hq). unfold row_d, addr in Ex. simpl in Ex.
        rewrite Sd in Ex. simpl in Ex. nia.
      - intros ->. exists [j]. split; [apply inb1; auto|]. unfold row_d, addr. simpl. rewrite Sd. simpl. lia. }
    exists h', a'. split; [exact E|]. split.
    + intros k' d' Ed' idx Hi. destruct (bt_block 2 A sizes k' OA) as (d2 & Ed2 & Dd2 & Rd2).
      { rewrite <- HL. apply nth_error_Some. congruence. }
      assert (d2 = d') by congruence. subst d2. assert (Hi' := Hi). rewrite Dd2 in Hi. cbn [repeat] in Hi.
      apply inb2_inv in Hi as (i & j & -> & Hi & Hj). unfold a'. cbn [nth].
      destruct (Nat.eqb_spec k' k) as [->|Hkk]; cbn [andb].
      * assert (d' = d) by congruence. subst d'. destruct (Z.eqb_spec i r0) as [->|Hir].
        -- assert (V2 := V [j] ltac:(apply inb1; auto)). cbn beta in V2. rewrite <- V2. f_equal.
           unfold row_d, addr. simpl. rewrite Sd. simpl. lia.
        -- rewrite F; [now apply (HA k d Ed)|]. rewrite CR by auto. auto.
      * rewrite F; [now apply (HA k' d' Ed')|]. intros (x & Hx & Ex). simpl in Hx. apply inb1_inv in Hx as (q & -> & Hq).
        apply (SA k' k d' d Ed' Ed Hkk [i; j] [r0; q] Hi'); [rewrite Dd; apply inb2; auto|].
        rewrite Ex. unfold row_d, addr. simpl. rewrite Sd. simpl. lia.
    + split.
      * intros i j. destruct (in_blk_dec sizes [i; j]) as [(k' & Hk')|Hno].
        -- rewrite (dense_in O sizes a' _ k'), (dense_in O sizes a _ k'); auto; try discriminate. cbn [map]. unfold a'. cbn [nth].
           rewrite in_blk2 in Hk'. destruct (Nat.eqb_spec k' k) as [->|Hkk]; cbn [andb].
           ++ unfold r0. destruct (Z.eqb_spec (i - off sizes k) (row - off sizes k)); destruct (Z.eqb_spec i row); auto; lia.
           ++ destruct (Z.eqb_spec i row); auto. subst i. elim Hkk. apply (off_unique sizes row); tauto.
        -- rewrite !dense_out by auto. rewrite (omul_0_r HR). now destruct (i =? row).
      * intros z Hz. apply F. intros (x & Hx & ->). simpl in Hx. apply inb1_inv in Hx as (q & -> & Hq). apply Hz.
        exists k, d. split; auto. exists [r0; q]. split; [rewrite Dd; apply inb2; auto|].
        unfold row_d. unfold addr. simpl. rewrite Sd. simpl. lia.
Qed.
Print Assumptions C48_scale_row.

(** Missing: scaling a column also multiplies elements of other columns. *)
Theorem C48_scale_column_refuted :
  exists (A : bt) (h h' : heap Z),
    bt_ok 2 A [2; 1] /\ bt_sep A /\ bt_holds h A (fun k idx => if Nat.eqb k 0 then 1 + 2 * nth 0 idx 0 + nth 1 idx 0 else 5) /\
    @bt_scale_column ZOps 0 10 A h = Ok h' /\
    h (addr (nth 0 (bt_blocks A) (mkDesc 0 [] [])) [0; 1]) = Some 2 /\
    h' (addr (nth 0 (bt_blocks A) (mkDesc 0 [] [])) [0; 1]) = Some 20.
Proof.
  exists (bt_ctor 2 100 [0; 10] [2; 1]).
  exists (fun z => if (0 <=? z) && (z <? 4) then Some (z + 1) else if z =? 10 then Some 5 else None). eexists.
  split.
  { split; [repeat constructor; lia|]. split; [reflexivity|]. split.
    - intros [|[|k]] d E; simpl in E; try (destruct k; discriminate); injection E as <-; repeat split; reflexivity.
    - split; [reflexivity|]. split; [|reflexivity]. intros [|[|k]] Hk; simpl in Hk; try lia; reflexivity. }
  split.
  { intros [|[|i]] [|[|j]] d e Ed Ee Hij; simpl in Ed, Ee; try (destruct i; discriminate); try (destruct j; discriminate);
      try congruence; injection Ed as <-; injection Ee as <-; intros x y Hx Hy; simpl in Hx, Hy;
      apply inb2_inv in Hx as (? & ? & -> & ? & ?); apply inb2_inv in Hy as (? & ? & -> & ? & ?); unfold addr; simpl; lia. }
  split.
  { intros [|[|k]] d E; simpl in E; try (destruct k; discriminate); injection E as <-; intros idx Hi; simpl in Hi;
      apply inb2_inv in Hi as (i & j & -> & H1 & H2); unfold addr; simpl.
    - assert (i = 0 \/ i = 1) as [-> | ->] by lia; assert (j = 0 \/ j = 1) as [-> | ->] by lia; reflexivity.
    - assert (i = 0) by lia. assert (j = 0) by lia. subst. reflexivity. }
  split; [vm_compute; reflexivity|]. split; vm_compute; reflexivity.
Qed.
Print Assumptions C48_scale_column_refuted.

Example C48_case :
  let A := bt_ctor 2 100 [0; 10] [2; 1] in let B := bt_ctor 2 100 [20; 30] [2; 1] in
  let h : heap Z := fun z => if (0 <=? z) && (z <? 60) then Some (z + 1) else None in
  @bt_dot ZOps A B [1%nat; 0%nat] h = Some (Ok (11 * 31 + (1 * 21 + 2 * 22 + 3 * 23 + 4 * 24))) /\
  (exists h', @bt_scale ZOps 3 A [1%nat; 0%nat] h = Ok h' /\ h' 3 = Some 12 /\ h' 10 = Some 33 /\ h' 4 = Some 5) /\
  (exists h', @bt_axpby ZOps 2 5 A B [0%nat; 1%nat] h = Ok h' /\ h' 21 = Some (2 * 2 + 5 * 22) /\ h' 30 = Some (2 * 11 + 5 * 31)) /\
  (exists h', @bt_scale_row ZOps 2 7 A h = Ok h' /\ h' 10 = Some 77 /\ h' 0 = Some 1).
Proof.
  split; [vm_compute; reflexivity|].
  split; [eexists; split; [vm_compute; reflexivity|]; repeat split; vm_compute; reflexivity|].
  split; [eexists; split; [vm_compute; reflexivity|]; repeat split; vm_compute; reflexivity|].
  eexists; split; [vm_compute; reflexivity|]; repeat split; vm_compute; reflexivity.
Qed.
