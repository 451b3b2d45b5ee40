(** * L_MixEinsum: a block tensor as a tiled tensor. *)
From Coq Require Import List ZArith Lia Bool Permutation Ring.
From Verif Require Import Base Heap Conc M_Addr S_Addr L_Addr M_Elt L_Elt M_Einsum S_Einsum L_Einsum T_Einsum
  S_Blas M_Blas L_Blas M_Dispatch S_Dispatch L_Dispatch L_Paths T_Dispatch M_Block S_Block L_Block M_Tiled S_Tiled L_Tiled L_Tiled2
  T_Tiled M_BlockEinsum S_BlockEinsum L_BlockEinsum T_BlockEinsum M_TileEinsum S_TileEinsum L_TileEinsum T_TileEinsum
  M_MixEinsum S_MixEinsum.
Import ListNotations.
Open Scope Z_scope.

Lemma map_rep : forall X Y (f : X -> Y) x n, map f (repeat x n) = repeat (f x) n.
Proof. induction n; simpl; congruence. Qed.

Definition diag_key (rank k : nat) : list Z := repeat (Z.of_nat k) rank.
Definition diag_tiles (rank k : nat) (bs : list desc) : list (list Z * desc) :=
  combine (map (diag_key rank) (seq k (length bs))) bs.
Definition as_tt (rank : nat) (sizes : list Z) (t : bt) : tt :=
  mkTT (repeat sizes rank) (map (fun s => map (off s) (seq 0 (length s))) (repeat sizes rank))
       (dense_dims (repeat sizes rank)) (diag_tiles rank 0 (bt_blocks t)).

Lemma diag_key_inj : forall rank j k, (0 < rank)%nat -> diag_key rank j = diag_key rank k -> j = k.
Proof. intros [|rank] j k H E; [lia|]. unfold diag_key in E. simpl in E. injection E as E _. lia. Qed.

Lemma find_diag : forall rank bs k c, (0 < rank)%nat -> forall d, find_tile c (diag_tiles rank k bs) = Some d <->
  exists n, c = diag_key rank (k + n) /\ nth_error bs n = Some d.
Proof.
  intros rank bs. induction bs as [|b bs IH]; intros k c Hr d; unfold diag_tiles; simpl.
  - split; [discriminate|]. intros ([|n] & _ & H); discriminate.
  - destruct (list_eq_dec Z.eq_dec (diag_key rank k) c) as [E|N].
    + split.
      * intros H. exists 0%nat. rewrite Nat.add_0_r. auto.
      * intros ([|n] & E2 & H); [exact H|]. exfalso. rewrite E2 in E. apply diag_key_inj in E; auto. lia.
    + fold (diag_tiles rank (S k) bs). rewrite (IH (S k) c Hr d). split.
      * intros (n & E & H). exists (S n). split; auto. rewrite E. f_equal. lia.
      * intros ([|n] & E & H); [rewrite Nat.add_0_r in E; congruence|]. exists n. split; auto. rewrite E. f_equal. lia.
Qed.

Lemma find_diag0 : forall rank t c d sizes, (0 < rank)%nat -> find_tile c (tt_tiles (as_tt rank sizes t)) = Some d <->
  exists n, c = diag_key rank n /\ nth_error (bt_blocks t) n = Some d.
Proof. intros. unfold as_tt. cbn [tt_tiles]. rewrite find_diag by auto. reflexivity. Qed.

Lemma repeat_eq : forall (c : list Z), forallb (fun x => x =? hd 0 c) c = true <-> c = repeat (hd 0 c) (length c).
Proof.
  intros c. generalize (hd 0 c) as x. induction c as [|y c IH]; intros x; simpl; [tauto|].
  rewrite andb_true_iff, Z.eqb_eq, IH. split; [intros (-> & E); now f_equal|intros E; injection E; auto].
Qed.

Lemma inb_repeat_hd : forall n rank c, (0 < rank)%nat -> inb c (repeat n rank) -> 0 <= hd 0 c < n /\ length c = rank.
Proof.
  intros n [|rank] c Hr H; [lia|]. split; [inversion H; auto|]. rewrite (inb_length _ _ H), repeat_length. auto.
Qed.

Lemma tile_dims_diag : forall rank sizes k, tile_dims (repeat sizes rank) (diag_key rank k) = repeat (nth k sizes 0) rank.
Proof.
  induction rank as [|rank IH]; intros; simpl; auto. unfold tile_extent. rewrite Nat2Z.id. f_equal. apply IH.
Qed.

Lemma diag_nodup : forall rank bs k, (0 < rank)%nat -> NoDup (map fst (diag_tiles rank k bs)).
Proof.
  intros rank bs. induction bs as [|b bs IH]; intros k Hr; unfold diag_tiles; simpl; constructor; [|apply IH; auto].
  intros H. apply in_map_iff in H as ((c & d) & E & H). simpl in E. subst c.
  apply in_combine_l in H. apply in_map_iff in H as (j & E & Hj). apply diag_key_inj in E; auto. apply in_seq in Hj. lia.
Qed.

Lemma as_tt_ok : forall rank t sizes, (0 < rank)%nat -> bt_ok rank t sizes -> bt_sep t -> tt_ok (as_tt rank sizes t).
Proof.
  intros rank t sizes Hr (HN & HL & HB & HT) HS. constructor; simpl.
  - split; [destruct rank; [lia|discriminate]|]. apply Forall_forall. intros s Hs. apply repeat_spec in Hs. now subst.
  - reflexivity.
  - reflexivity.
  - apply diag_nodup; auto.
  - intros c d H. apply (find_diag0 rank t c d sizes Hr) in H as (n & -> & H). split.
    + assert (Hn : (n < length sizes)%nat) by (rewrite <- HL; apply nth_error_Some; congruence).
      rewrite map_rep. apply inb_repeat; [apply repeat_length|]. apply Forall_forall. intros x Hx. apply repeat_spec in Hx. lia.
    + rewrite tile_dims_diag. destruct (HB n d H) as (E & K). apply contiguous_rowmaj in K.
      destruct d as [db dd ds]. simpl in *. unfold rowmaj in K. simpl in K. subst. reflexivity.
  - intros c c' d d' H1 H2 Hne. apply (find_diag0 rank t c d sizes Hr) in H1 as (n & -> & H1).
    apply (find_diag0 rank t c' d' sizes Hr) in H2 as (n' & -> & H2). apply (HS n n' d d'); auto; congruence.
Qed.

Lemma pos_diag : forall rank sizes idx c j, Forall (fun n => 0 <= n) sizes -> tile_pos (repeat sizes rank) idx c j ->
  length idx = rank /\ length c = rank /\
  (forall k, c = diag_key rank k -> (0 < rank)%nat -> in_blk sizes k idx /\ j = map (fun x => x - off sizes k) idx) /\
  (forall k, in_blk sizes k idx -> c = diag_key rank k).
Proof.
  induction rank as [|rank IH]; intros sizes idx c j HN P; simpl in P.
  - inversion P; subst. repeat split; auto; intros; lia.
  - inversion P as [|s ss x xs c0 cs j0 js H1 H2 H3 H4]; subst. destruct (IH sizes xs cs js HN H4) as (L1 & L2 & K1 & K2).
    simpl. split; [auto|]. split; [auto|]. split.
    + intros k E _. unfold diag_key in E. simpl in E. injection E as E1 E2. subst c0. rewrite Nat2Z.id in *.
      destruct rank as [|rank].
      * inversion H4; subst. split; [|f_equal; lia]. split; [lia|]. repeat constructor; rewrite ?off_S; lia.
      * destruct (K1 k E2 ltac:(lia)) as ((H5 & H6) & ->). split; [|f_equal; lia].
        split; auto. constructor; auto. rewrite off_S. lia.
    + intros k (Hk & HF). inversion HF as [|? ? Hx HF']; subst. unfold diag_key. simpl. f_equal.
      * assert (Z.to_nat c0 = k); [|lia]. apply (off_unique sizes (off sizes (Z.to_nat c0) + j0)); auto. rewrite off_S. lia.
      * apply K2. split; auto.
Qed.

Lemma as_tt_holds : forall (O : Ops) rank t sizes (h : heap (car O)) f, (0 < rank)%nat -> bt_ok rank t sizes ->
  (bt_holds h t f <-> tt_holds h (as_tt rank sizes t) (dense sizes f)).
Proof.
  intros O rank t sizes h f Hr (HN & HL & HB & HT). split.
  - intros H idx c j P. unfold as_tt in P. cbn [tt_sizes] in P. destruct (pos_diag rank sizes idx c j HN P) as (L1 & L2 & K1 & K2).
    assert (Hne : idx <> []) by (destruct idx; [simpl in L1; lia|discriminate]).
    destruct (find_tile c (tt_tiles (as_tt rank sizes t))) as [d|] eqn:E.
    + apply find_diag0 in E as (n & -> & E); auto. destruct (K1 n eq_refl Hr) as (Hin & ->).
      rewrite (dense_in O sizes f idx n) by auto. apply (H n d E). rewrite (proj1 (HB n d E)). apply in_blk_inb; auto.
    + apply dense_out. intros k Hk. specialize (K2 k Hk). destruct (nth_error (bt_blocks t) k) as [d|] eqn:Ek.
      * assert (X : find_tile c (tt_tiles (as_tt rank sizes t)) = Some d) by (apply find_diag0; eauto). congruence.
      * apply nth_error_None in Ek. destruct Hk as (Hk & _). lia.
  - intros H k d E j Hj. assert (Hk : (k < length sizes)%nat) by (rewrite <- HL; apply nth_error_Some; congruence).
    rewrite (proj1 (HB k d E)) in Hj.
    assert (Hin := inb_in_blk rank sizes k j Hk Hj). set (idx := map (fun x => off sizes k + x) j) in *.
    assert (Lj : length j = rank) by (rewrite (inb_length _ _ Hj), repeat_length; auto).
    assert (P : tile_pos (tt_sizes (as_tt rank sizes t)) idx (diag_key rank k) j).
    { unfold as_tt. cbn [tt_sizes]. unfold idx. clear - Hk Hj. revert j Hj. induction rank as [|rank IH]; intros j Hj; simpl in *; inversion Hj; subst; simpl.
      - constructor.
      - constructor; rewrite ?Nat2Z.id; auto. lia. }
    assert (X := H idx (diag_key rank k) j P).
    assert (E2 : find_tile (diag_key rank k) (tt_tiles (as_tt rank sizes t)) = Some d) by (apply find_diag0; eauto).
    rewrite E2 in X. rewrite X. f_equal. rewrite (dense_in O sizes f idx k); auto.
    + unfold idx. now rewrite shift_back.
    + unfold idx. destruct j; [simpl in Lj; lia|discriminate].
Qed.

Lemma as_tt_cell : forall rank t sizes z, (0 < rank)%nat -> (bt_cell t z <-> tt_cell (as_tt rank sizes t) z).
Proof.
  intros rank t sizes z Hr. split.
  - intros (k & d & E & H). exists (diag_key rank k), d. split; auto. apply find_diag0; eauto.
  - intros (c & d & E & H). apply find_diag0 in E as (k & _ & E); auto. exists k, d. auto.
Qed.

(** ** Operands *)
Definition op_tt (lab : nat -> list Z) (I : list nat) (o : operand) : tt :=
  match o with OBlock t => as_tt (length I) (lab (hd 0%nat I)) t | OTile t => t end.

Lemma map_lab_repeat : forall (lab : nat -> list Z) I sizes, (forall l, In l I -> lab l = sizes) -> map lab I = repeat sizes (length I).
Proof. intros lab I sizes. induction I as [|l I IH]; intros H; simpl; [auto|]. rewrite (H l), IH; simpl; auto. intros; apply H; simpl; auto. Qed.

Lemma stands_tt : forall (O : Ops) lab I (h : heap (car O)) o f, stands lab I h o f ->
  tt_ok (op_tt lab I o) /\ tt_sizes (op_tt lab I o) = map lab I /\ tt_holds h (op_tt lab I o) f /\
  (forall z, op_cell o z <-> tt_cell (op_tt lab I o) z) /\ grid (op_tt lab I o) = op_grid (length I) o.
Proof.
  intros O lab I h o f H. destruct H as [t sizes f Hne Hl Ok1 Sp HH|t f Ok1 Hs HH].
  - assert (Hr : (0 < length I)%nat) by (destruct I; [congruence|simpl; lia]).
    assert (Es : lab (hd 0%nat I) = sizes) by (apply Hl; destruct I; [congruence|simpl; auto]).
    cbn [op_tt op_cell op_grid]. rewrite Es. split; [apply as_tt_ok; auto|].
    split; [simpl; symmetry; apply map_lab_repeat; auto|]. split; [apply as_tt_holds; auto|]. split; [intros z; apply as_tt_cell; auto|].
    unfold grid. simpl. rewrite map_rep. destruct Ok1 as (_ & -> & _). reflexivity.
  - cbn [op_tt op_cell op_grid]. split; [auto|]. split; [auto|]. split; [auto|]. split; [tauto|auto].
Qed.

Lemma find_op : forall lab I t c, (0 < length I)%nat -> length c = length I ->
  Forall (fun x => 0 <= x) c ->
  find_tile c (tt_tiles (op_tt lab I (OBlock t))) =
  (if forallb (fun x => x =? hd 0 c) c then nth_error (bt_blocks t) (Z.to_nat (hd 0 c)) else None).
Proof.
  intros lab I t c Hr Hc HF. cbn [op_tt]. destruct (find_tile c _) as [d|] eqn:E.
  - apply find_diag0 in E as (n & -> & E); auto. assert (Eh : hd 0 (diag_key (length I) n) = Z.of_nat n) by (destruct (length I); [lia|reflexivity]).
    rewrite Eh, Nat2Z.id. replace (forallb _ _) with true; [congruence|]. symmetry. rewrite <- Eh. apply repeat_eq. rewrite Eh.
    unfold diag_key. rewrite repeat_length. reflexivity.
  - destruct (forallb (fun x => x =? hd 0 c) c) eqn:F; auto. destruct (nth_error (bt_blocks t) (Z.to_nat (hd 0 c))) as [d|] eqn:En; auto.
    exfalso. apply repeat_eq in F. assert (X : find_tile c (tt_tiles (as_tt (length I) (lab (hd 0%nat I)) t)) = Some d); [|congruence].
    apply find_diag0; auto. exists (Z.to_nat (hd 0 c)). split; auto. unfold diag_key. rewrite Z2Nat.id, <- Hc; auto.
    destruct c; simpl; [lia|]. inversion HF; auto.
Qed.

(** The tests of the loop, in terms of the tiled form of the operand. *)
Lemma op_tests : forall (O : Ops) lab I (h : heap (car O)) o f c, stands lab I h o f ->
  inb c (map (fun s => Z.of_nat (length s)) (map lab I)) ->
  let t := op_tt lab I o in
  (off_diagonal o c = true /\ has_tile_c t c = false) \/
  (off_diagonal o c = false /\ absent o c = Ok (negb (has_tile_c t c) || has_zero_size t c) /\
   (has_tile_c t c = true -> piece o c = const_tile t c)).
Proof.
  intros O lab I h o f c H Ic t. assert (HS := stands_tt O lab I h o f H). destruct HS as (Ot & St & _ & _ & _). fold t in Ot, St.
  assert (Ic' := Ic). rewrite <- St in Ic'.
  destruct H as [b sizes f Hne Hl Ok1 Sp HH|b f Ok1 Hs HH]; [|right; cbn; auto].
  assert (Hr : (0 < length I)%nat) by (destruct I; [congruence|simpl; lia]).
  assert (Es : lab (hd 0%nat I) = sizes) by (apply Hl; destruct I; [congruence|simpl; auto]).
  assert (Lc : length c = length I) by (rewrite (inb_length _ _ Ic), !map_length; auto).
  assert (Fc : Forall (fun x => 0 <= x) c) by (clear - Ic; induction Ic; constructor; auto; lia).
  rewrite (has_tile_c_inb t c Ic'). unfold t. rewrite (find_op lab I b c Hr Lc Fc).
  unfold off_diagonal. destruct (forallb (fun x => x =? hd 0 c) c) eqn:F; [right|left; auto].
  split; [reflexivity|].
  rewrite (map_lab_repeat lab I sizes Hl), map_rep in Ic. destruct (inb_repeat_hd _ _ _ Hr Ic) as (Hh & _).
  destruct Ok1 as (HN & HL & HB & HT). destruct (nth_error (bt_blocks b) (Z.to_nat (hd 0 c))) as [d|] eqn:En.
  2:{ apply nth_error_None in En. lia. }
  assert (Eb : block_at b (hd 0 c) = Ok d).
  { unfold block_at. destruct (Z.ltb_spec (hd 0 c) 0); [lia|]. now rewrite En. }
  split.
  - unfold absent. rewrite Eb. cbn [bind negb orb]. f_equal. unfold has_zero_size. fold t. rewrite St, (map_lab_repeat lab I sizes Hl).
    apply repeat_eq in F. rewrite F, Lc. destruct (HB _ _ En) as (Ed & _).
    assert (X := tile_dims_diag (length I) sizes (Z.to_nat (hd 0 c))). unfold diag_key in X. rewrite Z2Nat.id in X by lia.
    rewrite X. unfold tdim. rewrite Ed. destruct (length I) as [|r]; [lia|]. simpl. 
    destruct (Z.eqb_spec (nth (Z.to_nat (hd 0 c)) sizes 0) 0) as [E|E]; auto. simpl.
    symmetry. apply not_true_is_false. intros X2. apply existsb_exists in X2 as (x & Hx & Ex). apply repeat_spec in Hx. apply Z.eqb_eq in Ex. congruence.
  - intros _. unfold piece. rewrite Eb. symmetry. apply const_tile_inb; auto. unfold t. rewrite (find_op lab I b c Hr Lc Fc), F. exact En.
Qed.

Lemma mix_tile_step_eq : forall (O : Ops) al lab Ci Ai Bi (ab : car O) A B (h : heap (car O)) fa fb strides n s,
  stands lab Ai h A fa -> stands lab Bi h B fb ->
  inb (sentinel_to_indices n strides) (map (cnt lab) (unique (Ci ++ Ai ++ Bi))) ->
  mix_tile_step al (mkEin Ci Ai Bi) ab A B (unique (Ci ++ Ai ++ Bi)) strides n s =
  tile_step al (mkEin Ci Ai Bi) ab (op_tt lab Ai A) (op_tt lab Bi B) (unique (Ci ++ Ai ++ Bi)) strides n s.
Proof.
  intros O al lab Ci Ai Bi ab A B h fa fb strides n s HA HB Hix.
  set (U := unique (Ci ++ Ai ++ Bi)) in *.
  assert (Hlen : length (sentinel_to_indices n strides) = length U) by (rewrite (inb_length _ _ Hix), map_length; auto).
  set (te := upds U (sentinel_to_indices n strides) m1).
  assert (Hte : forall l, In l (Ci ++ Ai ++ Bi) -> 0 <= te l < cnt lab l).
  { intros l Hl. refine (upds_ok U _ m1 (cnt lab) (Ci ++ Ai ++ Bi) (unique_NoDup _) Hix _ l Hl).
    intros l' H1 H2. exfalso. apply H2. apply in_unique. auto. }
  unfold mix_tile_step, tile_step. cbn [eA eB eC]. rewrite !tile_coords_upds by (auto; apply unique_NoDup). fold te.
  assert (GA := in_grid lab Ai te ltac:(intros l Hl; apply Hte; rewrite !in_app_iff; auto)).
  assert (GB := in_grid lab Bi te ltac:(intros l Hl; apply Hte; rewrite !in_app_iff; auto)).
  destruct (op_tests O lab Ai h A fa _ HA GA) as [(-> & TA)|(-> & AA & PA)].
  { rewrite TA. reflexivity. }
  destruct (op_tests O lab Bi h B fb _ HB GB) as [(-> & TB)|(-> & AB & PB)].
  { rewrite TB. cbn [negb]. rewrite orb_true_r. reflexivity. }
  rewrite AA, AB. cbn [bind].
  destruct (has_tile_c (op_tt lab Ai A) (map te Ai)) eqn:TA; cbn [negb orb]; [|reflexivity].
  destruct (has_zero_size (op_tt lab Ai A) (map te Ai)) eqn:ZA; [rewrite !orb_true_r; cbn [orb]; rewrite ?orb_true_r; reflexivity|].
  destruct (has_tile_c (op_tt lab Bi B) (map te Bi)) eqn:TB; cbn [negb orb]; [|reflexivity].
  destruct (has_zero_size (op_tt lab Bi B) (map te Bi)) eqn:ZB; cbn [orb]; [reflexivity|].
  rewrite PA, PB by auto. reflexivity.
Qed.
