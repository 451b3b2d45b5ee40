(** * L_BlockLapack: products with block-diagonal matrices, loops that may stop. *)
From Coq Require Import List ZArith Lia Bool Permutation Ring.
From Verif Require Import Base Heap Conc M_Addr M_Elt M_Einsum M_Blas M_Block M_Lapack S_Addr S_Einsum S_Blas S_Block
  L_Addr L_Elt L_Einsum L_Blas L_Block S_Lapack L_Lapack.
Import ListNotations.
Open Scope Z_scope.

Section Alg.
  Context {O : Ops}.
  Hypothesis HR : is_ring O.
  Notation T := (car O).
  Variable sizes : list Z.
  Hypothesis HN : Forall (fun n => 0 <= n) sizes.
  Notation N := (off sizes (length sizes)).

  Lemma dense_at : forall (a : nat -> list Z -> T) k i j, (k < length sizes)%nat ->
    0 <= i < nth k sizes 0 -> 0 <= j < nth k sizes 0 ->
    dense sizes a [off sizes k + i; off sizes k + j] = a k [i; j].
  Proof.
    intros a k i j Hk Hi Hj. destruct (off_bounds sizes k HN Hk) as (B1 & B2 & B3 & B4).
    rewrite (dense_in O sizes a [off sizes k + i; off sizes k + j] k); auto; try discriminate.
    - cbn [map]. f_equal. f_equal; [lia|f_equal; lia].
    - apply in_blk2. lia.
  Qed.
  Lemma dense_off_row : forall (a : nat -> list Z -> T) k i j, (k < length sizes)%nat ->
    0 <= i < nth k sizes 0 -> ~ (off sizes k <= j < off sizes k + nth k sizes 0) ->
    dense sizes a [off sizes k + i; j] = o0.
  Proof.
    intros a k i j Hk Hi Hj. destruct (off_bounds sizes k HN Hk) as (B1 & B2 & B3 & B4).
    apply dense_out. intros k' Hk'. rewrite in_blk2 in Hk'. destruct Hk' as (K1 & K2 & K3).
    assert (k' = k) by (apply (off_unique sizes (off sizes k + i)); auto; lia). subst k'. lia.
  Qed.
  Lemma dense_off_col : forall (a : nat -> list Z -> T) k i j, (k < length sizes)%nat ->
    0 <= j < nth k sizes 0 -> ~ (off sizes k <= i < off sizes k + nth k sizes 0) ->
    dense sizes a [i; off sizes k + j] = o0.
  Proof.
    intros a k i j Hk Hi Hj. destruct (off_bounds sizes k HN Hk) as (B1 & B2 & B3 & B4).
    apply dense_out. intros k' Hk'. rewrite in_blk2 in Hk'. destruct Hk' as (K1 & K2 & K3).
    assert (k' = k) by (apply (off_unique sizes (off sizes k + j)); auto; lia). subst k'. lia.
  Qed.
  Lemma split_blk : forall i, 0 <= i < N -> exists k i', (k < length sizes)%nat /\ 0 <= i' < nth k sizes 0 /\ i = off sizes k + i'.
  Proof.
    intros i Hi. destruct (off_cover sizes i HN Hi) as (k & Hk & Hki).
    destruct (off_bounds sizes k HN Hk) as (B1 & B2 & B3 & B4).
    exists k, (i - off sizes k). repeat split; auto; lia.
  Qed.

  (** Product of a block-diagonal matrix with any matrix or vector. *)
  Lemma dense_sum_l : forall (a : nat -> list Z -> T) (x : Z -> T) k i, (k < length sizes)%nat -> 0 <= i < nth k sizes 0 ->
    zsum N (fun p => omul (dense sizes a [off sizes k + i; p]) (x p)) =
    zsum (nth k sizes 0) (fun p => omul (a k [i; p]) (x (off sizes k + p))).
  Proof.
    intros a x k i Hk Hi. destruct (off_bounds sizes k HN Hk) as (B1 & B2 & B3 & B4).
    rewrite (zsum_window O HR N (off sizes k) (nth k sizes 0)); auto; try lia.
    - apply zsum_ext. intros p Hp. now rewrite dense_at.
    - intros p Hp Hn. rewrite dense_off_row by auto. apply (omul_0_l HR).
  Qed.
  Lemma dense_sum_r : forall (a : nat -> list Z -> T) (x : Z -> T) k j, (k < length sizes)%nat -> 0 <= j < nth k sizes 0 ->
    zsum N (fun p => omul (x p) (dense sizes a [p; off sizes k + j])) =
    zsum (nth k sizes 0) (fun p => omul (x (off sizes k + p)) (a k [p; j])).
  Proof.
    intros a x k j Hk Hj. destruct (off_bounds sizes k HN Hk) as (B1 & B2 & B3 & B4).
    rewrite (zsum_window O HR N (off sizes k) (nth k sizes 0)); auto; try lia.
    - apply zsum_ext. intros p Hp. now rewrite dense_at.
    - intros p Hp Hn. rewrite dense_off_col by auto. apply (omul_0_r HR).
  Qed.

  (** Products of two block-diagonal matrices are taken block by block. *)
  Lemma dense_mmul : forall a b c : nat -> list Z -> T,
    (forall k, (k < length sizes)%nat -> agree (nth k sizes 0) (nth k sizes 0) (mmul (nth k sizes 0) (mx (a k)) (mx (b k))) (mx (c k))) ->
    agree N N (mmul N (mx (dense sizes a)) (mx (dense sizes b))) (mx (dense sizes c)).
  Proof.
    intros a b c H i j Hi Hj. destruct (split_blk i Hi) as (k & i' & Hk & Hi' & ->).
    unfold mmul, mx. rewrite (dense_sum_l a (fun p => dense sizes b [p; j])) by auto.
    destruct (off_bounds sizes k HN Hk) as (B1 & B2 & B3 & B4).
    destruct (Z_le_gt_dec (off sizes k) j) as [L|L]; [destruct (Z_lt_ge_dec j (off sizes k + nth k sizes 0)) as [L2|L2]|].
    - replace j with (off sizes k + (j - off sizes k)) by lia. rewrite dense_at by lia.
      change (c k [i'; j - off sizes k]) with (mx (c k) i' (j - off sizes k)). rewrite <- (H k Hk) by lia.
      apply zsum_ext. intros p Hp. rewrite dense_at by lia. reflexivity.
    - rewrite dense_off_row by lia. apply (zsum_zero O HR). intros p Hp. rewrite dense_off_row by lia. apply (omul_0_r HR).
    - rewrite dense_off_row by lia. apply (zsum_zero O HR). intros p Hp. rewrite dense_off_row by lia. apply (omul_0_r HR).
  Qed.
  Lemma dense_ident : agree N N (mx (dense sizes (fun _ idx => ident (nth 0 idx 0) (nth 1 idx 0)))) (@ident O).
  Proof.
    intros i j Hi Hj. destruct (split_blk i Hi) as (k & i' & Hk & Hi' & ->). unfold mx.
    destruct (off_bounds sizes k HN Hk) as (B1 & B2 & B3 & B4).
    destruct (Z_le_gt_dec (off sizes k) j) as [L|L]; [destruct (Z_lt_ge_dec j (off sizes k + nth k sizes 0)) as [L2|L2]|].
    - replace j with (off sizes k + (j - off sizes k)) by lia. rewrite dense_at by lia. cbn [nth]. unfold ident.
      destruct (Z.eqb_spec i' (j - off sizes k)), (Z.eqb_spec (off sizes k + i') (off sizes k + (j - off sizes k))); auto; lia.
    - rewrite dense_off_row by lia. unfold ident. destruct (Z.eqb_spec (off sizes k + i') j); auto; lia.
    - rewrite dense_off_row by lia. unfold ident. destruct (Z.eqb_spec (off sizes k + i') j); auto; lia.
  Qed.
  Lemma dense_trn : forall (a : nat -> list Z -> T),
    agree N N (mx (dense sizes (fun k idx => a k [nth 1 idx 0; nth 0 idx 0]))) (trn (mx (dense sizes a))).
  Proof.
    intros a i j Hi Hj. destruct (split_blk i Hi) as (k & i' & Hk & Hi' & ->). unfold mx, trn.
    destruct (off_bounds sizes k HN Hk) as (B1 & B2 & B3 & B4).
    destruct (Z_le_gt_dec (off sizes k) j) as [L|L]; [destruct (Z_lt_ge_dec j (off sizes k + nth k sizes 0)) as [L2|L2]|].
    - replace j with (off sizes k + (j - off sizes k)) by lia. rewrite !dense_at by lia. reflexivity.
    - rewrite dense_off_row, dense_off_col by lia. reflexivity.
    - rewrite dense_off_row, dense_off_col by lia. reflexivity.
  Qed.
  Lemma dense_inverse : forall a b : nat -> list Z -> T,
    (forall k, (k < length sizes)%nat -> inverse (nth k sizes 0) (mx (a k)) (mx (b k))) ->
    inverse N (mx (dense sizes a)) (mx (dense sizes b)).
  Proof.
    intros a b H. split; (eapply agree_trans; [apply (dense_mmul _ _ (fun _ idx => ident (nth 0 idx 0) (nth 1 idx 0)))|apply dense_ident]);
      intros k Hk; destruct (H k Hk); assumption.
  Qed.
  Lemma dense_inverse_inv : forall (a : nat -> list Z -> T) B k, (k < length sizes)%nat -> inverse N (mx (dense sizes a)) B ->
    inverse (nth k sizes 0) (mx (a k)) (fun i j => B (off sizes k + i) (off sizes k + j)).
  Proof.
    intros a B k Hk (H1 & H2). destruct (off_bounds sizes k HN Hk) as (B1 & B2 & B3 & B4). split; intros i j Hi Hj.
    - specialize (H1 (off sizes k + i) (off sizes k + j) ltac:(lia) ltac:(lia)). unfold mmul, mx in H1.
      rewrite (dense_sum_l a (fun p => B p (off sizes k + j))) in H1 by auto. unfold mmul, mx. rewrite H1.
      unfold ident. destruct (Z.eqb_spec i j), (Z.eqb_spec (off sizes k + i) (off sizes k + j)); auto; lia.
    - specialize (H2 (off sizes k + i) (off sizes k + j) ltac:(lia) ltac:(lia)). unfold mmul, mx in H2.
      rewrite (dense_sum_r a (fun p => B (off sizes k + i) p)) in H2 by auto. unfold mmul, mx. rewrite H2.
      unfold ident. destruct (Z.eqb_spec i j), (Z.eqb_spec (off sizes k + i) (off sizes k + j)); auto; lia.
  Qed.
  Lemma dense_orthogonal : forall v : nat -> list Z -> T,
    (forall k, (k < length sizes)%nat -> orthogonal (nth k sizes 0) (mx (v k))) -> orthogonal N (mx (dense sizes v)).
  Proof.
    intros v H. unfold orthogonal. eapply inverse_ext; [apply agree_refl|apply dense_trn|].
    apply dense_inverse. intros k Hk. exact (H k Hk).
  Qed.
End Alg.

(** [forM_regions] for steps that may stop the program. *)
Lemma forM_regions_or : forall X T (own : X -> Z -> Prop) (P : X -> heap T -> Prop) (Bad : X -> Prop)
    (f : X -> heap T -> res (heap T)) l h,
  NoDup l ->
  (forall x y a, In x l -> In y l -> own x a -> own y a -> x = y) ->
  (forall x h1 h2, In x l -> (forall a, own x a -> h1 a = h2 a) -> P x h1 -> P x h2) ->
  (forall x h1, In x l -> (forall a, own x a \/ (forall y, In y l -> ~ own y a) -> h1 a = h a) ->
     (f x h1 = Throw /\ Bad x) \/
     exists h2, f x h1 = Ok h2 /\ P x h2 /\ (forall a, ~ own x a -> h2 a = h1 a)) ->
  (forM l f h = Throw /\ exists x, In x l /\ Bad x) \/
  exists h', forM l f h = Ok h' /\ (forall x, In x l -> P x h') /\
    (forall a, (forall x, In x l -> ~ own x a) -> h' a = h a).
Proof.
  intros X T own P Bad f l h Hnd Hown HP Hf.
  assert (G : forall r done h1, incl r l -> NoDup r -> incl done l -> (forall x, In x r -> ~ In x done) ->
    (forall x, In x done -> P x h1) ->
    (forall a, (forall x, In x done -> ~ own x a) -> h1 a = h a) ->
    (forM r f h1 = Throw /\ exists x, In x r /\ Bad x) \/
    exists h', forM r f h1 = Ok h' /\ (forall x, In x (done ++ r) -> P x h') /\
      (forall a, (forall x, In x (done ++ r) -> ~ own x a) -> h' a = h a)).
  { induction r as [|x r IH]; intros done h1 Hin Hn Hd Hx HPd Hfr.
    - right. exists h1. rewrite app_nil_r. auto.
    - inversion Hn as [|? ? Hni Hn']; subst. assert (Hxl : In x l) by (apply Hin; now left).
      destruct (Hf x h1 Hxl) as [(E & HB)|(h2 & E & P2 & F2)].
      { intros a [Ha|Ha]; apply Hfr; intros y Hy Hya.
        - assert (x = y) by (eapply Hown; eauto). subst y. apply (Hx x); auto. now left.
        - apply (Ha y); auto. }
      { left. simpl. rewrite E. split; auto. exists x. split; simpl; auto. }
      simpl. rewrite E. simpl.
      destruct (IH (done ++ [x]) h2) as [(E' & y & Hy & HB)|(h' & E' & P' & F')]; auto.
      + intros y Hy. apply Hin. now right.
      + intros y Hy. apply in_app_iff in Hy as [Hy|[<-|[]]]; auto.
      + intros y Hy Hc. apply in_app_iff in Hc as [Hc|[<-|[]]]; [|contradiction]. apply (Hx y); auto. now right.
      + intros y Hy. apply in_app_iff in Hy as [Hy|[<-|[]]]; auto.
        apply (HP y h1); auto. intros a Ha. symmetry. apply F2. intros Hxa.
        assert (x = y) by (eapply Hown; eauto). subst y. apply (Hx x); auto. now left.
      + intros a Ha. rewrite F2 by (apply Ha; apply in_app_iff; right; now left).
        apply Hfr. intros y Hy. apply Ha. apply in_app_iff; auto.
      + left. split; auto. exists y. split; simpl; auto.
      + right. exists h'. split; auto. split.
        * intros y Hy. apply P'. rewrite <- app_assoc. exact Hy.
        * intros a Ha. apply F'. rewrite <- app_assoc. exact Ha. }
  destruct (G l [] h) as [H|(h' & E & H1 & H2)]; auto.
  - apply incl_refl.
  - intros y [].
  - intros y [].
  - right. exists h'. auto.
Qed.

(** [forM_regions] for steps that also append results to a list. *)
Lemma forM_regions_acc : forall X Y T (own : X -> Z -> Prop) (P : X -> list Y -> heap T -> Prop)
    (f : X -> list Y * heap T -> res (list Y * heap T)) l (h : heap T),
  NoDup l ->
  (forall x y a, In x l -> In y l -> own x a -> own y a -> x = y) ->
  (forall x ys h1 h2, In x l -> (forall a, own x a -> h1 a = h2 a) -> P x ys h1 -> P x ys h2) ->
  (forall x acc (h1 : heap T), In x l -> (forall a, own x a \/ (forall y, In y l -> ~ own y a) -> h1 a = h a) ->
     exists ys h2, f x (acc, h1) = Ok (acc ++ ys, h2) /\ P x ys h2 /\ (forall a, ~ own x a -> h2 a = h1 a)) ->
  exists yss h', forM l f ([], h) = Ok (concat yss, h') /\ Forall2 (fun x ys => P x ys h') l yss /\
    (forall a, (forall x, In x l -> ~ own x a) -> h' a = h a).
Proof.
  intros X Y T own P f l h Hnd Hown HP Hf.
  assert (G : forall r done yss (h1 : heap T), incl r l -> NoDup r -> incl done l -> (forall x, In x r -> ~ In x done) ->
    Forall2 (fun x ys => P x ys h1) done yss ->
    (forall a, (forall x, In x done -> ~ own x a) -> h1 a = h a) ->
    exists zss h', forM r f (concat yss, h1) = Ok (concat zss, h') /\ Forall2 (fun x ys => P x ys h') (done ++ r) zss /\
      (forall a, (forall x, In x (done ++ r) -> ~ own x a) -> h' a = h a)).
  { induction r as [|x r IH]; intros done yss h1 Hin Hn Hd Hx HPd Hfr.
    - exists yss, h1. rewrite app_nil_r. auto.
    - inversion Hn as [|? ? Hni Hn']; subst. assert (Hxl : In x l) by (apply Hin; now left).
      destruct (Hf x (concat yss) h1 Hxl) as (ys & h2 & E & P2 & F2).
      { intros a [Ha|Ha]; apply Hfr; intros y Hy Hya.
        - assert (x = y) by (eapply Hown; eauto). subst y. apply (Hx x); auto. now left.
        - apply (Ha y); auto. }
      cbn [forM]. rewrite E. cbn [bind]. replace (concat yss ++ ys) with (concat (yss ++ [ys])) by (rewrite concat_app; simpl; now rewrite app_nil_r).
      destruct (IH (done ++ [x]) (yss ++ [ys]) h2) as (zss & h' & E' & P' & F'); auto.
      + intros y Hy. apply Hin. now right.
      + intros y Hy. apply in_app_iff in Hy as [Hy|[<-|[]]]; auto.
      + intros y Hy Hc. apply in_app_iff in Hc as [Hc|[<-|[]]]; [|contradiction]. apply (Hx y); auto. now right.
      + apply Forall2_app; [|repeat constructor; auto].
        clear -HPd Hd Hx F2 Hown HP Hxl. revert yss HPd. induction done as [|y done IHd]; intros yss H; inversion H; subst; constructor.
        * apply (HP y _ h1); auto; [apply Hd; now left|]. intros a Ha. symmetry. apply F2. intros Hxa.
          assert (x = y) by (eapply Hown; eauto; apply Hd; now left). subst y. apply (Hx x); now left.
        * apply IHd; auto; [intros z Hz; apply Hd; now right|]. intros z Hz Hz'. apply (Hx z); auto. now right.
      + intros a Ha. rewrite F2 by (apply Ha; apply in_app_iff; right; now left).
        apply Hfr. intros y Hy. apply Ha. apply in_app_iff; auto.
      + exists zss, h'. rewrite <- app_assoc in P', F'. auto. }
  destruct (G l [] [] h) as (zss & h' & E & H1 & H2); auto.
  - apply incl_refl.
  - intros y [].
  - exists zss, h'. auto.
Qed.

(** Bitwise or of a list. *)
Lemma fold_lor_bits : forall l v n, Z.testbit (fold_left Z.lor l v) n = Z.testbit v n || existsb (fun x => Z.testbit x n) l.
Proof.
  induction l as [|x l IH]; intros v n; simpl; [now rewrite orb_false_r|]. rewrite IH, Z.lor_spec. now rewrite orb_assoc.
Qed.
Lemma fold_lor_zero : forall l, Forall (fun x => 0 <= x) l -> fold_left Z.lor l 0 = 0 <-> Forall (fun x => x = 0) l.
Proof.
  intros l HN. split; intros H.
  - apply Forall_forall. intros x Hx. apply Z.bits_inj'. intros n Hn. rewrite Z.bits_0.
    assert (E := fold_lor_bits l 0 n). rewrite H, Z.bits_0 in E. simpl in E. symmetry in E.
    destruct (Z.testbit x n) eqn:Ex; auto. rewrite <- E. symmetry. apply existsb_exists. eauto.
  - clear HN. induction H as [|x l -> H IH]; auto.
Qed.
Lemma fold_lor_nonneg : forall l v, 0 <= v -> Forall (fun x => 0 <= x) l -> 0 <= fold_left Z.lor l v.
Proof. induction l as [|x l IH]; intros v Hv H; simpl; auto. inversion H; subst. apply IH; auto. now apply Z.lor_nonneg. Qed.
