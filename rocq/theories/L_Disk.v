(** * L_Disk: lemmas on hyperslabs and disk views. *)
From Coq Require Import List ZArith Lia Bool.
From Verif Require Import Base Heap M_Addr M_Elt L_Addr L_Elt S_Einsum S_Fold L_Fold M_Disk S_Disk.
Import ListNotations.
Open Scope Z_scope.

(** Index of a view's element in the hyperslab's own coordinates. *)
Fixpoint lift (sels : list dsel) (idx : list Z) : list Z :=
  match sels, idx with
  | DIdx _ :: r, _ => 0 :: lift r idx
  | _ :: r, i :: is => i :: lift r is
  | _, _ => []
  end.

Lemma sz_id : forall x, 0 <= x < 2 ^ 64 -> sz x = x.
Proof. intros. apply Z.mod_small. auto. Qed.

Section L.
  Variables (fdims : list Z).
  Hypothesis Hbig : Forall (fun d => d < 2 ^ 64) fdims.

  Lemma counts_pos : forall sels, Forall2 sel_ok fdims sels -> Forall (fun c => 0 < c) (slice_counts fdims sels).
  Proof.
    intros sels H. induction H as [|d s ds r Hs Hr IH]; simpl; auto.
    inversion Hbig; subst. destruct s; simpl in Hs; constructor; auto; try lia.
    rewrite sz_id by lia. lia.
  Qed.
End L.

Lemma slab_in : forall fdims sels, Forall (fun d => d < 2 ^ 64) fdims -> Forall2 sel_ok fdims sels ->
  slab_ok fdims (slice_offsets sels) (slice_counts fdims sels) = true.
Proof.
  intros fdims sels Hb H. induction H as [|d s ds r Hs Hr IH]; simpl; auto.
  inversion Hb; subst. destruct s; simpl in *; apply andb_true_iff; (split; [apply Z.leb_le|auto]);
    rewrite ?sz_id by lia; lia.
Qed.

Lemma lift_spec : forall fdims sels, Forall (fun d => d < 2 ^ 64) fdims -> Forall2 sel_ok fdims sels ->
  forall idx, inb idx (extents fdims sels) ->
    inb (lift sels idx) (slice_counts fdims sels) /\
    vplus (slice_offsets sels) (lift sels idx) = embed sels idx /\
    rowcode (slice_counts fdims sels) (lift sels idx) = rowcode (extents fdims sels) idx /\
    zprod (slice_counts fdims sels) = zprod (extents fdims sels) /\
    inb (embed sels idx) fdims.
Proof.
  intros fdims sels Hb H. induction H as [|d s ds r Hs Hr IH]; intros idx Hi.
  - inversion Hi; subst. repeat split; constructor.
  - inversion Hb; subst. destruct s; simpl in *.
    + inversion Hi as [|i ? is ? Hi1 Hi2]; subst. destruct (IH H2 _ Hi2) as (A & B & C & D & E).
      simpl. rewrite B, C, D. repeat split; auto; constructor; auto.
    + inversion Hi as [|i ? is ? Hi1 Hi2]; subst. destruct (IH H2 _ Hi2) as (A & B & C & D & E).
      simpl. rewrite B, C, D. rewrite !sz_id by lia. repeat split; auto; constructor; auto; lia.
    + destruct (IH H2 _ Hi) as (A & B & C & D & E).
      simpl. rewrite B, C, D. rewrite !sz_id by lia.
      split; [constructor; auto; lia|]. split; [f_equal; lia|]. split; [lia|]. split; [lia|]. constructor; auto.
Qed.

Lemma counts_prod : forall fdims sels, Forall (fun d => d < 2 ^ 64) fdims -> Forall2 sel_ok fdims sels ->
  zprod (slice_counts fdims sels) = zprod (extents fdims sels).
Proof.
  intros fdims sels Hb H. induction H as [|d s ds r Hs Hr IH]; auto.
  inversion Hb; subst. destruct s; simpl in *; rewrite IH by auto; rewrite ?sz_id by lia; lia.
Qed.

Lemma lift_onto : forall fdims sels, Forall (fun d => d < 2 ^ 64) fdims -> Forall2 sel_ok fdims sels ->
  forall c, inb c (slice_counts fdims sels) -> exists idx, inb idx (extents fdims sels) /\ c = lift sels idx.
Proof.
  intros fdims sels Hb H. induction H as [|d s ds r Hs Hr IH]; intros c Hc.
  - inversion Hc; subst. exists []. split; auto.
  - inversion Hb; subst. destruct s; simpl in *; inversion Hc as [|i ? is ? Hi1 Hi2]; subst;
      destruct (IH H2 _ Hi2) as (idx & A & ->).
    + exists (i :: idx). split; auto. constructor; auto.
    + rewrite sz_id in Hi1 by lia. exists (i :: idx). split; auto. constructor; auto.
    + exists idx. split; auto. f_equal. lia.
Qed.

Lemma extents_pos : forall fdims sels, Forall2 sel_ok fdims sels -> Forall (fun d => 0 < d) (extents fdims sels).
Proof.
  intros fdims sels H. induction H as [|d s ds r Hs Hr IH]; simpl; auto.
  destruct s; simpl in Hs; auto; constructor; auto; lia.
Qed.

(** With every sliced extent above 1 the view has the requested extents. *)
Lemma slice_dims_eq : forall fdims sels, Forall (fun d => d < 2 ^ 64) fdims -> Forall2 sel_ok fdims sels ->
  Forall (fun d => 1 < d) (extents fdims sels) ->
  slice_dims sels (slice_counts fdims sels) = extents fdims sels.
Proof.
  intros fdims sels Hb H HF. unfold slice_dims.
  assert (G : filter (fun c => 1 <? c) (slice_counts fdims sels) = extents fdims sels /\ view_rank sels = length (extents fdims sels)).
  { induction H as [|d s ds r Hs Hr IH]; [split; reflexivity|].
    inversion Hb; subst. destruct s; simpl in *.
    - inversion HF as [|? ? HF1 HF2]; subst. destruct (IH H2 HF2) as (A & B). 
      unfold view_rank in *. simpl. rewrite A. destruct (Z.ltb_spec 1 d); [|lia]. rewrite B. auto.
    - inversion HF as [|? ? HF1 HF2]; subst. destruct (IH H2 HF2) as (A & B). 
      unfold view_rank in *. simpl. rewrite sz_id by lia. rewrite A. destruct (Z.ltb_spec 1 (hi - lo)); [|lia]. rewrite B. auto.
    - destruct (IH H2 HF) as (A & B). auto. }
  destruct G as (-> & ->). rewrite Nat.sub_diag. simpl. apply app_nil_r.
Qed.

Lemma slab_iff : forall counts k c, Forall (fun d => 0 <= d) counts ->
  In (k, c) (slab counts) <-> inb c counts /\ k = rowcode counts c.
Proof.
  intros counts k c HF. unfold slab. set (n := Z.of_nat (length (indices counts))).
  assert (HL : length (zrange n) = length (indices counts)) by (rewrite zrange_length; unfold n; lia).
  split.
  - intros Hin. destruct (In_nth_error _ _ Hin) as (p & Hp).
    assert (Hp1 : nth_error (zrange n) p = Some k /\ nth_error (indices counts) p = Some c).
    { clear - Hp. revert p Hp. generalize (indices counts). induction (zrange n) as [|a l IH]; intros [|b m] p Hp; 
        try (destruct p; discriminate). destruct p; simpl in *; [inversion Hp; auto|auto]. }
    destruct Hp1 as (P1 & P2). assert (Hc : inb c counts) by (apply in_indices; eapply nth_error_In; eauto).
    split; auto. assert (Q := nth_error_indices _ _ Hc).
    assert (p = Z.to_nat (dotp c (row_major_strides counts))).
    { eapply (proj1 (NoDup_nth_error (indices counts))). apply indices_NoDup.
      apply nth_error_Some. congruence. congruence. }
    assert (k = Z.of_nat p).
    { unfold zrange in P1. rewrite nth_error_map in P1. 
      destruct (nth_error (seq 0 (Z.to_nat n)) p) eqn:E; [|discriminate]. inversion P1; subst k.
      f_equal. assert (p < length (seq 0 (Z.to_nat n)))%nat by (apply nth_error_Some; congruence).
      rewrite seq_length in H0. rewrite (nth_error_nth' _ 0%nat) in E by (rewrite seq_length; auto).
      rewrite seq_nth in E by auto. inversion E; lia. }
    rewrite H0, H. rewrite Z2Nat.id. 
    + symmetry. apply rowcode_dotp. apply inb_length; auto.
    + apply rm_range; auto.
  - intros (Hc & ->). assert (Q := nth_error_indices _ _ Hc). assert (R := rm_range _ _ Hc).
    rewrite rowcode_dotp by (apply inb_length; auto). set (p := dotp c (row_major_strides counts)) in *.
    assert (Hlt : (Z.to_nat p < length (indices counts))%nat) by (apply nth_error_Some; congruence).
    assert (E : nth (Z.to_nat p) (combine (zrange n) (indices counts)) (0, []) = (p, c)).
    { rewrite combine_nth by auto. f_equal. apply zrange_nth. unfold n. lia. 
      apply nth_error_nth; auto. }
    rewrite <- E. apply nth_In. rewrite combine_length. lia.
Qed.

Lemma slab_fst : forall counts, map fst (slab counts) = zrange (Z.of_nat (length (indices counts))).
Proof.
  intros. unfold slab. apply map_fst_combine. rewrite zrange_length. lia.
Qed.

Section HDF.
  Context {T : Type}.
  Variables (fdims : list Z) (sels : list dsel).
  Hypothesis Hbig : Forall (fun d => d < 2 ^ 64) fdims.
  Hypothesis Hok : Forall2 sel_ok fdims sels.
  Let counts := slice_counts fdims sels.
  Let offsets := slice_offsets sels.
  Let ext := extents fdims sels.

  Lemma counts_nonneg : Forall (fun c => 0 <= c) counts.
  Proof. eapply Forall_impl; [|apply counts_pos; eauto]. simpl; lia. Qed.

  Lemma slab_len : Z.of_nat (length (indices counts)) = zprod ext.
  Proof. rewrite indices_length by apply counts_nonneg. apply counts_prod; auto. Qed.

  (** Reading the slab: element [idx] of the block lands at its row-major place. *)
  Lemma h5_read_spec : forall (f : list Z -> T) ptr h,
    (forall k, 0 <= k < zprod ext -> exists v, h (ptr + k) = Some v) ->
    exists h', h5_read fdims f offsets counts ptr h = Ok h' /\
      (forall idx, inb idx ext -> h' (ptr + rowcode ext idx) = Some (f (embed sels idx))) /\
      (forall a, ~ (ptr <= a < ptr + zprod ext) -> h' a = h a).
  Proof.
    intros f ptr h Ha. unfold h5_read, offsets, counts. rewrite slab_in by auto. fold offsets counts.
    destruct (forM_cells (Z * list Z) T (slab counts) (fun kc => ptr + fst kc) (fun kc => f (vplus offsets (snd kc)))
      (fun kc h => wr h (ptr + fst kc) (f (vplus offsets (snd kc)))) h) as (h' & E & Hv & Hf).
    - rewrite <- (map_map fst (fun k => ptr + k)), slab_fst. apply FinFun.Injective_map_NoDup; [intros x y; lia|apply zrange_NoDup].
    - intros (k, c) h' Hin Hsame. simpl in *. apply (in_map fst) in Hin. rewrite slab_fst in Hin. simpl in Hin.
      apply zrange_in in Hin. rewrite slab_len in Hin. destruct (Ha k Hin) as (v & Hv).
      apply wr_some with v. rewrite Hsame by auto. auto.
    - exists h'. split; auto. split.
      + intros idx Hi. destruct (lift_spec _ _ Hbig Hok idx Hi) as (A & B & C & D & _).
        specialize (Hv (rowcode ext idx, lift sels idx)). simpl in Hv. rewrite Hv.
        * unfold offsets. rewrite B. auto.
        * apply slab_iff. apply counts_nonneg. split; auto.
      + intros a Hna. apply Hf. rewrite <- (map_map fst (fun k => ptr + k)), slab_fst, in_map_iff.
        intros (k & <- & Hk). apply zrange_in in Hk. rewrite slab_len in Hk. lia.
  Qed.

  Lemma fupd_same : forall (f : list Z -> T) i v, fupd f i v i = v.
  Proof. intros. unfold fupd. destruct (list_eq_dec Z.eq_dec i i); congruence. Qed.
  Lemma fupd_other : forall (f : list Z -> T) i j v, j <> i -> fupd f i v j = f j.
  Proof. intros. unfold fupd. destruct (list_eq_dec Z.eq_dec j i); congruence. Qed.

  Lemma forM_fupd : forall X (l : list X) (g : X -> res T) (key : X -> list Z) (val : X -> T) f,
    (forall x, In x l -> g x = Ok (val x)) -> (forall x y, In x l -> In y l -> key x = key y -> val x = val y) ->
    exists f', forM l (fun x f => v <- g x ;; Ok (fupd f (key x) v)) f = Ok f' /\
      (forall x, In x l -> f' (key x) = val x) /\ (forall j, (forall x, In x l -> j <> key x) -> f' j = f j).
  Proof.
    intros X l g key val. induction l as [|x l IH]; intros f Hg Hk.
    - exists f. split; auto. split; auto. intros x [].
    - simpl. rewrite Hg by (now left). simpl.
      destruct (IH (fupd f (key x) (val x))) as (f' & E & A & B).
      + intros. apply Hg. now right.
      + intros. apply Hk; auto; now right.
      + exists f'. split; auto. split.
        * intros y [<-|Hy]; auto.
          destruct (in_dec (list_eq_dec Z.eq_dec) (key x) (map key l)) as [Hi|Hi].
          -- apply in_map_iff in Hi. destruct Hi as (z & Ez & Hz). rewrite <- Ez, A by auto.
             apply Hk; [now right|now left|auto].
          -- rewrite B. apply fupd_same. intros z Hz Ez. apply Hi. rewrite Ez. now apply in_map.
        * intros j Hj. rewrite B by (intros; apply Hj; now right). apply fupd_other. apply Hj. now left.
  Qed.

  Lemma vplus_inj : forall o a b, length a = length o -> length b = length o -> vplus o a = vplus o b -> a = b.
  Proof.
    induction o as [|x o IH]; intros [|a ra] [|b rb] Ha Hb E; try discriminate; auto.
    simpl in E. inversion E. f_equal; [lia|]. apply IH; auto.
  Qed.

  Lemma offsets_length : length offsets = length counts.
  Proof.
    unfold offsets, counts. clear - Hok. revert Hok. generalize fdims. induction sels as [|s r IH]; intros [|d ds] H; inversion H; subst; auto.
    destruct s; simpl; f_equal; apply IH; auto.
  Qed.

  Lemma h5_write_spec : forall (f : list Z -> T) ptr h (c : list Z -> T),
    (forall idx, inb idx ext -> h (ptr + rowcode ext idx) = Some (c idx)) ->
    exists f', h5_write fdims f offsets counts ptr h = Ok f' /\ stored fdims sels c f f' /\
      (forall j, (forall idx, inb idx ext -> j <> embed sels idx) -> f' j = f j).
  Proof.
    intros f ptr h c Hh. unfold h5_write, offsets, counts. rewrite slab_in by auto. fold offsets counts.
    set (val := fun kc : Z * list Z => match h (ptr + fst kc) with Some v => v | None => f [] end).
    destruct (forM_fupd _ (slab counts) (fun kc => rd h (ptr + fst kc)) (fun kc => vplus offsets (snd kc)) val f) as (f' & E & A & B).
    - intros (k, cc) Hin. apply slab_iff in Hin; [|apply counts_nonneg]. destruct Hin as (Hc & ->).
      destruct (lift_onto _ _ Hbig Hok cc Hc) as (idx & Hi & ->).
      destruct (lift_spec _ _ Hbig Hok idx Hi) as (_ & _ & C & _). simpl. unfold val. simpl. unfold counts. rewrite C.
      fold ext. rewrite (Hh idx Hi). apply rd_some. auto.
    - intros (k, a) (k', b) Ha Hb Ek. simpl in *.
      apply slab_iff in Ha; [|apply counts_nonneg]. apply slab_iff in Hb; [|apply counts_nonneg].
      destruct Ha as (Ha & ->), Hb as (Hb & ->). 
      assert (a = b) by (apply (vplus_inj offsets); auto; rewrite offsets_length; apply inb_length; auto). now subst.
    - exists f'. split; auto.
      assert (G : forall idx, inb idx ext -> f' (embed sels idx) = c idx).
      { intros idx Hi. destruct (lift_spec _ _ Hbig Hok idx Hi) as (Q & Bq & C & _).
        specialize (A (rowcode ext idx, lift sels idx)). simpl in A. unfold offsets in A. rewrite Bq in A. rewrite A.
        - unfold val. simpl. now rewrite Hh.
        - apply slab_iff; [apply counts_nonneg|]. split; auto. }
      assert (G2 : forall j, (forall idx, inb idx ext -> j <> embed sels idx) -> f' j = f j).
      { intros j Hj. apply B. intros (k, cc) Hin. apply slab_iff in Hin; [|apply counts_nonneg]. destruct Hin as (Hc & _).
        destruct (lift_onto _ _ Hbig Hok cc Hc) as (idx & Hi & ->). 
        destruct (lift_spec _ _ Hbig Hok idx Hi) as (_ & Bq & _). simpl. unfold offsets. rewrite Bq. auto. }
      split; [split; auto|auto].
  Qed.
End HDF.
