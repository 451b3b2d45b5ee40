(** * L_Store: lemmas about tensors in files. *)
From Coq Require Import String List ZArith Lia Bool.
From Verif Require Import Base Heap M_Addr M_Elt L_Addr L_Elt S_Einsum S_Fold L_Fold M_Disk S_Disk L_Disk T_Disk.
From Verif Require Import M_Store S_Store.
Import ListNotations.
Open Scope Z_scope.

Lemma sel_in_length : forall dims offs strides counts, sel_in dims offs strides counts = true ->
  length offs = length counts /\ length strides = length counts /\ length dims = length counts /\ Forall (fun s => 0 < s) strides.
Proof.
  induction dims as [|d ds IH]; intros [|o os] [|s ss] [|c cs] H; try discriminate; simpl in *.
  - repeat split; auto.
  - apply andb_true_iff in H. destruct H as (H & H3). apply andb_true_iff in H. destruct H as (H1 & H2).
    destruct (IH _ _ _ H3) as (A & B & C & D). repeat split; try congruence. constructor; auto. now apply Z.ltb_lt.
Qed.

Lemma spos_inj : forall offs strides a b, length strides = length offs -> Forall (fun s => 0 < s) strides ->
  length a = length offs -> length b = length offs -> spos offs strides a = spos offs strides b -> a = b.
Proof.
  induction offs as [|o os IH]; intros [|s ss] [|x a] [|y b] L1 HF La Lb E; try discriminate; auto.
  simpl in E. injection E as E1 E2. inversion HF; subst. f_equal; [nia|]. apply (IH ss); auto.
Qed.

Lemma nonneg_of_pos : forall l, Forall (fun c => 0 < c) l -> Forall (fun c => 0 <= c) l.
Proof. intros l H. eapply Forall_impl; [|exact H]. simpl; lia. Qed.

Lemma ds_write_spec : forall T (ds : dset T) offs strides counts ptr h c,
  Forall (fun c => 0 < c) counts -> sel_in (dset_dims ds) offs strides counts = true ->
  (forall idx, inb idx counts -> h (ptr + rowcode counts idx) = Some (c idx)) ->
  exists ds', ds_write ds offs strides counts ptr h = Ok ds' /\ dset_dims ds' = dset_dims ds /\
    (forall idx, inb idx counts -> dset_val ds' (spos offs strides idx) = c idx) /\
    (forall j, (forall idx, inb idx counts -> j <> spos offs strides idx) -> dset_val ds' j = dset_val ds j).
Proof.
  intros T ds offs strides counts ptr h c HF Hs Hh. unfold ds_write. rewrite Hs.
  destruct (sel_in_length _ _ _ _ Hs) as (L1 & L2 & _ & SP). assert (HN := nonneg_of_pos _ HF).
  destruct (forM_fupd _ (slab counts) (fun kc => rd h (ptr + fst kc)) (fun kc => spos offs strides (snd kc)) (fun kc => c (snd kc)) (dset_val ds))
    as (f' & E & A & B).
  - intros (k, i) Hin. apply slab_iff in Hin; auto. destruct Hin as (Hi & ->). simpl. apply rd_some. auto.
  - intros (k, a) (k', b) Ha Hb Ek. apply slab_iff in Ha; auto. apply slab_iff in Hb; auto. simpl in *.
    f_equal. apply (spos_inj offs strides); auto; try congruence; rewrite L1; apply inb_length; tauto.
  - rewrite E. simpl. eexists. split; [reflexivity|]. simpl. split; auto. split.
    + intros idx Hi. apply (A (rowcode counts idx, idx)). apply slab_iff; auto.
    + intros j Hj. apply B. intros (k, i) Hin. apply slab_iff in Hin; auto. simpl. apply Hj. tauto.
Qed.

Lemma spos_whole : forall idx n, length idx = n -> spos (repeat 0 n) (repeat 1 n) idx = idx.
Proof. induction idx as [|i r IH]; intros [|n] H; try discriminate; auto. cbn [repeat spos]. f_equal; [lia|]. apply IH. simpl in H. lia. Qed.

Lemma sel_whole : forall dims, sel_in dims (repeat 0 (length dims)) (repeat 1 (length dims)) dims = true.
Proof.
  induction dims as [|d r IH]; auto. cbn [length repeat sel_in]. rewrite IH.
  assert (E : (0 + 1 * (d - 1) <? d) = true) by (apply Z.ltb_lt; lia). now rewrite E.
Qed.

Lemma all_lt : forall dims, all_pos dims -> Forall (fun d => d < 2 ^ 64) dims.
Proof. intros dims (_ & H). eapply Forall_impl; [|exact H]. cbv beta. intros; tauto. Qed.
Lemma all_gt : forall dims, all_pos dims -> Forall (fun d => 0 < d) dims.
Proof. intros dims (_ & H). eapply Forall_impl; [|exact H]. cbv beta. intros; tauto. Qed.

(** Writing a whole tensor. *)
Lemma ds_write_whole : forall T (ds : dset T) p dims h g, all_pos dims -> dset_dims ds = dims ->
  holds h (tensor_ctor p dims) g ->
  exists ds', ds_write ds (repeat 0 (length dims)) (repeat 1 (length dims)) dims p h = Ok ds' /\
    dset_dims ds' = dims /\ forall idx, inb idx dims -> dset_val ds' idx = g idx.
Proof.
  intros T ds p dims h g Hp Hd Hh.
  destruct (ds_write_spec T ds (repeat 0 (length dims)) (repeat 1 (length dims)) dims p h g) as (ds' & E & D & A & _).
  - now apply all_gt.
  - rewrite Hd. apply sel_whole.
  - intros idx Hi. specialize (Hh idx Hi). unfold addr in Hh. simpl in Hh.
    rewrite rowcode_dotp by (apply inb_length; auto). exact Hh.
  - exists ds'. split; auto. split; [congruence|]. intros idx Hi. specialize (A idx Hi).
    rewrite spos_whole in A by (apply inb_length; auto). exact A.
Qed.

(** Reading a whole data set. *)
Lemma dall_counts : forall dims, slice_counts dims (map (fun _ => DAll) dims) = dims.
Proof. induction dims as [|d r IH]; auto. simpl. now rewrite IH. Qed.
Lemma dall_extents : forall dims, extents dims (map (fun _ => DAll) dims) = dims.
Proof. induction dims as [|d r IH]; auto. simpl. now rewrite IH. Qed.
Lemma dall_offsets : forall dims : list Z, slice_offsets (map (fun _ => DAll) dims) = repeat 0 (length dims).
Proof. induction dims as [|d r IH]; auto. simpl. now rewrite IH. Qed.
Lemma dall_embed : forall (dims : list Z) idx, length idx = length dims -> embed (map (fun _ => DAll) dims) idx = idx.
Proof. induction dims as [|d r IH]; intros [|i is] H; try discriminate; auto. simpl in *. f_equal. apply IH. lia. Qed.
Lemma dall_ok : forall dims, Forall (fun d => 0 < d) dims -> Forall2 sel_ok dims (map (fun _ => DAll) dims).
Proof. induction dims as [|d r IH]; intros H; inversion H; subst; constructor; auto. Qed.

Lemma read_whole : forall T (zero : T) st n ds, st n = Some ds -> all_pos (dset_dims ds) ->
  exists h, read_tensor zero st n (length (dset_dims ds)) = Done (tensor_ctor 0 (dset_dims ds), h) /\
    holds h (tensor_ctor 0 (dset_dims ds)) (dset_val ds).
Proof.
  intros T zero st n ds Hn Hp. unfold read_tensor. rewrite Hn, Nat.eqb_refl.
  set (dims := dset_dims ds) in *. assert (HL := all_lt _ Hp). assert (HG := all_gt _ Hp).
  assert (HO := dall_ok _ HG).
  destruct (h5_read_spec dims (map (fun _ => DAll) dims) HL HO (dset_val ds) 0 (alloc_buffer zero 0 (data_size dims) (fun _ => None))) as (h & E & A & _).
  - intros k Hk. rewrite dall_extents in Hk. rewrite data_size_eq by apply Hp. exists zero. apply alloc_buffer_cell. lia.
  - rewrite dall_counts, dall_offsets in E. rewrite E. exists h. split; auto.
    intros idx Hi. simpl in Hi. rewrite dall_extents in A. specialize (A idx Hi).
    rewrite dall_embed in A by (apply inb_length; auto). rewrite <- A. f_equal. unfold addr. simpl.
    rewrite rowcode_dotp by (apply inb_length; auto). reflexivity.
Qed.

Lemma default_chunk_ok : forall dims, all_pos dims -> chunk_ok dims (default_chunk dims) = true.
Proof.
  intros dims Hp. assert (HG := all_gt _ Hp). destruct Hp as (Hne & _). destruct dims as [|d r]; [contradiction|].
  simpl. inversion HG as [|? ? H1 H2]; subst. replace (1 <=? d) with true by (symmetry; apply Z.leb_le; lia). simpl.
  clear - H2. induction r as [|e r IH]; auto. inversion H2; subst. simpl. rewrite IH by auto.
  destruct (Z.ltb_spec e 64); simpl.
  - replace (0 <? e) with true by (symmetry; apply Z.ltb_lt; lia). now rewrite Z.leb_refl.
  - replace (64 <=? e) with true by (symmetry; apply Z.leb_le; lia). reflexivity.
Qed.

Lemma sput_same : forall T (st : store T) n d, sput st n d n = Some d.
Proof. intros. unfold sput. destruct (string_dec n n); congruence. Qed.
Lemma sput_other : forall T (st : store T) n m d, m <> n -> sput st n d m = st m.
Proof. intros. unfold sput. destruct (string_dec m n); congruence. Qed.
Lemma fput_same : forall T (fs : files T) k st, fput fs k st k = st.
Proof. intros. unfold fput. now rewrite Z.eqb_refl. Qed.
Lemma fput_other : forall T (fs : files T) k j st, j <> k -> fput fs k st j = fs j.
Proof. intros. unfold fput. destruct (Z.eqb_spec j k); congruence. Qed.
