(** * T_Disk: disk views (C40). *)
From Coq Require Import List ZArith Lia Bool.
From Verif Require Import Base Heap M_Addr M_Elt L_Addr L_Elt S_Einsum S_Fold L_Fold M_Disk S_Disk L_Disk T_Dispatch.
Import ListNotations.
Open Scope Z_scope.

(** A concrete view shows what the abstract view should show. *)
Definition shows {T} (fdims : list Z) (v : option (dview T)) (a : option (aview T)) : Prop :=
  match v, a with
  | None, None => True
  | Some v, Some (sels, ro, c) => dv_dims v = extents fdims sels /\ forall idx, inb idx (extents fdims sels) -> disk_get v idx = Ok (c idx)
  | _, _ => False
  end.

(** No sliced extent of length 1 (this is what the code needs). *)
Definition no_unit_slice {T} (fdims : list Z) (o : dop T) : Prop :=
  match o with OOpen sels _ => Forall (fun d => 1 < d) (extents fdims sels) | _ => True end.

Section Sim.
  Context {T : Type}.
  Variables (zero : T) (fdims : list Z).
  Hypothesis Hbig : Forall (fun d => d < 2 ^ 64) fdims.

  Definition simv (v : option (dview T)) (a : option (aview T)) : Prop :=
    match v, a with
    | None, None => True
    | Some v, Some (sels, ro, c) =>
        slice_ok fdims sels /\ dv_dims v = extents fdims sels /\ dv_counts v = slice_counts fdims sels /\
        dv_offsets v = slice_offsets sels /\ dv_ro v = ro /\
        (forall idx, inb idx (extents fdims sels) -> dv_buf v (rowcode (extents fdims sels) idx) = Some (c idx))
    | _, _ => False
    end.

  Lemma addr_rowcode : forall dims idx, inb idx dims -> addr (tensor_ctor 0 dims) idx = rowcode dims idx.
  Proof. intros. unfold addr. simpl. rewrite rowcode_dotp by (apply inb_length; auto). lia. Qed.

  Lemma sub_rowcode : forall dims idx, inb idx dims -> subscript (tensor_ctor 0 dims) idx = rowcode dims idx.
  Proof. intros. rewrite subscript_inb by auto. now apply addr_rowcode. Qed.

  Lemma simv_shows : forall v a, simv v a -> shows fdims v a.
  Proof.
    intros [v|] [[[sels ro] c]|]; simpl; auto. intros (_ & D & _ & _ & _ & B). split; auto.
    intros idx Hi. unfold disk_get, tget, dv_tensor. rewrite D, sub_rowcode by auto. apply rd_some. auto.
  Qed.

  Lemma Forall2_nth : forall A B (R : A -> B -> Prop) l m i y, Forall2 R l m -> nth_error m i = Some y ->
    exists x, nth_error l i = Some x /\ R x y.
  Proof.
    intros A B R l m i y H. revert i. induction H; intros [|i] E; simpl in *; try discriminate.
    - inversion E; subst. eauto.
    - auto.
  Qed.
  Lemma Forall2_aset : forall A B (R : A -> B -> Prop) l m i x y, Forall2 R l m -> R x y -> (i < length m)%nat ->
    Forall2 R (aset i x l) (aset i y m).
  Proof.
    intros A B R l m i x y H. revert i. induction H; intros [|i] Hr Hi; simpl in *; try lia.
    - constructor; auto.
    - unfold aset in *. simpl. constructor; auto. apply IHForall2; auto. lia.
  Qed.

  Lemma open_spec : forall (f : list Z -> T) sels ro, slice_ok fdims sels -> Forall (fun d => 1 < d) (extents fdims sels) ->
    exists v, disk_open zero fdims f sels ro = Ok v /\ simv (Some v) (Some (sels, ro, fun idx => f (embed sels idx))).
  Proof.
    intros f sels ro (Hok & Hne) Hp. unfold disk_open. rewrite slice_dims_eq by auto.
    rewrite data_size_eq by auto.
    destruct (h5_read_spec fdims sels Hbig Hok f 0 (alloc_buffer zero 0 (zprod (extents fdims sels)) (fun _ => None))) as (h & E & A & B).
    - intros k Hk. exists zero. apply alloc_buffer_cell. lia.
    - rewrite E. simpl. eexists. split; [reflexivity|]. simpl. split; [split; auto|]. do 4 (split; [auto|]).
      exact A.
  Qed.

  Lemma buf_alloc : forall dims (h : heap T) c, Forall (fun d => 0 <= d) dims ->
    (forall idx, inb idx dims -> h (rowcode dims idx) = Some (c idx)) -> forall k, 0 <= k < zprod dims -> exists x, h k = Some x.
  Proof.
    intros dims h c HF H k Hk. assert (Hi := rm_sti_inb _ _ Hk HF). specialize (H _ Hi).
    rewrite rowcode_dotp, rm_sti_ordinal in H by (auto; apply inb_length; auto). eauto.
  Qed.

  Lemma rowcode_range : forall dims idx, inb idx dims -> 0 <= rowcode dims idx < zprod dims.
  Proof. intros. rewrite rowcode_dotp by (apply inb_length; auto). now apply rm_range. Qed.
  Lemma rowcode_inj : forall dims i j, inb i dims -> inb j dims -> rowcode dims i = rowcode dims j -> i = j.
  Proof. intros. apply (rm_inj 0 dims); auto. rewrite !addr_rowcode by auto. auto. Qed.

  Lemma ext_nonneg : forall sels, slice_ok fdims sels -> Forall (fun d => 0 <= d) (extents fdims sels).
  Proof. intros sels (H & _). eapply Forall_impl; [|eapply extents_pos; eauto]. simpl; lia. Qed.

  Lemma set_spec : forall v sels ro c c' idx x, simv (Some v) (Some (sels, ro, c)) -> inb idx (extents fdims sels) ->
    c' idx = x -> (forall j, j <> idx -> c' j = c j) ->
    exists v', disk_set v idx x = Ok v' /\ simv (Some v') (Some (sels, ro, c')).
  Proof.
    intros v sels ro c c' idx x (Hok & D & C & Of & R & B) Hi E1 E2. unfold disk_set, tset, dv_tensor.
    rewrite D, sub_rowcode by auto. rewrite (wr_some _ _ _ _ (c idx)) by auto. simpl. eexists. split; [reflexivity|].
    simpl. do 5 (split; [auto|]). intros j Hj. destruct (list_eq_dec Z.eq_dec j idx) as [->|Hne].
    - rewrite upd_same. congruence.
    - rewrite upd_other by (intros E; apply rowcode_inj in E; auto). rewrite E2 by auto. auto.
  Qed.

  Lemma fill_spec : forall v sels ro c x, simv (Some v) (Some (sels, ro, c)) ->
    exists v', disk_fill v x = Ok v' /\ simv (Some v') (Some (sels, ro, fun _ => x)).
  Proof.
    intros v sels ro c x (Hok & D & C & Of & R & B). unfold disk_fill. rewrite D, data_size_eq by (apply Hok).
    destruct (set_all_spec T 0 (zprod (extents fdims sels)) x (dv_buf v)) as (h & E & A & _).
    - intros k Hk. apply (buf_alloc _ _ _ (ext_nonneg _ Hok) B). lia.
    - rewrite E. simpl. eexists. split; [reflexivity|]. simpl. do 5 (split; [auto|]).
      intros idx Hi. apply (A _ (rowcode_range _ _ Hi)).
  Qed.

  Lemma assign_spec : forall v sels c other ho g, simv (Some v) (Some (sels, false, c)) ->
    ddims other = extents fdims sels -> holds ho other g ->
    exists v', disk_assign v other ho = Ok v' /\ simv (Some v') (Some (sels, false, g)).
  Proof.
    intros v sels c other ho g (Hok & D & C & Of & R & B) Ho Hg. unfold disk_assign. rewrite R.
    destruct (list_eq_dec Z.eq_dec (dv_dims v) (ddims other)) as [_|Hn]; [|congruence].
    unfold dv_tensor. rewrite D. set (t := tensor_ctor 0 (extents fdims sels)).
    destruct (forM_cells (list Z) T (indices (extents fdims sels)) (addr t) g
      (fun idx b => x <- tget ho other idx ;; tset b t idx x) (dv_buf v)) as (h & E & A & _).
    - apply (addr_NoDup t). apply rm_inj.
    - intros idx h' Hi Hs. apply in_indices in Hi. unfold tget, tset. 
      rewrite subscript_inb by congruence. rewrite (rd_some _ _ _ (g idx)) by (apply Hg; congruence). simpl.
      unfold t. rewrite sub_rowcode, addr_rowcode by auto. apply wr_some with (c idx). rewrite Hs; auto. 
      left. symmetry. apply addr_rowcode; auto.
    - rewrite E. simpl. eexists. split; [reflexivity|]. simpl. do 5 (split; [auto|]).
      intros idx Hi. rewrite <- addr_rowcode by auto. apply A. now apply in_indices.
  Qed.

  Definition sim (s : dstate T) (a : astate T) : Prop :=
    (forall j, inb j fdims -> ds_file s j = as_file a j) /\ Forall2 simv (ds_views s) (as_views a).

  Lemma embed_inb : forall sels idx, slice_ok fdims sels -> inb idx (extents fdims sels) -> inb (embed sels idx) fdims.
  Proof. intros sels idx (H & _) Hi. now destruct (lift_spec _ _ Hbig H idx Hi) as (_ & _ & _ & _ & E). Qed.

  Lemma in_block_dec : forall sels j, (exists idx, inb idx (extents fdims sels) /\ j = embed sels idx) \/
    (forall idx, inb idx (extents fdims sels) -> j <> embed sels idx).
  Proof.
    intros sels j. destruct (in_dec (list_eq_dec Z.eq_dec) j (map (embed sels) (indices (extents fdims sels)))) as [H|H].
    - left. apply in_map_iff in H. destruct H as (i & <- & Hi). exists i. split; auto. now apply in_indices.
    - right. intros idx Hi ->. apply H. apply in_map. now apply in_indices.
  Qed.

  Lemma nth_lt : forall A (l : list A) i x, nth_error l i = Some x -> (i < length l)%nat.
  Proof. intros. apply nth_error_Some. congruence. Qed.

  Lemma step_sim : forall o a a' s, astep fdims o a a' -> no_unit_slice fdims o -> sim s a ->
    exists s', disk_step zero fdims o s = Ok s' /\ sim s' a'.
  Proof.
    intros o a a' [cf cvs] Hs Hu (HF & HV). simpl in HF, HV. inversion Hs; subst; simpl in *.
    - destruct (open_spec cf sels ro H Hu) as (v & E & S). rewrite E. simpl. eexists. split; [reflexivity|].
      split; auto. simpl. apply Forall2_app; auto. constructor; auto.
      destruct S as (S1 & S2 & S3 & S4 & S5 & S6). simpl. do 5 (split; [auto|]).
      intros idx Hi. rewrite S6 by auto. f_equal. apply HF. now apply embed_inb.
    - destruct (Forall2_nth _ _ _ _ _ _ _ HV H) as ([v|] & E & S); [|contradiction S].
      destruct (set_spec v sels ro c c' idx (c' idx) S H0 eq_refl H2) as (v' & E' & S').
      unfold on_view. simpl. rewrite E, E'. simpl. eexists. split; [reflexivity|]. split; auto. simpl.
      apply (Forall2_aset _ _ simv); auto. eapply nth_lt; eauto.
    - destruct (Forall2_nth _ _ _ _ _ _ _ HV H) as ([v|] & E & S); [|contradiction S].
      destruct (fill_spec v sels ro c x S) as (v' & E' & S').
      unfold on_view. simpl. rewrite E, E'. simpl. eexists. split; [reflexivity|]. split; auto. simpl.
      apply (Forall2_aset _ _ simv); auto. eapply nth_lt; eauto.
    - destruct (Forall2_nth _ _ _ _ _ _ _ HV H) as ([v|] & E & S); [|contradiction S].
      destruct (assign_spec v sels c other ho g S H0 H1) as (v' & E' & S').
      unfold on_view. simpl. rewrite E, E'. simpl. eexists. split; [reflexivity|]. split; auto. simpl.
      apply (Forall2_aset _ _ simv); auto. eapply nth_lt; eauto.
    - destruct (Forall2_nth _ _ _ _ _ _ _ HV H) as ([v|] & E & S); [|contradiction S].
      rewrite E. destruct S as (S1 & S2 & S3 & S4 & S5 & S6). unfold disk_put. rewrite S5. simpl.
      eexists. split; [reflexivity|]. split; auto. simpl.
      apply (Forall2_aset _ _ simv); [auto|exact I|eapply nth_lt; eauto].
    - destruct (Forall2_nth _ _ _ _ _ _ _ HV H) as ([v|] & E & S); [|contradiction S].
      rewrite E. destruct S as (S1 & S2 & S3 & S4 & S5 & S6). unfold disk_put. rewrite S5, S3, S4.
      destruct (h5_write_spec fdims sels Hbig (proj1 S1) cf 0 (dv_buf v) c) as (f2 & E2 & (P1 & P2) & _).
      + intros idx Hi. now apply S6.
      + rewrite E2. simpl. eexists. split; [reflexivity|]. split; simpl.
        * intros j Hj. destruct H0 as (Q1 & Q2). destruct (in_block_dec sels j) as [(idx & Hi & ->)|Hn].
          -- rewrite P1, Q1 by auto. auto.
          -- rewrite P2, Q2 by auto. auto.
        * apply (Forall2_aset _ _ simv); [auto|exact I|eapply nth_lt; eauto].
  Qed.

  Lemma steps_sim : forall ops a a' s, asteps fdims ops a a' -> Forall (no_unit_slice fdims) ops -> sim s a ->
    exists s', disk_run zero fdims ops s = Ok s' /\ sim s' a'.
  Proof.
    intros ops a a' s H. revert s. induction H; intros cs Hu Hsim.
    - exists cs. split; auto.
    - inversion Hu; subst. destruct (step_sim _ _ _ _ H H3 Hsim) as (cs1 & E1 & S1).
      destruct (IHasteps cs1 H4 S1) as (cs2 & E2 & S2). exists cs2. split; auto. unfold disk_run in *. simpl. rewrite E1. exact E2.
  Qed.
End Sim.

(** C40, histories.  Views of one data set are opened (for writing or from a
    constant disk tensor), changed element by element, filled, assigned whole
    tensors or views, and destroyed, in any interleaving.  Whatever the history
    gives by the rules of [astep] (an opened view shows its block of the file;
    a destroyed writable view stores exactly its block and a read-only one
    nothing), the program produces: it does not fail, the file agrees and every
    live view shows the right extents and elements.
    What is missing: slices with an extent of 1; see [C40_open_iff]. *)
Theorem C40_history_partial : forall T (zero : T) fdims ops (f : list Z -> T) a',
  Forall (fun d => d < 2 ^ 64) fdims ->
  Forall (no_unit_slice fdims) ops ->
  asteps fdims ops (mkAs f []) a' ->
  exists s', disk_run zero fdims ops (mkDs f []) = Ok s' /\
    (forall j, inb j fdims -> ds_file s' j = as_file a' j) /\
    Forall2 (shows fdims) (ds_views s') (as_views a').
Proof.
  intros T zero fdims ops f a' Hb Hu Ha.
  destruct (steps_sim zero fdims Hb ops _ _ (mkDs f []) Ha Hu) as (s' & E & S1 & S2).
  - split; simpl; auto.
  - exists s'. split; auto. split; auto. clear - S2.
    induction S2; constructor; auto. now apply simv_shows.
Qed.

(** C40, exactly when a view can be opened: a selection inside the data set
    opens without undefined behaviour exactly when no [All] or [Range] has
    length 1. *)
Theorem C40_open_iff : forall T (zero : T) fdims sels ro (f : list Z -> T),
  Forall (fun d => d < 2 ^ 64) fdims -> slice_ok fdims sels ->
  (Forall (fun d => 1 < d) (extents fdims sels) <-> exists v, disk_open zero fdims f sels ro = Ok v) /\
  (~ Forall (fun d => 1 < d) (extents fdims sels) -> disk_open zero fdims f sels ro = UB).
Proof.
  intros T zero fdims sels ro f Hb Hok.
  assert (G : ~ Forall (fun d => 1 < d) (extents fdims sels) -> disk_open zero fdims f sels ro = UB).
  { intros Hn. destruct Hok as (Hok & Hne). unfold disk_open.
    assert (Hz : data_size (slice_dims sels (slice_counts fdims sels)) = 0).
    { assert (Hl : (length (filter (fun c => (1 <? c)%Z) (slice_counts fdims sels)) < view_rank sels)%nat).
      { clear Hne. assert (P := extents_pos _ _ Hok).
        assert (L : forall fd r, Forall (fun d => d < 2 ^ 64) fd -> Forall2 sel_ok fd r ->
                  (length (filter (fun c => (1 <? c)%Z) (slice_counts fd r)) <= view_rank r)%nat).
        { intros fd r Hfb Hr. induction Hr as [|d s ds r Hs Hr IH]; [auto|]. inversion Hfb as [|? ? B1 B2]; subst. specialize (IH B2).
          destruct s; unfold view_rank in *; simpl in *.
          - destruct (1 <? d); simpl; lia.
          - destruct (1 <? sz (hi - lo)); simpl; lia.
          - lia. }
        induction Hok as [|d s ds r Hs Hr IH]; [exfalso; apply Hn; constructor|].
        inversion Hb as [|? ? B1 B2]; subst. specialize (L ds r B2 Hr). destruct s; unfold view_rank in *; simpl in *.
        - inversion P as [|? ? P1 P2]; subst. destruct (Z.ltb_spec 1 d); simpl; [|lia].
          enough (length (filter (fun c => (1 <? c)%Z) (slice_counts ds r)) < length (filter is_slice r))%nat by lia.
          apply IH; auto.
        - inversion P as [|? ? P1 P2]; subst. rewrite sz_id by lia. destruct (Z.ltb_spec 1 (hi - lo)); simpl; [|lia].
          enough (length (filter (fun c => (1 <? c)%Z) (slice_counts ds r)) < length (filter is_slice r))%nat by lia.
          apply IH; auto.
        - apply IH; auto. }
      unfold slice_dims. set (big := filter _ _) in *.
      destruct (view_rank sels - length big)%nat as [|k] eqn:Ek; [lia|].
      rewrite data_size_eq by (intros E; apply app_eq_nil in E; destruct E; discriminate).
      simpl. clear. induction big as [|x b IH]; simpl; [lia|rewrite IH; lia]. }
    rewrite Hz. unfold h5_read. rewrite slab_in by auto.
    assert (HC := counts_pos fdims Hb sels Hok).
    assert (Hlen : 0 < Z.of_nat (length (indices (slice_counts fdims sels)))).
    { rewrite indices_length by (eapply Forall_impl; [|exact HC]; simpl; lia). apply zprod_pos; auto. }
    unfold slab. destruct (indices (slice_counts fdims sels)) as [|c0 cs]; [simpl in Hlen; lia|].
    replace (Z.of_nat (length (c0 :: cs))) with (1 + Z.of_nat (length cs)) by (simpl; lia).
    unfold zrange. replace (Z.to_nat (1 + Z.of_nat (length cs))) with (S (length cs)) by lia. simpl.
    unfold wr, alloc_buffer. destruct (0 <=? 0 + Z.of_nat 0); simpl; [|reflexivity].
    destruct (Z.ltb_spec (0 + Z.of_nat 0) (0 + 0)); [lia|reflexivity]. }
  split; auto. split.
  - intros HF. destruct (open_spec zero fdims Hb f sels ro Hok HF) as (v & E & _). eauto.
  - intros (v & E). destruct (Forall_dec (fun d => 1 < d) (fun d => Z_lt_dec 1 d) (extents fdims sels)) as [H|H]; auto.
    rewrite G in E by auto. discriminate.
Qed.

(** C40 fails for slices of length 1: the sub-block [A(Range{0,1}, All)] of a
    2 x 3 data set. *)
Theorem C40_unit_slice_refuted : exists fdims sels, slice_ok fdims sels /\
  forall (f : list Z -> Z) ro, disk_open 0 fdims f sels ro = UB.
Proof.
  exists [2; 3], [DRange 0 1; DAll]. assert (S0 : slice_ok [2; 3] [DRange 0 1; DAll]).
  { split; [repeat constructor; simpl; lia|discriminate]. }
  split; [exact S0|]. intros f ro. refine (proj2 (C40_open_iff Z 0 [2; 3] [DRange 0 1; DAll] ro f _ S0) _).
  - repeat constructor.
  - simpl. intros H. inversion H. lia.
Qed.

(** C40, errors: whole-tensor assignment through a read-only view, or of other
    extents, throws. *)
Theorem C40_assign_throws : forall T (v : dview T) other ho,
  (dv_ro v = true \/ ddims other <> dv_dims v) -> disk_assign v other ho = Throw.
Proof.
  intros T v other ho [H|H]; unfold disk_assign; [now rewrite H|]. destruct (dv_ro v); auto.
  destruct (list_eq_dec Z.eq_dec (dv_dims v) (ddims other)); auto. congruence.
Qed.

(** C40 is lost for assignment from a pointer: the array goes to the file at
    once, even from a read-only view; on a writable view the destructor then
    overwrites it with the view's old elements. *)
Theorem C40_pointer_readonly_refuted : exists fdims sels (f : list Z -> Z) v ho f',
  slice_ok fdims sels /\ disk_open 0 fdims f sels true = Ok v /\
  disk_assign_ptr fdims v 0 ho f = Ok f' /\ exists idx, inb idx (extents fdims sels) /\ f' (embed sels idx) <> f (embed sels idx).
Proof.
  set (f := fun _ : list Z => 7).
  assert (S : slice_ok [3] [DRange 1 3]) by (split; [repeat constructor; simpl; lia|discriminate]).
  assert (B : Forall (fun d => d < 2 ^ 64) [3]) by (repeat constructor).
  destruct (open_spec 0 [3] B f [DRange 1 3] true S) as (v & E & Sv). { repeat constructor. }
  destruct Sv as (_ & _ & S3 & S4 & _).
  destruct (h5_write_spec [3] [DRange 1 3] B (proj1 S) f 0 (fun _ => Some 5) (fun _ => 5)) as (f' & E2 & (P & _) & _); [auto|].
  exists [3], [DRange 1 3], f, v, (fun _ => Some 5), f'.
  split; auto. split; auto. split; [unfold disk_assign_ptr; rewrite S3, S4; exact E2|].
  exists [0]. assert (I : inb [0] (extents [3] [DRange 1 3])) by (repeat constructor; lia). split; auto.
  rewrite P by auto. unfold f. lia.
Qed.

Theorem C40_pointer_assignment_lost_refuted : exists fdims sels (f : list Z -> Z) v ho f' f'',
  slice_ok fdims sels /\ disk_open 0 fdims f sels false = Ok v /\
  (forall k, ho k = Some 5) /\ disk_assign_ptr fdims v 0 ho f = Ok f' /\ disk_put fdims v f' = Ok f'' /\
  exists idx, inb idx (extents fdims sels) /\ f'' (embed sels idx) <> 5.
Proof.
  set (f := fun _ : list Z => 7).
  assert (S : slice_ok [3] [DRange 1 3]) by (split; [repeat constructor; simpl; lia|discriminate]).
  assert (B : Forall (fun d => d < 2 ^ 64) [3]) by (repeat constructor).
  destruct (open_spec 0 [3] B f [DRange 1 3] false S) as (v & E & Sv). { repeat constructor. }
  destruct Sv as (_ & _ & S3 & S4 & S5 & S6).
  destruct (h5_write_spec [3] [DRange 1 3] B (proj1 S) f 0 (fun _ => Some 5) (fun _ => 5)) as (f' & E2 & _); [auto|].
  destruct (h5_write_spec [3] [DRange 1 3] B (proj1 S) f' 0 (dv_buf v) (fun _ => 7)) as (f2 & E3 & (P & _) & _).
  { intros idx Hi. exact (S6 idx Hi). }
  exists [3], [DRange 1 3], f, v, (fun _ => Some 5), f', f2.
  split; auto. split; auto. split; auto. split; [unfold disk_assign_ptr; rewrite S3, S4; exact E2|].
  split; [unfold disk_put; rewrite S3, S4, S5; exact E3|].
  exists [0]. assert (I : inb [0] (extents [3] [DRange 1 3])) by (repeat constructor; lia). split; auto.
  rewrite P by auto. lia.
Qed.

(** Case: two views of a 2 x 3 data set, the second opened while the first is
    still unsaved, so it shows the old file; the writable one is stored last. *)
Example C40_case :
  let f := fun j => match j with [a; b] => 10 * a + b | _ => 0 end in
  let ops := [OOpen [DAll; DRange 1 3] false; OSet 0 [1; 0] 99; OOpen [DIdx 1; DAll] true; OFill 1 5; OClose 0; OClose 1] in
  Forall (no_unit_slice [2; 3]) ops /\
  (exists a', asteps [2; 3] ops (mkAs f []) a') /\
  match disk_run 0 [2; 3] ops (mkDs f []) with
  | Ok s => map (ds_file s) (indices [2; 3]) = [0; 1; 2; 10; 99; 12] /\ ds_views s = [None; None]
  | _ => False
  end.
Proof.
  intros f ops. split; [repeat constructor; simpl; lia|]. split.
  - set (c := fun idx => if list_eq_dec Z.eq_dec idx [1; 0] then 99 else f (embed [DAll; DRange 1 3] idx)).
    set (f' := fun j => if list_eq_dec Z.eq_dec j [1; 1] then 99 else f j).
    exists (mkAs f' [None; None]).
    eapply as_cons. { apply a_open. split; [repeat constructor; simpl; lia|discriminate]. }
    eapply as_cons. { eapply (a_set _ 0%nat) with (c' := c); [reflexivity| |reflexivity|].
      - repeat constructor; lia.
      - intros j Hj. unfold c. destruct (list_eq_dec Z.eq_dec j [1; 0]); [contradiction|]. reflexivity. }
    eapply as_cons. { apply a_open. split; [repeat constructor; simpl; lia|discriminate]. }
    eapply as_cons. { eapply (a_fill _ 1%nat). reflexivity. }
    eapply as_cons. { eapply (a_close_rw _ 0%nat) with (f' := f'); [reflexivity|]. split.
      - intros idx Hi. inversion Hi as [|i ? is ? H1 H2]; subst. inversion H2 as [|i2 ? is2 ? H3 H4]; subst. inversion H4; subst.
        cbn [embed]. unfold f', c. destruct (list_eq_dec Z.eq_dec [i; i2] [1; 0]) as [E|E]; 
          destruct (list_eq_dec Z.eq_dec [i; 1 + i2] [1; 1]) as [E'|E']; auto.
        + inversion E; subst. exfalso. now apply E'.
        + inversion E'; subst. exfalso. apply E. f_equal. f_equal. lia.
      - intros j Hj Hn. unfold f'. destruct (list_eq_dec Z.eq_dec j [1; 1]) as [->|]; auto.
        exfalso. apply (Hn [1; 0]); [repeat constructor; lia|reflexivity]. }
    eapply as_cons. { eapply (a_close_ro _ 1%nat). reflexivity. }
    apply as_nil.
  - vm_compute. auto.
Qed.

Print Assumptions C40_history_partial.
Print Assumptions C40_open_iff.
Print Assumptions C40_unit_slice_refuted.
Print Assumptions C40_assign_throws.
Print Assumptions C40_pointer_readonly_refuted.
Print Assumptions C40_pointer_assignment_lost_refuted.
