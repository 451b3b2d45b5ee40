(** * T_Store: tensors in files (C116) and disk tensors as parts of files (C117). *)
From Coq Require Import String List ZArith Lia Bool.
From Verif Require Import Base Heap M_Addr M_Elt L_Addr L_Elt S_Einsum S_Fold L_Fold M_Disk S_Disk L_Disk T_Disk.
From Verif Require Import M_Store S_Store L_Store.
Import ListNotations.
Open Scope Z_scope.

(** Views of disk tensors have no extent of length 1 (see C40). *)
Definition long_slices {T} (o : sop T) : Prop :=
  match o with SDisk _ _ dims ops => Forall (no_unit_slice dims) ops | _ => True end.

Section Sim.
  Context {T : Type}.
  Variable zero : T.

  Definition good (v : option (tval T)) : Prop := match v with Some (dims, _) => dims = [] \/ all_pos dims | None => True end.
  Definition fsim (fs : files T) (a : afiles T) : Prop := forall k n, ds_holds (fs k n) (a k n) /\ good (a k n).

  Lemma fsim_put : forall fs a a' k n ds v, fsim fs a -> replaced a a' k n v -> ds_holds (Some ds) (Some v) -> good (Some v) ->
    fsim (fput fs k (sput (fs k) n ds)) a'.
  Proof.
    intros fs a a' k n ds v HS (R1 & R2) HD HG k' n'.
    destruct (Z.eq_dec k' k) as [->|Hk].
    - rewrite fput_same. destruct (string_dec n' n) as [->|Hn].
      + rewrite sput_same, R1. auto.
      + rewrite sput_other by auto. rewrite R2 by congruence. apply HS.
    - rewrite fput_other by auto. rewrite R2 by congruence. apply HS.
  Qed.

  Lemma fput_fput : forall (fs : files T) k s t x, fput (fput fs k s) k t x = fput fs k t x.
  Proof. intros. unfold fput. destruct (x =? k); auto. Qed.
  Lemma sput_sput : forall (st : store T) n d e m, sput (sput st n d) n e m = sput st n e m.
  Proof. intros. unfold sput. destruct (string_dec m n); auto. Qed.

  Lemma fsim_ext : forall fs fs' a, (forall k n, fs' k n = fs k n) -> fsim fs a -> fsim fs' a.
  Proof. intros fs fs' a H HS k n. rewrite H. apply HS. Qed.

  Lemma ne_holds : forall (ds : dset T) dims g, dims <> [] ->
    (dset_dims ds = dims /\ forall idx, inb idx dims -> dset_val ds idx = g idx) -> ds_holds (Some ds) (Some (dims, g)).
  Proof. intros ds [|d r] g H HH; [contradiction|exact HH]. Qed.
  Lemma holds_ne : forall d dims g, dims <> [] -> @ds_holds T d (Some (dims, g)) ->
    exists ds, d = Some ds /\ dset_dims ds = dims /\ forall idx, inb idx dims -> dset_val ds idx = g idx.
  Proof. intros [ds|] [|x r] g H HH; try contradiction. exists ds. auto. Qed.

  Lemma step_fsim : forall o a x a' fs, fstep zero o a x a' -> long_slices o -> fsim fs a ->
    exists fs' s, sstep zero o fs = (fs', Done s) /\ told s x /\ fsim fs' a'.
  Proof.
    intros o a x a' fs Hst Hl HS. inversion Hst; subst; simpl.
    - (* write *)
      destruct H0 as (p & Ed). set (dims := ddims d) in *. unfold write_tensor. simpl. fold dims.
      assert (Hb : dbase d = p) by (rewrite Ed; reflexivity). rewrite Hb. rewrite Ed in H1.
      destruct (HS k n) as (HD & _). destruct (fs k n) as [ds|] eqn:En.
      + destruct (a k n) as [(dv, g0)|] eqn:Ea; [|contradiction HD]. specialize (H2 _ eq_refl). simpl in H2. subst dv.
        assert (Dd : dset_dims ds = dims).
        { destruct (holds_ne _ _ _ (proj1 H) HD) as (ds0 & E0 & D0 & _). congruence. }
        destruct (ds_write_whole T ds p dims h g H Dd H1) as (ds' & E & D' & V'). rewrite E. simpl.
        eexists. eexists. split; [reflexivity|]. split; [exact I|].
        apply (fsim_put fs a a' k n ds' (dims, g)); auto; [apply ne_holds; [apply H|auto]|right; auto].
      + unfold h5_create. destruct (list_eq_dec Z.eq_dec dims dims) as [_|X]; [|congruence].
        destruct (ds_write_whole T (mkDset dims (fun _ => zero)) p dims h g H eq_refl H1) as (ds' & E & D' & V'). rewrite E. simpl.
        eexists. eexists. split; [reflexivity|]. split; [exact I|].
        apply (fsim_ext (fput fs k (sput (fs k) n ds'))).
        { intros k' n'. unfold fput. destruct (k' =? k) eqn:Ek; auto. apply sput_sput. }
        apply (fsim_put fs a a' k n ds' (dims, g)); auto; [apply ne_holds; [apply H|auto]|right; auto].
    - (* scalar *)
      unfold write_scalar. destruct (HS k n) as (HD & _).
      assert (G : forall ds0 : dset T, dset_dims ds0 = [1] -> exists ds', ds_write ds0 [0] [1] [1] p h = Ok ds' /\
               dset_dims ds' = [1] /\ dset_val ds' [0] = x0).
      { intros ds0 D0. destruct (ds_write_spec T ds0 [0] [1] [1] p h (fun _ => x0)) as (ds' & E & D & V & _).
        - repeat constructor.
        - rewrite D0. reflexivity.
        - intros idx Hi. inversion Hi as [|i ? is ? I1 I2]; subst. inversion I2; subst. simpl.
          replace (p + (i * 1 + 0)) with p by lia. exact H.
        - exists ds'. split; auto. split; [congruence|]. assert (I : inb [0] [1]) by (repeat constructor; lia). exact (V [0] I). }
      destruct (fs k n) as [ds|] eqn:En.
      + destruct (a k n) as [(dv, g0)|] eqn:Ea; [|contradiction HD]. specialize (H0 _ eq_refl). simpl in H0. subst dv.
        destruct HD as (D0 & _). destruct (G ds D0) as (ds' & E & D' & V'). rewrite E. simpl.
        eexists. eexists. split; [reflexivity|]. split; [exact I|].
        apply (fsim_put fs a a' k n ds' ([], fun _ => x0)); auto; [split; auto|left; auto].
      + destruct (G (mkDset [1] (fun _ => zero)) eq_refl) as (ds' & E & D' & V'). rewrite E. simpl.
        eexists. eexists. split; [reflexivity|]. split; [exact I|].
        apply (fsim_ext (fput fs k (sput (fs k) n ds'))).
        { intros k' n'. unfold fput. destruct (k' =? k) eqn:Ek; auto. apply sput_sput. }
        apply (fsim_put fs a a' k n ds' ([], fun _ => x0)); auto; [split; auto|left; auto].
    - (* read *)
      destruct v as (dims, g). simpl in *. destruct (HS k n) as (HD & HG). rewrite H in HD, HG.
      destruct (holds_ne _ _ _ H0 HD) as (ds & En & D0 & V0). destruct HG as [HG|HG]; [contradiction|].
      subst dims. destruct (read_whole T zero (fs k) n ds En HG) as (h & E & HH).
      rewrite E. eexists. eexists. split; [reflexivity|]. split; auto.
      split; [reflexivity|]. intros idx Hi. rewrite (HH idx Hi). f_equal. apply V0. exact Hi.
    - (* read scalar *)
      destruct (HS k n) as (HD & _). rewrite H in HD. unfold read_scalar. destruct (fs k n) as [ds|]; [|contradiction].
      destruct HD as (D0 & V0). rewrite D0. simpl. eexists. eexists. split; [reflexivity|]. split; auto.
    - (* new disk tensor *)
      destruct (HS k n) as (HD & _). rewrite H0 in HD. unfold disk_ctor. destruct (fs k n) as [ds|] eqn:En; [contradiction|].
      unfold h5_create_chunked. simpl. rewrite default_chunk_ok by auto. rewrite fput_same, sput_same. simpl.
      destruct (list_eq_dec Z.eq_dec dims dims) as [_|X]; [|congruence].
      destruct (C40_history_partial T zero dims ops (fun _ => zero) a'0 (all_lt _ H) Hl H1) as (s' & E & F & _).
      rewrite E. eexists. eexists. split; [reflexivity|]. split; [reflexivity|].
      apply (fsim_ext (fput fs k (sput (fs k) n (mkDset dims (ds_file s'))))).
      { intros k' n'. unfold fput. destruct (k' =? k) eqn:Ek; auto. apply sput_sput. }
      apply (fsim_put fs a a' k n _ (dims, as_file a'0)); auto; [apply ne_holds; [apply H|auto]|right; auto].
    - (* old disk tensor *)
      destruct (HS k n) as (HD & _). rewrite H0 in HD. unfold disk_ctor.
      destruct (holds_ne _ _ _ (proj1 H) HD) as (ds & En & D0 & V0). rewrite En. rewrite En. rewrite D0. simpl.
      destruct (list_eq_dec Z.eq_dec dims dims) as [_|X]; [|congruence].
      assert (S0 : sim dims (mkDs (dset_val ds) []) (mkAs g [])) by (split; [exact V0|constructor]).
      destruct (steps_sim zero dims (all_lt _ H) ops _ _ _ H1 Hl S0) as (s' & E & F & _).
      rewrite E. eexists. eexists. split; [reflexivity|]. split; [reflexivity|].
      apply (fsim_put fs a a' k n _ (dims, as_file a'0)); auto; [apply ne_holds; [apply H|auto]|right; auto].
  Qed.

  Lemma steps_fsim : forall ops a xs a' fs, fsteps zero ops a xs a' -> Forall long_slices ops -> fsim fs a ->
    exists fs' ss, srun zero ops fs = (fs', Done ss) /\ Forall2 told ss xs /\ fsim fs' a'.
  Proof.
    intros ops a xs a' fs H. revert fs. induction H; intros cs Hl HS.
    - exists cs, []. repeat split; auto; apply HS.
    - inversion Hl; subst. destruct (step_fsim _ _ _ _ cs H H3 HS) as (cs1 & s & E1 & T1 & S1).
      destruct (IHfsteps cs1 H4 S1) as (cs2 & ss & E2 & T2 & S2).
      exists cs2, (s :: ss). split; [|split; auto]. simpl. rewrite E1, E2. reflexivity.
  Qed.
End Sim.

(** C116 and C117, histories.  Tensors and scalars are written to and read from
    any number of files, and disk tensors are made, viewed and changed, in any
    order, starting with empty files.  Whatever the dictionaries of [fstep] give,
    the program does: every read returns exactly the tensor last stored under
    that name in that file, other names and files are not disturbed, and a disk
    tensor shows what is stored and stores what its views left.
    What is missing: writing a tensor over one of other extents (see
    [C116_shrink_refuted]) and disk views with an extent of 1 (see C40). *)
Theorem C116_history_partial : forall T (zero : T) ops xs a',
  Forall long_slices ops ->
  fsteps zero ops (fun _ _ => None) xs a' ->
  exists fs' ss, srun zero ops (fun _ _ => None) = (fs', Done ss) /\ Forall2 told ss xs /\
    forall k n, ds_holds (fs' k n) (a' k n).
Proof.
  intros T zero ops xs a' Hl H.
  destruct (steps_fsim zero ops _ _ _ (fun _ _ => None) H Hl) as (fs' & ss & E & Ht & HS).
  - intros k n. split; exact I.
  - exists fs', ss. split; auto. split; auto. intros k n. apply HS.
Qed.

(** C116, round trip: what is written can be read, whatever else the file holds,
    and the other entries stay. *)
Theorem C116_round_trip : forall T (zero : T) (st : store T) n p dims h g,
  all_pos dims -> holds h (tensor_ctor p dims) g -> (forall ds, st n = Some ds -> dset_dims ds = dims) ->
  exists st' h', write_tensor zero st n (tensor_ctor p dims) h no_args = (st', Done tt) /\
    read_tensor zero st' n (length dims) = Done (tensor_ctor 0 dims, h') /\ holds h' (tensor_ctor 0 dims) g /\
    forall m, m <> n -> st' m = st m.
Proof.
  intros T zero st n p dims h g Hp Hh Hd. unfold write_tensor. simpl.
  assert (G : forall st0 ds0, (forall m, m <> n -> st0 m = st m) -> dset_dims ds0 = dims ->
    exists st' h', finish_write st0 n (ds_write ds0 (repeat 0 (length dims)) (repeat 1 (length dims)) dims p h) = (st', Done tt) /\
    read_tensor zero st' n (length dims) = Done (tensor_ctor 0 dims, h') /\ holds h' (tensor_ctor 0 dims) g /\
    forall m, m <> n -> st' m = st m).
  { intros st0 ds0 Hst D0. destruct (ds_write_whole T ds0 p dims h g Hp D0 Hh) as (ds' & E & D' & V). rewrite E.
    subst dims. rewrite <- D' in Hp |- *.
    destruct (read_whole T zero (sput st0 n ds') n ds' (sput_same _ _ _ _) Hp) as (h' & E' & HH).
    exists (sput st0 n ds'), h'. split; [reflexivity|]. split; [exact E'|]. split.
    - intros idx Hi. rewrite (HH idx Hi). f_equal. apply V. rewrite <- D'. exact Hi.
    - intros m Hm. rewrite sput_other by auto. auto. }
  destruct (st n) as [ds|] eqn:En.
  - apply G; auto.
  - unfold h5_create. destruct (list_eq_dec Z.eq_dec dims dims) as [_|X]; [|congruence].
    apply G; [|reflexivity]. intros m Hm. now apply sput_other.
Qed.

(** A scalar likewise. *)
Theorem C116_scalar_round_trip : forall T (zero : T) (st : store T) n p h x,
  h p = Some x -> (forall ds, st n = Some ds -> exists d, dset_dims ds = [d] /\ 1 <= d) ->
  exists st', write_scalar zero st n p h = (st', Done tt) /\ read_scalar zero st' n = Done x /\ forall m, m <> n -> st' m = st m.
Proof.
  intros T zero st n p h x Hx Hd. unfold write_scalar.
  assert (G : forall st0 (ds0 : dset T) d, (forall m, m <> n -> st0 m = st m) -> dset_dims ds0 = [d] -> 1 <= d ->
    exists st', finish_write st0 n (ds_write ds0 [0] [1] [1] p h) = (st', Done tt) /\ read_scalar zero st' n = Done x /\
      forall m, m <> n -> st' m = st m).
  { intros st0 ds0 d Hst D0 Hd1. destruct (ds_write_spec T ds0 [0] [1] [1] p h (fun _ => x)) as (ds' & E & D & V & _).
    - repeat constructor.
    - rewrite D0. cbn [sel_in]. replace (0 + 1 * (1 - 1) <? d) with true by (symmetry; apply Z.ltb_lt; lia). reflexivity.
    - intros idx Hi. inversion Hi as [|i ? is ? I1 I2]; subst. inversion I2; subst. simpl.
      replace (p + (i * 1 + 0)) with p by lia. exact Hx.
    - rewrite E. exists (sput st0 n ds'). split; [reflexivity|]. split.
      + unfold read_scalar. rewrite sput_same, D, D0. cbn [slab_ok]. replace (0 + 1 <=? d) with true by (symmetry; apply Z.leb_le; lia). simpl.
        assert (I : inb [0] [1]) by (repeat constructor; lia). f_equal. exact (V [0] I).
      + intros m Hm. rewrite sput_other by auto. auto. }
  destruct (st n) as [ds|] eqn:En.
  - destruct (Hd _ eq_refl) as (d & D0 & H1). apply (G st ds d); auto.
  - apply (G _ _ 1); auto; [|lia]. intros m Hm. now apply sput_other.
Qed.

(** C116, writing over part of a data set: with an offset and strides, element
    [idx] of the tensor goes to offset + stride * [idx]; all other elements and
    all other entries stay.  It succeeds exactly when the tensor has the rank
    of the data set and fits; otherwise it throws and the file is as before. *)
Theorem C116_write_part : forall T (zero : T) (st : store T) n p dims h g ds offset stride,
  all_pos dims -> holds h (tensor_ctor p dims) g -> st n = Some ds ->
  length offset = length dims -> length stride = length dims -> Forall (fun s => 0 < s) stride ->
  let fits := length (dset_dims ds) = length dims /\
    forall idx, inb idx dims -> Forall2 Z.lt (map (fun oi => fst (fst oi) + snd (fst oi) * snd oi) (combine (combine offset stride) idx)) (dset_dims ds) in
  (fits -> exists ds', write_tensor zero st n (tensor_ctor p dims) h (mkArgs None None None (Some offset) (Some stride) None) = (sput st n ds', Done tt) /\
     dset_dims ds' = dset_dims ds /\
     (forall idx, inb idx dims -> dset_val ds' (map (fun oi => fst (fst oi) + snd (fst oi) * snd oi) (combine (combine offset stride) idx)) = g idx) /\
     (forall j, (forall idx, inb idx dims -> j <> map (fun oi => fst (fst oi) + snd (fst oi) * snd oi) (combine (combine offset stride) idx)) ->
        dset_val ds' j = dset_val ds j)) /\
  (~ fits -> write_tensor zero st n (tensor_ctor p dims) h (mkArgs None None None (Some offset) (Some stride) None) = (st, Threw)).
Proof.
  intros T zero st n p dims h g ds offset stride Hp Hh Hn Lo Ls Hst fits.
  assert (SP : forall idx, map (fun oi => fst (fst oi) + snd (fst oi) * snd oi) (combine (combine offset stride) idx) = spos offset stride idx).
  { clear. revert stride. induction offset as [|o os IH]; intros [|s ss] [|i is]; simpl; auto. f_equal. apply IH. }
  assert (SEL : fits <-> sel_in (dset_dims ds) offset stride dims = true).
  { unfold fits. assert (HG := all_gt _ Hp). clear - SP Lo Ls HG Hst.
    assert (SP' : forall idx, Forall2 Z.lt (map (fun oi => fst (fst oi) + snd (fst oi) * snd oi) (combine (combine offset stride) idx)) (dset_dims ds) <->
                  Forall2 Z.lt (spos offset stride idx) (dset_dims ds)) by (intros; rewrite SP; tauto).
    enough (G : forall fd offset stride dims, length offset = length dims -> length stride = length dims -> Forall (fun s => 0 < s) stride ->
      Forall (fun d => 0 < d) dims ->
      (length fd = length dims /\ (forall idx, inb idx dims -> Forall2 Z.lt (spos offset stride idx) fd)) <-> sel_in fd offset stride dims = true).
    { rewrite <- G by auto. split; intros (A & B); (split; [exact A|]); intros idx Hi; apply SP'; auto. }
    clear. induction fd as [|f fd IH]; intros [|o os] [|s ss] [|d ds] Lo Ls HS HD; try discriminate; simpl.
    - split; [intros _; reflexivity|]. intros _. split; [reflexivity|]. intros idx Hi. inversion Hi; subst. constructor.
    - split; [intros (X & _); discriminate|intros X; discriminate].
    - split; [intros (X & _); discriminate|intros X; discriminate].
    - inversion HS; subst. inversion HD; subst. rewrite !andb_true_iff, Z.ltb_lt, Z.ltb_lt.
      specialize (IH os ss ds ltac:(simpl in Lo; lia) ltac:(simpl in Ls; lia) H2 H4).
      assert (Z0 : inb (map (fun _ => 0) ds) ds).
      { clear - H4. induction ds as [|e ds IH2]; [constructor|]. inversion H4; subst. simpl. constructor; [lia|apply IH2; auto]. }
      split.
      + intros (L & A). split; [split; auto|].
        * assert (I : inb ((d - 1) :: map (fun _ => 0) ds) (d :: ds)) by (constructor; auto; lia).
          specialize (A _ I). simpl in A. inversion A; subst. lia.
        * apply IH. split; [lia|]. intros idx Hi. assert (I : inb (0 :: idx) (d :: ds)) by (constructor; auto; lia).
          specialize (A _ I). simpl in A. now inversion A.
      + intros ((_ & B) & C). apply IH in C. destruct C as (L & C). split; [lia|].
        intros idx Hi. inversion Hi as [|i ? is ? I1 I2]; subst. simpl. constructor; [nia|]. apply C; auto. }
  unfold write_tensor. simpl. rewrite Hn. split.
  - intros HF. apply SEL in HF.
    destruct (ds_write_spec T ds offset stride dims p h g (all_gt _ Hp) HF) as (ds' & E & D & V & W).
    + intros idx Hi. specialize (Hh idx Hi). unfold addr in Hh. simpl in Hh.
      rewrite rowcode_dotp by (apply inb_length; auto). exact Hh.
    + rewrite E. exists ds'. split; [reflexivity|]. split; auto. split.
      * intros idx Hi. rewrite SP. auto.
      * intros j Hj. apply W. intros idx Hi. rewrite <- SP. auto.
  - intros HF. unfold ds_write. destruct (sel_in (dset_dims ds) offset stride dims) eqn:Es; [|reflexivity].
    exfalso. apply HF. now apply SEL.
Qed.

(** C116 fails when a tensor is written over a larger one of the same name: the
    write succeeds and the tensor read back is neither the old nor the new one. *)
Theorem C116_shrink_refuted : exists (st : store Z) n h2 st2 h',
  write_tensor 0 (fun _ => None) n (tensor_ctor 0 [2; 2]) (fun _ => Some 1) no_args = (st, Done tt) /\
  holds h2 (tensor_ctor 0 [1; 1]) (fun _ => 5) /\
  write_tensor 0 st n (tensor_ctor 0 [1; 1]) h2 no_args = (st2, Done tt) /\
  read_tensor 0 st2 n 2 = Done (tensor_ctor 0 [2; 2], h') /\ map h' [0; 1; 2; 3] = [Some 5; Some 1; Some 1; Some 1].
Proof.
  eexists _, "A"%string, (fun _ => Some 5), _, _. split; [reflexivity|]. split; [intros idx _; reflexivity|].
  split; [reflexivity|]. split; [reflexivity|]. reflexivity.
Qed.

(** C116 fails with [h5::count]: asked to write the leading 2 x 2 block of a
    3 x 3 tensor, [write] stores its first four elements. *)
Theorem C116_count_refuted : exists (st : store Z) n h g ds,
  holds h (tensor_ctor 0 [3; 3]) g /\
  write_tensor 0 (fun _ => None) n (tensor_ctor 0 [3; 3]) h (mkArgs (Some [2; 2]) (Some [2; 2]) (Some [2; 2]) None None None) = (st, Done tt) /\
  st n = Some ds /\ exists idx, inb idx [2; 2] /\ dset_val ds idx <> g idx.
Proof.
  eexists _, "A"%string, (fun a => Some a), (fun idx => rowcode [3; 3] idx), _.
  split; [intros idx Hi; rewrite rowcode_dotp by (apply inb_length; exact Hi); reflexivity|].
  split; [reflexivity|]. split; [reflexivity|]. exists [1; 0]. split; [repeat constructor; lia|]. vm_compute. discriminate.
Qed.

(** C116 fails with [h5::current_dims] alone, which is how a larger data set is
    asked for: the maximal extents stay those of the tensor and the write throws. *)
Theorem C116_current_dims_refuted : forall T (zero : T) (st : store T) n d h cur,
  st n = None -> cur <> ddims d ->
  write_tensor zero st n d h (mkArgs (Some cur) None None None None None) = (st, Threw).
Proof.
  intros T zero st n d h cur Hn Hc. unfold write_tensor. simpl. rewrite Hn. unfold h5_create.
  destruct (list_eq_dec Z.eq_dec cur (ddims d)); [contradiction|reflexivity].
Qed.

(** [h5::block] has no effect. *)
Theorem C116_block_refuted : forall T (zero : T) (st : store T) n d h c m k o s b,
  write_tensor zero st n d h (mkArgs c m k o s (Some b)) = write_tensor zero st n d h (mkArgs c m k o s None).
Proof. reflexivity. Qed.

(** Reading a name that is not there ends the process; there is no exception to
    catch. *)
Theorem C116_missing_aborts : forall T (zero : T) (st : store T) n,
  st n = None -> (forall rank, read_tensor zero st n rank = Aborted) /\ read_scalar zero st n = Aborted.
Proof. intros T zero st n H. unfold read_tensor, read_scalar. rewrite H. auto. Qed.

(** C117, construction: a disk tensor of a name already in its file leaves the
    file alone and says so; one of a new name adds zeros of the given extents
    under that name, and changes nothing else, if its chunks fit, and otherwise
    ends the process. *)
Theorem C117_construct : forall T (zero : T) (fs : files T) k n chunk dims,
  all_pos dims ->
  (forall ds, fs k n = Some ds -> exists t, disk_ctor zero fs k n chunk dims = (fs, Done t) /\ dt_existed t = true) /\
  (fs k n = None ->
     (match chunk with None => True | Some c => Forall2 (fun x d => 0 < x <= d) c dims end ->
        exists fs' t ds, disk_ctor zero fs k n chunk dims = (fs', Done t) /\ dt_existed t = false /\
        fs' k n = Some ds /\ dset_dims ds = dims /\ (forall idx, dset_val ds idx = zero) /\
        (forall k' n', (k', n') <> (k, n) -> fs' k' n' = fs k' n')) /\
     (match chunk with None => False | Some c => ~ Forall2 (fun x d => 0 < x <= d) c dims end ->
        disk_ctor zero fs k n chunk dims = (fs, Aborted))).
Proof.
  intros T zero fs k n chunk dims Hp.
  assert (CK : forall c ds, chunk_ok ds c = true <-> Forall2 (fun x d => 0 < x <= d) c ds).
  { clear. induction c as [|x c IH]; intros [|d ds]; simpl; (split; [intros H; try discriminate; try constructor|intros H; inversion H; subst; auto]).
    - apply andb_true_iff in H. destruct H as (H & _). apply andb_true_iff in H. rewrite Z.ltb_lt, Z.leb_le in H. lia.
    - apply andb_true_iff in H. apply IH. tauto.
    - rewrite !andb_true_iff, Z.ltb_lt, Z.leb_le. rewrite IH. tauto. }
  unfold disk_ctor. split.
  - intros ds E. rewrite E. eexists. split; reflexivity.
  - intros E. rewrite E. unfold h5_create_chunked. split.
    + intros Hc. assert (C : chunk_ok dims (arg (default_chunk dims) chunk) = true).
      { destruct chunk as [c|]; simpl; [now apply CK|now apply default_chunk_ok]. }
      rewrite C. eexists. eexists. eexists. split; [reflexivity|]. split; [reflexivity|].
      rewrite fput_same, sput_same. split; [reflexivity|]. split; [reflexivity|]. split; [reflexivity|].
      intros k' n' Hne. unfold fput. destruct (Z.eqb_spec k' k) as [->|]; auto. apply sput_other. congruence.
    + intros Hc. destruct chunk as [c|]; [|contradiction]. simpl.
      destruct (chunk_ok dims c) eqn:C; [|reflexivity]. exfalso. apply Hc. now apply CK.
Qed.

(** C117, views: a view of a disk tensor shows the selected block of what the
    file holds, when the disk tensor was given the extents of the data set. *)
Theorem C117_view_partial : forall T (zero : T) (fs : files T) t ds sels ro,
  fs (dt_file t) (dt_name t) = Some ds -> dt_dims t = dset_dims ds ->
  Forall (fun d => d < 2 ^ 64) (dset_dims ds) -> slice_ok (dset_dims ds) sels -> Forall (fun d => 1 < d) (extents (dset_dims ds) sels) ->
  exists v, dt_view zero fs t sels ro = Ok v /\ dv_dims v = extents (dset_dims ds) sels /\
    forall idx, inb idx (extents (dset_dims ds) sels) -> disk_get v idx = Ok (dset_val ds (embed sels idx)).
Proof.
  intros T zero fs t ds sels ro E D Hb Hs Hu. unfold dt_view. rewrite E, D.
  destruct (open_spec zero (dset_dims ds) Hb (dset_val ds) sels ro Hs Hu) as (v & Ev & Sv). unfold disk_open in Ev. rewrite Ev.
  exists v. split; auto. apply (simv_shows _ (Some v) (Some (sels, ro, fun idx => dset_val ds (embed sels idx)))). exact Sv.
Qed.

(** C117 fails for other extents: a disk tensor of an existing name takes the
    extents it is given, without a word, and a view inside these extents
    throws. *)
Theorem C117_extents_refuted : exists (fs : files Z) t, 
  disk_ctor 0 fs 1 "A" None [4; 4] = (fs, Done t) /\ dt_dims t = [4; 4] /\
  (exists ds, fs 1 "A"%string = Some ds /\ dset_dims ds = [2; 2]) /\
  slice_ok (dt_dims t) [DAll; DAll] /\ dt_view 0 fs t [DAll; DAll] false = Throw.
Proof.
  exists (fput (fun _ _ => None) 1 (sput (fun _ => None) "A"%string (mkDset [2; 2] (fun _ => 7)))), (mkDt 1 "A" [4; 4] true).
  split; [reflexivity|]. split; [reflexivity|]. split; [eexists; split; reflexivity|].
  split; [|reflexivity]. split; [repeat constructor|discriminate].
Qed.

(** C117 fails for a disk tensor made like a tensor: the name is looked up in
    the given file but opened in the program's own data file.  The elements
    seen are those of another file, or the process ends. *)
Theorem C117_other_file_refuted : exists (fs : files Z) t ds1 ds2 v,
  fs 1 "A"%string = Some ds1 /\ (forall idx, dset_val ds1 idx = 7) /\ fs 0 "A"%string = Some ds2 /\ (forall idx, dset_val ds2 idx = 8) /\
  disk_ctor_like 0 fs 1 0 "A" [2; 2] = (fs, Done t) /\ dt_view 0 fs t [DAll; DAll] true = Ok v /\
  forall idx, inb idx [2; 2] -> disk_get v idx = Ok 8.
Proof.
  set (ds1 := mkDset [2; 2] (fun _ => 7)). set (ds2 := mkDset [2; 2] (fun _ => 8)).
  set (fs := fput (fput (fun _ _ => None) 1 (sput (fun _ => None) "A"%string ds1)) 0 (sput (fun _ => None) "A"%string ds2)).
  set (t := mkDt 0 "A" [2; 2] true).
  destruct (C117_view_partial Z 0 fs t ds2 [DAll; DAll] true eq_refl eq_refl) as (v & E & _ & V).
  - repeat constructor.
  - split; [repeat constructor; simpl; lia|discriminate].
  - repeat constructor.
  - exists fs, t, ds1, ds2, v. split; [reflexivity|]. split; [reflexivity|]. split; [reflexivity|]. split; [reflexivity|].
    split; [reflexivity|]. split; [exact E|]. intros idx Hi. apply (V idx Hi).
Qed.
Theorem C117_other_file_aborts : forall T (zero : T) (fs : files T) k g n dims ds,
  fs k n = Some ds -> fs g n = None -> disk_ctor_like zero fs k g n dims = (fs, Aborted).
Proof. intros. unfold disk_ctor_like. now rewrite H, H0. Qed.
(** In the program's own data file it behaves. *)
Theorem C117_like_partial : forall T (zero : T) (fs : files T) g n dims,
  disk_ctor_like zero fs g g n dims = disk_ctor zero fs g n None dims.
Proof. intros. unfold disk_ctor_like, disk_ctor. destruct (fs g n); auto. Qed.

(** Case: two files; a vector is written, changed through a disk tensor and read
    again; a scalar of the same name lives in the other file. *)
Example C116_case :
  let ops := [SWrite 1 "v" (tensor_ctor 10 [3]) (fun a => Some (a * a)); SWrite0 2 "v" 4 (fun a => Some a);
              SDisk 1 "v" [3] [OOpen [DRange 1 3] false; OSet 0 [1] 99; OClose 0]; SRead 1 "v" 1; SRead0 2 "v"] in
  Forall long_slices ops /\
  (exists xs a', fsteps 0 ops (fun _ _ => None) xs a') /\
  match srun 0 ops (fun _ _ => None) with
  | (_, Done [SawNothing; SawNothing; SawDisk true; SawTensor d h; SawScalar 4]) => ddims d = [3] /\ map h [0; 1; 2] = [Some 100; Some 121; Some 99]
  | _ => False
  end.
Proof.
  intros ops. split; [repeat constructor; simpl; lia|]. split.
  - set (g := fun idx : list Z => match idx with [i] => (10 + i) * (10 + i) | _ => 0 end).
    set (g' := fun idx : list Z => if list_eq_dec Z.eq_dec idx [2] then 99 else g idx).
    set (c := fun idx : list Z => g (embed [DRange 1 3] idx)).
    set (c' := fun idx : list Z => if list_eq_dec Z.eq_dec idx [1] then 99 else c idx).
    set (a1 := fun (k : Z) (n : string) => if (k =? 1) && (if string_dec n "v" then true else false) then Some ([3], g) else None).
    set (a2 := fun (k : Z) (n : string) => if (k =? 2) && (if string_dec n "v" then true else false) then Some ([], fun _ : list Z => 4) else a1 k n).
    set (a3 := fun (k : Z) (n : string) => if (k =? 1) && (if string_dec n "v" then true else false) then Some ([3], g') else a2 k n).
    assert (R : forall (a : afiles Z) kk v, replaced a (fun (k : Z) (n : string) => if (k =? kk) && (if string_dec n "v" then true else false) then Some v else a k n) kk "v" v).
    { intros a kk v. split; [now rewrite Z.eqb_refl|]. intros k' n' Hne.
      destruct (Z.eqb_spec k' kk) as [->|]; auto. destruct (string_dec n' "v") as [->|]; auto. contradiction. }
    assert (P3 : all_pos [3]) by (split; [discriminate|repeat constructor; lia]).
    eexists. exists a3.
    eapply fs_cons. { apply (f_write 0 (fun _ _ => None) a1 1 "v" (tensor_ctor 10 [3]) _ g); auto.
      - exists 10. reflexivity.
      - intros idx Hi. inversion Hi as [|i ? is ? I1 I2]; subst. inversion I2; subst. unfold addr. simpl.
        replace (10 + (i * 1 + 0)) with (10 + i) by lia. reflexivity.
      - intros v E. discriminate.
      - apply (R (fun _ _ => None)). }
    eapply fs_cons. { apply (f_write0 0 a1 a2 2 "v" 4 _ 4); auto.
      - intros v E. discriminate.
      - apply (R a1). }
    eapply fs_cons. { apply (f_disk_old 0 a2 a3 1 "v" [3] g _ (mkAs g' [@None (aview Z)])); auto; [|apply (R a2 1 ([3], g'))].
      eapply as_cons. { apply a_open. split; [repeat constructor; simpl; lia|discriminate]. }
      eapply as_cons. { eapply (a_set _ 0%nat) with (c' := c'); [reflexivity| |reflexivity|].
        - repeat constructor; lia.
        - intros j Hj. unfold c'. destruct (list_eq_dec Z.eq_dec j [1]); [contradiction|reflexivity]. }
      eapply as_cons. { eapply (a_close_rw _ 0%nat) with (f' := g'); [reflexivity|]. split.
        - intros idx Hi. inversion Hi as [|i ? is ? H1 H2]; subst. inversion H2; subst. unfold g', c', c. cbn [embed].
          destruct (list_eq_dec Z.eq_dec [i] [1]) as [E|E]; destruct (list_eq_dec Z.eq_dec [1 + i] [2]) as [E'|E']; auto.
          + inversion E; subst. exfalso. now apply E'.
          + inversion E'. exfalso. apply E. f_equal. lia.
        - intros j Hj Hn. unfold g'. destruct (list_eq_dec Z.eq_dec j [2]) as [->|]; auto.
          exfalso. apply (Hn [1]); [repeat constructor; lia|reflexivity]. }
      apply as_nil. }
    eapply fs_cons. { apply (f_read 0 a3 1 "v" ([3], g')); [reflexivity|discriminate]. }
    eapply fs_cons. { apply (f_read0 0 a3 2 "v" (fun _ => 4)). reflexivity. }
    apply fs_nil.
  - vm_compute. auto.
Qed.

(** Case: a 2 x 2 tensor is written into the middle of a 4 x 4 data set, every second row. *)
Example C116_part_case :
  let st := sput (fun _ => None) "A"%string (mkDset [4; 4] (fun _ => 0)) in
  match write_tensor 0 st "A" (tensor_ctor 0 [2; 2]) (fun a => Some (a + 1)) (mkArgs None None None (Some [0; 1]) (Some [2; 1]) None) with
  | (st', Done _) => match st' "A"%string with
                     | Some ds => map (dset_val ds) (indices [4; 4]) = [0; 1; 2; 0; 0; 0; 0; 0; 0; 3; 4; 0; 0; 0; 0; 0]
                     | None => False end
  | _ => False
  end.
Proof. vm_compute. reflexivity. Qed.

Print Assumptions C116_history_partial.
Print Assumptions C116_round_trip.
Print Assumptions C116_scalar_round_trip.
Print Assumptions C116_write_part.
Print Assumptions C116_shrink_refuted.
Print Assumptions C116_count_refuted.
Print Assumptions C116_current_dims_refuted.
Print Assumptions C116_block_refuted.
Print Assumptions C116_missing_aborts.
Print Assumptions C117_construct.
Print Assumptions C117_view_partial.
Print Assumptions C117_extents_refuted.
Print Assumptions C117_other_file_refuted.
Print Assumptions C117_other_file_aborts.
Print Assumptions C117_like_partial.
