(** * T_PyIndex: subscripts from Python (C79). *)
From Coq Require Import List ZArith Lia Bool Permutation.
From Verif Require Import Base Heap Conc M_Addr S_Addr L_Addr M_Elt L_Elt S_Einsum S_Fun M_Runtime S_Runtime T_Runtime
  M_PyTensor S_PyTensor.
Import ListNotations.
Open Scope Z_scope.

Lemma adjust_bound : forall d x, 0 <= d -> adjust d x = np_bound d x.
Proof. intros. unfold adjust, np_bound. destruct (Z.ltb_spec x 0); lia. Qed.
Lemma bound_range : forall d x, 0 <= d -> 0 <= np_bound d x <= d.
Proof. intros. unfold np_bound. lia. Qed.
Lemma lo_range : forall d a, 0 <= d -> 0 <= np_lo d a <= d.
Proof. intros. destruct a; simpl; [now apply bound_range|lia]. Qed.
Lemma hi_range : forall d a, 0 <= d -> 0 <= np_hi d a <= d.
Proof. intros. destruct a; simpl; [now apply bound_range|lia]. Qed.
Lemma slice_bounds_ok : forall d a b s, 0 <= d -> np_step1 s -> slice_bounds d a b s = Ok (np_lo d a, np_hi d b).
Proof.
  intros d a b s Hd Hs. unfold slice_bounds. replace (match s with None => 1 | Some s => s end) with 1 by (destruct Hs as [-> | ->]; auto).
  simpl. f_equal. f_equal.
  - destruct a; simpl; [now apply adjust_bound|]. unfold adjust. simpl. lia.
  - destruct b; simpl; [now apply adjust_bound|auto].
Qed.
Lemma slice_bounds_step : forall d a b s, ~ np_step1 s -> slice_bounds d a b s = Throw.
Proof.
  intros d a b s Hs. unfold slice_bounds. destruct (Z.eqb_spec (match s with None => 1 | Some s => s end) 1) as [E|E]; auto.
  exfalso. apply Hs. destruct s; [right; now rewrite E|now left].
Qed.
Lemma step1_dec : forall s, {np_step1 s} + {~ np_step1 s}.
Proof.
  intros [s|]; [|left; now left]. destruct (Z.eq_dec s 1); [left; right; now subst|right].
  intros [H|H]; [discriminate|congruence].
Qed.

(** The ranges made from a supported subscript. *)
Lemma py_ranges_ok : forall dims args, Forall extent dims -> supported false args dims ->
  exists rs, py_ranges dims args = Ok rs /\ length rs = length args /\
    (length args <= length dims)%nat /\
    Forall (fun r => int64 (fst r) /\ int64 (snd r)) rs /\
    Forall2 accepted (fill_up (length dims) (map range_means rs)) dims /\
    slice_dims (fill_up (length dims) (map range_means rs)) dims = np_dims args dims /\
    (forall j p, np_sel args dims j p -> selects (fill_up (length dims) (map range_means rs)) dims j p).
Proof.
  induction dims as [|d ds IH]; intros args HE HS.
  - destruct args as [|[k|k|a b s|] r]; try contradiction. exists []. cbn [py_ranges].
    repeat split; auto; try constructor. intros j p H. inversion H; subst. constructor.
  - inversion HE as [|? ? Hd HE']; subst. destruct args as [|a r].
    + cbn [supported] in HS. inversion HS; subst.
      destruct (IH [] HE') as (rs & E & L & Ln & HI & HA & HD & HX). { simpl. destruct ds; auto. }
      assert (rs = []) by (destruct rs; auto; discriminate). subst rs.
      exists []. split; auto. split; auto. split; [simpl; lia|]. split; auto. cbn [length map]. rewrite fill_up_nil. split; [|split].
      * constructor; auto.
      * simpl. f_equal. simpl in HD. rewrite HD. destruct ds; reflexivity.
      * intros j p H. inversion H; subst. constructor; auto.
    + assert (G : exists q m, (p <- match a with PInt _ => k <- cast_size a ;; Ok (-1, to_ptrdiff k) | PSlice x y s => slice_bounds d x y s | _ => Ok (0, 0) end ;;
                 q <- py_ranges ds r ;; Ok (p :: q)) = (rs <- py_ranges ds r ;; Ok (q :: rs)) /\
               (int64 (fst q) /\ int64 (snd q)) /\ range_means q = m /\ supported false r ds /\ accepted m d /\
               match a with PInt k => m = SInt k /\ 0 <= k < d | PSlice x y s => m = SRange (np_lo d x) (np_hi d y) /\ np_lo d x < np_hi d y | _ => False end).
      { unfold extent in Hd. destruct a as [k|k|x y s|]; cbn [supported] in HS.
        - destruct HS as (Hk & HS). exists (-1, k), (SInt k). unfold cast_size.
          rewrite (proj2 (Z.leb_le 0 k)), (proj2 (Z.ltb_lt k (2 ^ 64))) by lia. cbn [andb bind]. rewrite to_ptrdiff_id by (unfold int64; lia).
          split; [reflexivity|]. split; [unfold int64; simpl; lia|]. split; [reflexivity|]. split; auto. split; [simpl; lia|]. auto.
        - destruct HS as (Hf & _). discriminate.
        - destruct HS as (Hs & Hlt & HS). assert (L := lo_range d x). assert (H := hi_range d y).
          exists (np_lo d x, np_hi d y), (SRange (np_lo d x) (np_hi d y)). rewrite slice_bounds_ok by (auto; lia). cbn [bind].
          split; [reflexivity|]. split; [unfold int64; simpl; lia|]. split; [unfold range_means; simpl; destruct (Z.eqb_spec (np_lo d x) (-1)); [lia|auto]|].
          split; auto. split; [simpl; lia|]. auto.
        - contradiction. }
      destruct G as (q & m & Eq & Iq & Em & HS' & Hm & Hc).
      destruct (IH r HE' HS') as (rs & E & L & Ln & HI & HA & HD & HX).
      exists (q :: rs). cbn [py_ranges]. rewrite Eq, E. cbn [bind]. split; auto. split; [simpl; lia|]. split; [simpl; lia|]. split; [constructor; auto|].
      cbn [length map]. rewrite fill_up_cons, Em. split; [constructor; auto|]. split.
      * cbn [slice_dims]. destruct a as [k|k|x y s|]; try contradiction; destruct Hc as (-> & Hc); cbn [slice_dims np_dims]; rewrite HD; auto.
        assert (H := hi_range d y). unfold extent in Hd. destruct (Z.ltb_spec (np_hi d y) 0); [lia|]. f_equal. lia.
      * intros j p H. destruct a as [k|k|x y s|]; try contradiction; destruct Hc as (-> & Hc); inversion H; subst; try (match goal with H0 : PSlice _ _ _ = _ \/ _ |- _ => destruct H0; discriminate end).
        -- match goal with H0 : PInt _ = PInt _ \/ _ |- _ => destruct H0 as [H0|H0]; inversion H0; subst end. constructor; auto.
        -- assert (Hh := hi_range d y). assert (Hl := lo_range d x). unfold extent in Hd. eapply sel_range with (e := np_hi d y); auto; try lia.
Qed.

(** Ranges from an unsupported one: an exception, or ranges that are not
    accepted. *)
Definition small (a : pyobj) : Prop := match a with PInt k | PIndex k => k < 2 ^ 63 | _ => True end.
Lemma py_ranges_bad : forall dims args, Forall extent dims -> Forall small args -> (length args <= length dims)%nat ->
  py_ranges dims args = Throw \/
  exists rs, py_ranges dims args = Ok rs /\ length rs = length args /\ Forall (fun r => int64 (fst r) /\ int64 (snd r)) rs /\
    (Forall2 accepted (fill_up (length dims) (map range_means rs)) dims -> supported false args dims).
Proof.
  induction dims as [|d ds IH]; intros args HE HM HL.
  - destruct args; [|simpl in HL; lia]. right. exists []. repeat split; auto. simpl. constructor.
  - inversion HE as [|? ? Hd HE']; subst. unfold extent in Hd. destruct args as [|a r].
    + right. exists []. cbn [py_ranges]. repeat split; auto. cbn [length map]. intros H. rewrite fill_up_nil in H. inversion H; subst.
      cbn [supported]. constructor; [auto|]. destruct (IH [] HE' (Forall_nil _) ltac:(simpl; lia)) as [Hx|(rs & E & L & _ & HS)].
      * exfalso. destruct ds; discriminate.
      * destruct rs; [|discriminate]. specialize (HS ltac:(auto)). destruct ds; simpl in HS; auto.
    + inversion HM as [|? ? Ha HM']; subst. cbn [length] in HL. cbn [py_ranges].
      destruct (IH r HE' HM' ltac:(lia)) as [Hx|(rs & E & L & HI & HS)].
      { left. rewrite Hx. destruct a; simpl; auto. - destruct (_ && _); auto. - destruct (slice_bounds _ _ _ _) eqn:Eb; auto. unfold slice_bounds in Eb. destruct (_ =? _); discriminate. }
      rewrite E. destruct a as [k|k|x y s|]; cbn [cast_size small] in *.
      * destruct (Z.leb_spec 0 k); [|now left]. rewrite (proj2 (Z.ltb_lt k (2 ^ 64))) by lia. cbn [andb bind]. rewrite to_ptrdiff_id by (unfold int64; lia).
        right. eexists. split; [reflexivity|]. split; [simpl; lia|]. split; [constructor; auto; unfold int64; simpl; lia|].
        cbn [length map]. rewrite fill_up_cons. intros HA. inversion HA as [|? ? ? ? H1 H2]; subst. simpl in H1. cbn [supported]. split; [lia|auto].
      * right. eexists. split; [reflexivity|]. split; [simpl; lia|]. split; [constructor; auto; unfold int64; simpl; lia|].
        cbn [length map]. rewrite fill_up_cons. intros HA. inversion HA as [|? ? ? ? H1 H2]; subst. simpl in H1. lia.
      * destruct (step1_dec s) as [Hs|Hs]; [|left; now rewrite slice_bounds_step].
        assert (Hl := lo_range d x). assert (Hh := hi_range d y). rewrite slice_bounds_ok by (auto; lia). cbn [bind].
        right. eexists. split; [reflexivity|]. split; [simpl; lia|]. split; [constructor; auto; unfold int64; simpl; lia|].
        cbn [length map]. rewrite fill_up_cons. intros HA. inversion HA as [|? ? ? ? H1 H2]; subst. unfold range_means in H1. simpl in H1.
        destruct (Z.eqb_spec (np_lo d x) (-1)); [lia|]. simpl in H1. cbn [supported]. split; auto. split; [lia|auto].
      * right. eexists. split; [reflexivity|]. split; [simpl; lia|]. split; [constructor; auto; unfold int64; simpl; lia|].
        cbn [length map]. rewrite fill_up_cons. intros HA. inversion HA as [|? ? ? ? H1 H2]; subst. simpl in H1. lia.
Qed.

Lemma to_view_ok : forall v args, rs_ok (RV v) -> supported false args (ddims (rv_desc v)) ->
  exists w, subscript_to_view v args = Ok w /\ rs_ok (RV w) /\ shows v args w.
Proof.
  intros v args HV HS. destruct (py_ranges_ok _ _ (proj1 HV) HS) as (rs & E & L & Ln & HI & HA & HD & HX). cbn [rs_desc] in *.
  unfold subscript_to_view. rewrite E. cbn [bind].
  destruct (proj1 (C43_ranges_partial (RV v) rs HV HI)) as (w & Ew & Ow & Dw & Sw).
  { cbn [rs_desc]. split; [lia|auto]. }
  exists w. split; auto. split; auto. cbn [rs_desc] in *. split; [now rewrite Dw|]. intros j p H. apply Sw. auto.
Qed.
Lemma to_view_bad : forall v args, rs_ok (RV v) -> Forall small args -> (length args <= length (ddims (rv_desc v)))%nat ->
  ~ supported false args (ddims (rv_desc v)) -> subscript_to_view v args = Throw.
Proof.
  intros v args HV HM HL HN. unfold subscript_to_view.
  destruct (py_ranges_bad _ _ (proj1 HV) HM HL) as [E|(rs & E & L & HI & HS)]; cbn [rs_desc] in *; rewrite E; auto. cbn [bind].
  apply (proj2 (C43_ranges_partial (RV v) rs HV HI)). cbn [rs_desc]. intros (_ & HA). auto.
Qed.

(** Full lists of integers. *)
Lemma ints_ok : forall args dims, existsb is_slice args = false -> supported true args dims -> length args = length dims ->
  Forall extent dims ->
  exists ks, cast_sizes args = Ok ks /\ map to_ptrdiff ks = ks /\ inb ks dims /\ np_sel args dims [] ks.
Proof.
  induction args as [|a r IH]; intros dims HN HS HL HE.
  - destruct dims; [|discriminate]. exists []. repeat split; try constructor.
  - destruct dims as [|d ds]; [discriminate|]. cbn [existsb] in HN. apply orb_false_iff in HN as (Na & Nr). cbn [length] in HL.
    inversion HE as [|? ? Hd HE']; subst. unfold extent in Hd.
    assert (G : exists k, (a = PInt k \/ a = PIndex k) /\ 0 <= k < d /\ supported true r ds).
    { destruct a as [k|k|x y s|]; cbn [supported] in HS; try discriminate; try contradiction; exists k; tauto. }
    destruct G as (k & Hk & Rk & HS'). destruct (IH ds Nr HS' ltac:(lia) HE') as (ks & E & M & I & Se).
    assert (Ec : cast_size a = Ok k).
    { destruct Hk as [-> | ->]; cbn [cast_size]; now rewrite (proj2 (Z.leb_le 0 k)), (proj2 (Z.ltb_lt k (2 ^ 64))) by lia. }
    exists (k :: ks). cbn [cast_sizes]. rewrite Ec. cbn [bind]. rewrite E. split; auto. split.
    { cbn [map]. rewrite M, to_ptrdiff_id by (unfold int64; lia). auto. }
    split; [constructor; auto|]. apply (np_int a k); auto. split; auto.
Qed.
Lemma ints_bad : forall args dims, existsb is_slice args = false -> Forall small args -> length args = length dims ->
  cast_sizes args = Throw \/
  exists ks, cast_sizes args = Ok ks /\ map to_ptrdiff ks = ks /\ length ks = length dims /\
    (Forall2 (fun k d => - d <= k < d) ks dims -> supported true args dims).
Proof.
  induction args as [|a r IH]; intros dims HN HM HL.
  - destruct dims; [|discriminate]. right. exists []. repeat split; auto. simpl. constructor.
  - destruct dims as [|d ds]; [discriminate|]. cbn [existsb] in HN. apply orb_false_iff in HN as (Na & Nr). cbn [length] in HL.
    inversion HM as [|? ? Ha HM']; subst. cbn [cast_sizes].
    destruct (IH ds Nr HM' ltac:(lia)) as [E|(ks & E & M & L & HS)].
    { left. rewrite E. destruct (cast_size a) eqn:Ea; auto. destruct a; cbn [cast_size] in Ea; try discriminate; destruct (_ && _); discriminate. }
    assert (G : forall k, (a = PInt k \/ a = PIndex k) -> (k0 <- cast_size a ;; ks0 <- cast_sizes r ;; Ok (k0 :: ks0)) = Throw \/
       exists ks, (k0 <- cast_size a ;; ks0 <- cast_sizes r ;; Ok (k0 :: ks0)) = Ok ks /\ map to_ptrdiff ks = ks /\ length ks = S (length ds) /\
         (Forall2 (fun k d => - d <= k < d) ks (d :: ds) -> supported true (a :: r) (d :: ds))).
    { intros k Hk. assert (Ec : cast_size a = if (0 <=? k) && (k <? 2 ^ 64) then Ok k else Throw) by (destruct Hk as [-> | ->]; auto).
      assert (Sk : k < 2 ^ 63) by (destruct Hk as [-> | ->]; auto). rewrite Ec.
      destruct (Z.leb_spec 0 k); [|now left]. rewrite (proj2 (Z.ltb_lt k (2 ^ 64))) by lia. cbn [andb bind]. rewrite E. right.
      eexists. split; [reflexivity|]. split; [cbn [map]; rewrite M, to_ptrdiff_id by (unfold int64; lia); auto|]. split; [simpl; lia|].
      intros HF. inversion HF; subst. destruct Hk as [-> | ->]; cbn [supported]; repeat split; auto; lia. }
    destruct a as [k|k|x y s|]; [apply (G k); auto|apply (G k); auto|discriminate|now left].
Qed.
Lemma val_ok : forall v args, rs_ok (RV v) -> existsb is_slice args = false -> length args = length (ddims (rv_desc v)) ->
  supported true args (ddims (rv_desc v)) ->
  exists idx, np_sel args (ddims (rv_desc v)) [] idx /\ subscript_to_val v args = Ok (addr (rv_desc v) idx).
Proof.
  intros v args HV HN HL HS. destruct (ints_ok _ _ HN HS HL (proj1 HV)) as (ks & E & M & I & Se).
  exists ks. split; auto. unfold subscript_to_val. rewrite E. cbn [bind]. rewrite M. now apply subscript_at.
Qed.
Lemma rv_subscript_throw : forall v ks, rs_ok (RV v) -> length ks = length (ddims (rv_desc v)) ->
  ~ Forall2 (fun k d => - d <= k < d) ks (ddims (rv_desc v)) -> rv_subscript v ks = Throw.
Proof.
  intros v ks HV HL HN. assert (Ls := rs_ok_length _ HV). cbn [rs_desc] in Ls. unfold rv_subscript, indices_to_sentinel_negative_check.
  rewrite HL, Ls, Nat.ltb_irrefl. cbn [orb]. now rewrite negative_check_throw.
Qed.
Lemma val_bad : forall v args, rs_ok (RV v) -> existsb is_slice args = false -> Forall small args ->
  length args = length (ddims (rv_desc v)) -> ~ supported true args (ddims (rv_desc v)) -> subscript_to_val v args = Throw.
Proof.
  intros v args HV HN HM HL HS. unfold subscript_to_val.
  destruct (ints_bad _ _ HN HM HL) as [E|(ks & E & M & L & H)]; rewrite E; auto. cbn [bind]. rewrite M. apply rv_subscript_throw; auto.
Qed.

Lemma supported_length : forall one args dims, supported one args dims -> (length args <= length dims)%nat.
Proof.
  induction args as [|a r IH]; intros dims H; [simpl; lia|]. destruct dims as [|d ds]; [destruct a; contradiction|].
  simpl. assert (supported one r ds) by (destruct a; simpl in H; tauto). specialize (IH ds H0). lia.
Qed.

Lemma sel_rest : forall l j p, np_sel [] l j p -> selects (fill_up (length l) []) l j p.
Proof.
  induction l as [|x l IH]; intros j p H; inversion H; subst; [constructor|]. cbn [length]. rewrite fill_up_nil. constructor; auto.
Qed.

(** C79.  x[args] with a tuple, for every tensor or view [v] and every list of
    objects.  Supported subscripts: the element, or the view of the block, that
    Python's rules select; all others throw (integers below 2^63).
    What is missing: integers counted from the end, empty results, other integer
    types together with slices (the [_refuted] theorems below). *)
Theorem C79_tuple_partial : forall v args, rs_ok (RV v) ->
  let dims := ddims (rv_desc v) in
  let one := one_element args dims in
  (supported one args dims ->
     if one then exists idx, np_sel args dims [] idx /\ py_getitem v (KTuple args) = Ok (Elem (addr (rv_desc v) idx))
     else exists w, py_getitem v (KTuple args) = Ok (View w) /\ rs_ok (RV w) /\ shows v args w) /\
  (Forall small args -> ~ supported one args dims -> py_getitem v (KTuple args) = Throw).
Proof.
  intros v args HV dims one. cbn [py_getitem]. unfold subscript_tuple. fold dims.
  assert (One : one = true -> length args = length dims /\ existsb is_slice args = false).
  { unfold one, one_element. intros H. apply andb_prop in H as (H1 & H2). apply Nat.eqb_eq in H1. apply negb_true_iff in H2. auto. }
  split.
  - intros HS. assert (HL := supported_length _ _ _ HS). destruct one eqn:Eo.
    + destruct (One eq_refl) as (L & N). rewrite L, Nat.ltb_irrefl, N.
      destruct (val_ok v args HV N L HS) as (idx & H1 & H2). exists idx. split; auto. now rewrite H2.
    + destruct (to_view_ok v args HV HS) as (w & E & Ow & Sw). exists w. rewrite E. cbn [bind]. split; auto.
      destruct (Nat.ltb_spec (length args) (length dims)); auto. destruct (Nat.ltb_spec (length dims) (length args)); [lia|].
      unfold one, one_element in Eo. assert (length args = length dims) as El by lia. rewrite El, Nat.eqb_refl in Eo. cbn [andb] in Eo.
      apply negb_false_iff in Eo. now rewrite Eo.
  - intros HM HN. destruct (Nat.ltb_spec (length args) (length dims)).
    + assert (Eo : one = false). { unfold one, one_element. destruct (Nat.eqb_spec (length args) (length dims)); [lia|auto]. }
      rewrite Eo in HN. rewrite to_view_bad; auto. unfold dims in H. lia.
    + destruct (Nat.ltb_spec (length dims) (length args)); auto.
      assert (El : length args = length dims) by lia. destruct (existsb is_slice args) eqn:Es.
      * assert (Eo : one = false). { unfold one, one_element. rewrite Es. simpl. apply andb_false_r. }
        rewrite Eo in HN. rewrite to_view_bad; auto; unfold dims in *; lia.
      * assert (Eo : one = true). { unfold one, one_element. now rewrite Es, El, Nat.eqb_refl. }
        rewrite Eo in HN. rewrite val_bad; auto.
Qed.

(** C79.  x[k] with one integer (also counted from the end): the element of a
    tensor with one axis, else the view; x[a:b]: the view; everything else
    throws. *)
Theorem C79_single_partial : forall v d ds, rs_ok (RV v) -> ddims (rv_desc v) = d :: ds ->
  (forall a k, a = PInt k \/ a = PIndex k ->
     (- 2 ^ 31 <= k < 2 ^ 31 -> - d <= k < d -> Forall (fun e => 0 < e) ds ->
        match ds with
        | [] => exists i, np_sel [a] [d] [] [i] /\ py_getitem v (KOne a) = Ok (Elem (addr (rv_desc v) [i]))
        | _ => exists w, py_getitem v (KOne a) = Ok (View w) /\ rs_ok (RV w) /\ shows v [a] w
        end) /\
     (~ (- 2 ^ 31 <= k < 2 ^ 31 /\ - d <= k < d /\ Forall (fun e => 0 < e) ds) -> py_getitem v (KOne a) = Throw)) /\
  (forall a b s,
     (supported false [PSlice a b s] (d :: ds) ->
        exists w, py_getitem v (KOne (PSlice a b s)) = Ok (View w) /\ rs_ok (RV w) /\ shows v [PSlice a b s] w) /\
     (~ supported false [PSlice a b s] (d :: ds) -> py_getitem v (KOne (PSlice a b s)) = Throw)) /\
  py_getitem v (KOne POther) = Throw.
Proof.
  intros v d ds HV Hdims. assert (HE := proj1 HV). cbn [rs_desc] in HE. rewrite Hdims in HE. inversion HE as [|? ? Hd HE']; subst. unfold extent in Hd.
  assert (FU : Forall (fun e => 0 < e) ds <-> Forall2 accepted (fill_up (length ds) []) ds).
  { clear. induction ds as [|e es IH]; [split; constructor|]. cbn [length]. rewrite fill_up_nil. split; intros H; inversion H; subst; constructor; auto; now apply IH. }
  split; [|split; [|reflexivity]].
  - intros a k Ha. assert (Eg : py_getitem v (KOne a) = if (- 2 ^ 31 <=? k) && (k <? 2 ^ 31) then subscript_int v k else Throw) by (destruct Ha as [-> | ->]; auto).
    rewrite Eg. unfold subscript_int. rewrite Hdims. split.
    + intros Hk Hr Hp. rewrite (proj2 (Z.leb_le (- 2 ^ 31) k)), (proj2 (Z.ltb_lt k (2 ^ 31))) by lia. cbn [andb].
      set (i := if k <? 0 then k + d else k). assert (Sp : spells d k i) by (unfold spells, i; destruct (Z.ltb_spec k 0); lia).
      destruct ds as [|e es].
      * exists i. split; [apply (np_int a k); auto; constructor|].
        assert (Ls := rs_ok_length _ HV). cbn [rs_desc] in Ls. rewrite Hdims in Ls.
        unfold rv_subscript, indices_to_sentinel_negative_check. rewrite Hdims, Ls. cbn [length Nat.ltb Nat.leb orb].
        rewrite (negative_check_ok [d] [k] [i]) by (auto; constructor; auto; constructor). reflexivity.
      * destruct (proj1 (C43_ranges_partial (RV v) [(-1, k)] HV ltac:(constructor; [unfold int64; simpl; lia|constructor]))) as (w & Ew & Ow & Dw & Sw).
        { cbn [rs_desc]. rewrite Hdims. split; [simpl; lia|]. cbn [length map]. rewrite fill_up_cons. constructor; [simpl; lia|now apply FU]. }
        exists w. rewrite Ew. cbn [bind]. split; auto. split; auto. cbn [rs_desc] in *. rewrite Hdims in *. split.
        -- rewrite Dw. cbn [length map]. rewrite fill_up_cons.
           assert (Ex : forall es, slice_dims (fill_up (length es) []) es = es).
           { clear. induction es as [|x es IH]; auto. cbn [length]. rewrite fill_up_nil. cbn [slice_dims]. now rewrite IH. }
           cbn [map range_means fst snd Z.eqb Pos.eqb slice_dims].
           rewrite Hdims. destruct Ha as [-> | ->]; cbn [np_dims]; apply (Ex (e :: es)).
        -- rewrite Hdims. intros j p Hsel. apply Sw. cbn [length map]. rewrite fill_up_cons.
           inversion Hsel; subst. 2: { destruct Ha; discriminate. }
           assert (k0 = k) by (destruct Ha as [-> | ->]; match goal with H : _ \/ _ |- _ => destruct H as [H|H]; inversion H; auto end). subst k0.
           constructor; auto. apply (sel_rest (e :: es)); auto.
    + intros HN. destruct (Z.leb_spec (- 2 ^ 31) k); [destruct (Z.ltb_spec k (2 ^ 31))|]; auto. cbn [andb].
      destruct ds as [|e es].
      * rewrite rv_subscript_throw; auto; [now rewrite Hdims|]. rewrite Hdims. intros HF. inversion HF; subst. apply HN. repeat split; auto; lia.
      * rewrite (proj2 (C43_ranges_partial (RV v) [(-1, k)] HV ltac:(constructor; [unfold int64; simpl; lia|constructor]))); auto.
        cbn [rs_desc]. rewrite Hdims. cbn [length map]. rewrite fill_up_cons. intros (_ & HF). inversion HF as [|? ? ? ? H1 H2]; subst. simpl in H1.
        apply HN. split; [lia|]. split; [lia|]. now apply FU.
  - intros a b s. assert (Eg : py_getitem v (KOne (PSlice a b s)) = (w <- subscript_to_view v [PSlice a b s] ;; Ok (View w))).
    { cbn [py_getitem]. unfold subscript_slice, subscript_to_view. rewrite Hdims. cbn [py_ranges].
      destruct (slice_bounds d a b s); destruct ds; reflexivity. }
    rewrite Eg. split.
    + intros HS. destruct (to_view_ok v [PSlice a b s] HV) as (w & E & Ow & Sw); [now rewrite Hdims|]. exists w. rewrite E. auto.
    + intros HN. rewrite to_view_bad; auto; [constructor; simpl; auto|rewrite Hdims; simpl; lia|now rewrite Hdims].
Qed.

(** C79 fails for negative integers in a tuple: always an exception.  A vector of
    3: x[-1] is the last element, x[(-1,)] throws. *)
Theorem C79_negative_refuted :
  (forall v args k, rs_ok (RV v) -> Forall small args -> In (PInt k) args -> k < 0 -> py_getitem v (KTuple args) = Throw) /\
  (let v := rv_whole (rt_ctor 0 [3]) in rs_ok (RV v) /\ np_ok [PInt (-1)] [3] /\
     py_getitem v (KOne (PInt (-1))) = Ok (Elem 2) /\ py_getitem v (KTuple [PInt (-1)]) = Throw).
Proof.
  split.
  - intros v args k HV HM Hin Hk. apply (proj2 (C79_tuple_partial v args HV)); auto. generalize (one_element args (ddims (rv_desc v))). intros one.
    generalize (ddims (rv_desc v)). clear HM. induction args as [|a r IH]; intros dims; [destruct Hin|]. destruct dims as [|d ds]; [destruct a; auto|].
    destruct Hin as [->|Hin]; [simpl; lia|]. specialize (IH Hin ds). destruct a; simpl; tauto.
  - cbv zeta. split; [|split; [simpl; lia|split; reflexivity]]. split; [|repeat split].
    simpl. constructor; [unfold extent; lia|constructor].
Qed.

(** C79 fails for empty results: x[1:1] has no elements, but throws. *)
Theorem C79_empty_refuted :
  let v := rv_whole (rt_ctor 0 [3]) in
  rs_ok (RV v) /\ np_ok [PSlice (Some 1) (Some 1) None] [3] /\ np_dims [PSlice (Some 1) (Some 1) None] [3] = [0] /\
  py_getitem v (KOne (PSlice (Some 1) (Some 1) None)) = Throw.
Proof.
  cbv zeta. split; [|split; [|split; reflexivity]].
  - split; [|repeat split]. simpl. constructor; [unfold extent; lia|constructor].
  - simpl. split; auto. now left.
Qed.

(** C79 fails for integers that are not of type int next to a slice: x[i, :]
    throws for a NumPy integer i. *)
Theorem C79_index_refuted :
  let v := rv_whole (rt_ctor 0 [3; 2]) in
  rs_ok (RV v) /\ np_ok [PIndex 1; PSlice None None None] [3; 2] /\
  py_getitem v (KTuple [PIndex 1; PSlice None None None]) = Throw /\
  py_getitem v (KTuple [PIndex 1; PIndex 1]) = Ok (Elem 3) /\ py_getitem v (KOne (PIndex 1)) = Ok (View (mkRv (mkDesc 2 [2] [1]) 2 [1])).
Proof.
  cbv zeta. split; [|split; [|split; [reflexivity|split; reflexivity]]].
  - split; [|repeat split]. simpl. repeat (constructor; [unfold extent; lia|]). constructor.
  - simpl. repeat split; auto; try lia. now left.
Qed.

(** C79 fails for integers from 2^63 on: 2^64 - 1 is no index of a vector of 3,
    but gives its last element. *)
Theorem C79_huge_refuted :
  let v := rv_whole (rt_ctor 0 [3]) in
  rs_ok (RV v) /\ ~ np_ok [PInt (2 ^ 64 - 1)] [3] /\ py_getitem v (KTuple [PInt (2 ^ 64 - 1)]) = Ok (Elem 2).
Proof.
  cbv zeta. split; [|split; [simpl; lia|vm_compute; reflexivity]].
  split; [|repeat split]. simpl. constructor; [unfold extent; lia|constructor].
Qed.

(** C79 fails for tensors without axes: x[:] reads the extent of axis 0, which
    does not exist. *)
Theorem C79_no_axis_refuted : forall v, ddims (rv_desc v) = [] -> py_getitem v (KOne (PSlice None None None)) = UB.
Proof. intros v E. cbn. unfold subscript_slice. now rewrite E. Qed.

(** Case: a 4 x 5 tensor at position 10: x[1:-1, 2] is a vector of 2 whose element
    1 is x[2, 2]; x[3] is the last row; x[2, 4] an element; x[9:] throws. *)
Example C79_case :
  let v := rv_whole (rt_ctor 10 [4; 5]) in
  let args := [PSlice (Some 1) (Some (-1)) None; PInt 2] in
  rs_ok (RV v) /\ supported (one_element args [4; 5]) args [4; 5] /\ np_dims args [4; 5] = [2] /\ np_sel args [4; 5] [1] [2; 2] /\
  (exists w, py_getitem v (KTuple args) = Ok (View w) /\ addr (rv_desc w) [1] = 10 + 12) /\
  py_getitem v (KTuple [PInt 2; PInt 4]) = Ok (Elem 24) /\
  (exists w, py_getitem v (KOne (PInt (-1))) = Ok (View w) /\ rv_desc w = mkDesc 25 [5] [1]) /\
  py_getitem v (KOne (PSlice (Some 9) None None)) = Throw.
Proof.
  cbv zeta. split; [|split; [|split; [reflexivity|split; [|split; [|split; [reflexivity|split; [|reflexivity]]]]]]].
  - split; [|repeat split]. simpl. repeat (constructor; [unfold extent; lia|]). constructor.
  - cbn. repeat split; auto; try lia. now left.
  - change ([2; 2]) with ([np_lo 4 (Some 1) + 1; 2]). apply np_slice; [now left|lia|reflexivity|].
    apply (np_int (PInt 2) 2); [auto|unfold spells; lia|constructor].
  - eexists. split; [reflexivity|reflexivity].
  - eexists. split; reflexivity.
Qed.

Print Assumptions C79_tuple_partial.
Print Assumptions C79_single_partial.
Print Assumptions C79_negative_refuted.
Print Assumptions C79_empty_refuted.
Print Assumptions C79_index_refuted.
Print Assumptions C79_huge_refuted.
Print Assumptions C79_no_axis_refuted.
