(** * T_Runtime: run-time tensors (C43). *)
From Coq Require Import List ZArith Lia Bool Permutation.
From Verif Require Import Base Heap Conc M_Addr S_Addr L_Addr M_Elt L_Elt S_Einsum S_Fun M_Runtime S_Runtime.
Import ListNotations.
Open Scope Z_scope.

Definition int64 (x : Z) : Prop := - 2 ^ 63 <= x < 2 ^ 63.
Definition extent (d : Z) : Prop := 0 <= d < 2 ^ 63.

Lemma to_size_nonneg : forall x, 0 <= x < 2 ^ 63 -> to_size x = x.
Proof. intros. apply Z.mod_small. lia. Qed.
Lemma to_size_neg : forall x, - 2 ^ 63 <= x < 0 -> to_size x = x + 2 ^ 64.
Proof. intros. unfold to_size. rewrite <- (Z.mod_add x 1) by lia. apply Z.mod_small. lia. Qed.
Lemma to_ptrdiff_size : forall x, int64 x -> to_ptrdiff (to_size x) = x.
Proof.
  intros x Hx. unfold int64 in Hx. unfold to_ptrdiff, to_size.
  rewrite Z.add_mod_idemp_l by lia. rewrite Z.mod_small; lia.
Qed.
Lemma to_ptrdiff_id : forall x, int64 x -> to_ptrdiff x = x.
Proof. intros x Hx. unfold int64 in Hx. unfold to_ptrdiff. rewrite Z.mod_small; lia. Qed.
Lemma to_size_m1 : forall x, int64 x -> (to_size x =? to_size (-1)) = (x =? -1).
Proof.
  intros x Hx. unfold int64 in Hx. rewrite (to_size_neg (-1)) by lia.
  destruct (Z.ltb_spec x 0); [rewrite to_size_neg by lia|rewrite to_size_nonneg by lia];
    destruct (Z.eqb_spec x (-1)); lia.
Qed.
Lemma to_size_range : forall x, 0 <= to_size x < 2 ^ 64.
Proof. intros. apply Z.mod_pos_bound. lia. Qed.

Lemma fill_up_cons : forall n a r, fill_up (S n) (a :: r) = a :: fill_up n r.
Proof. reflexivity. Qed.
Lemma fill_up_nil : forall n, fill_up (S n) [] = SAll :: fill_up n [].
Proof. intros. unfold fill_up. simpl. now rewrite Nat.sub_0_r. Qed.
Lemma fill_up_length : forall n a, (length a <= n)%nat -> length (fill_up n a) = n.
Proof. intros. unfold fill_up. rewrite app_length, repeat_length. lia. Qed.

(** The loop over the axes, accepted arguments. *)
Lemma rslice_loop_ok : forall dims strides slices,
  length strides = length dims -> Forall extent dims -> Forall (fun r => int64 (fst r) /\ int64 (snd r)) slices ->
  (length slices <= length dims)%nat ->
  Forall2 accepted (fill_up (length dims) (map range_means slices)) dims ->
  exists vd vo vs os, rslice_loop dims strides slices = Ok (vd, vo, vs) /\
    vd = slice_dims (fill_up (length dims) (map range_means slices)) dims /\ length vs = length vd /\
    length vo = length dims /\ Forall extent vd /\
    spell dims (map to_ptrdiff vo) os /\
    forall j p, selects (fill_up (length dims) (map range_means slices)) dims j p ->
      dotp os strides + dotp j vs = dotp p strides.
Proof.
  induction dims as [|d ds IH]; intros strides slices HL HE HI Hn HA.
  - destruct slices; [|simpl in Hn; lia]. exists [], [], [], []. split; auto. split; auto. split; auto. split; auto. split; auto.
    split; [constructor|]. intros j p Hs. inversion Hs; subst. simpl. destruct strides; reflexivity.
  - destruct strides as [|s ss]; [discriminate|]. inversion HE as [|? ? Hd HE']; subst. cbn [length] in *.
    destruct slices as [|(a, b) rest].
    + cbn [map] in *. rewrite fill_up_nil in *. inversion HA as [|? ? ? ? Ha HA']; subst.
      destruct (IH ss [] ltac:(lia) HE' HI ltac:(simpl; lia) HA') as (vd & vo & vs & os & E & D & L & Lo & X & Sp & Hs).
      cbn [rslice_loop]. rewrite E. cbn [bind].
      exists (d :: vd), (0 :: vo), (s :: vs), (0 :: os). split; [reflexivity|]. split; [cbn [slice_dims]; rewrite D; reflexivity|].
      split; [simpl; lia|]. split; [simpl; lia|]. split; [constructor; auto|]. split.
      * cbn [map]. constructor; auto. rewrite to_ptrdiff_id by (unfold int64; lia). simpl in Ha. split; [lia|auto].
      * intros j p Hsel. inversion Hsel; subst. simpl.
        match goal with H : selects _ _ _ _ |- _ => specialize (Hs _ _ H) end. lia.
    + cbn [map] in *. rewrite fill_up_cons in *. inversion HA as [|? ? ? ? Ha HA']; subst. inversion HI as [|? ? Hab HI']; subst.
      cbn [fst snd] in Hab. destruct Hab as (Ia & Ib). 
      destruct (IH ss rest ltac:(lia) HE' HI' ltac:(simpl in *; lia) HA') as (vd & vo & vs & os & E & D & L & Lo & X & Sp & Hs).
      cbn [rslice_loop]. rewrite to_size_m1 by auto. unfold range_means in Ha |- *. cbn [fst snd] in Ha |- *.
      assert (Rb := to_size_range b). destruct (Z.leb_spec 0 (to_size b)); [|lia].
      destruct (Z.eqb_spec a (-1)) as [Em|Nm]; cbn [andb].
      * rewrite E. cbn [bind]. simpl in Ha. unfold extent, int64 in *.
        assert (Hspell : exists i, spells d b i).
        { destruct (Z.ltb_spec b 0); [exists (b + d)|exists b]; split; lia. }
        destruct Hspell as (i & Hi).
        exists vd, (to_size b :: vo), vs, (i :: os). split; [reflexivity|]. split; [cbn [slice_dims]; auto|].
        split; [auto|]. split; [simpl; lia|]. split; [auto|]. split.
        -- cbn [map]. rewrite to_ptrdiff_size by auto. constructor; auto.
        -- intros j p Hsel. inversion Hsel; subst. simpl.
           match goal with H : selects _ _ _ _ |- _ => specialize (Hs _ _ H) end.
           match goal with H : spells d b ?x |- _ =>
             assert (x = i) as -> by (clear - H Hi; unfold spells in *; lia) end. lia.
      * simpl in Ha. unfold extent, int64 in *. rewrite (to_size_nonneg a), (to_size_nonneg b) by lia.
        rewrite (proj2 (Z.ltb_ge a 0)) by lia. rewrite (proj2 (Z.ltb_ge b 0)) by lia. cbv iota. rewrite (proj2 (Z.ltb_ge a 0)) by lia. rewrite (proj2 (Z.ltb_ge b 0)) by lia.
        destruct (Z.leb_spec d a); [lia|]. destruct (Z.ltb_spec d b); [lia|]. destruct (Z.leb_spec b a); [lia|]. cbn [orb].
        rewrite E. cbn [bind].
        exists (b - a :: vd), (a :: vo), (s :: vs), (a :: os). split; [reflexivity|].
        split; [cbn [slice_dims]; destruct (Z.ltb_spec b 0); [lia|]; rewrite D; reflexivity|].
        split; [simpl; lia|]. split; [simpl; lia|]. split; [constructor; auto; lia|]. split.
        -- cbn [map]. rewrite to_ptrdiff_id by (unfold int64; lia). constructor; auto. split; [lia|auto].
        -- intros j p Hsel. inversion Hsel; subst. simpl.
           match goal with H : selects _ _ _ _ |- _ => specialize (Hs _ _ H) end. lia.
Qed.

(** The loop over the axes, an argument that is not accepted. *)
Lemma rslice_loop_throw : forall dims strides slices,
  length strides = length dims -> Forall extent dims -> Forall (fun r => int64 (fst r) /\ int64 (snd r)) slices ->
  (length slices <= length dims)%nat ->
  ~ Forall2 accepted (fill_up (length dims) (map range_means slices)) dims ->
  rslice_loop dims strides slices = Throw \/
  exists vd vo vs, rslice_loop dims strides slices = Ok (vd, vo, vs) /\ length vo = length dims /\
    ~ Forall2 (fun k d => - d <= k < d) (map to_ptrdiff vo) dims.
Proof.
  induction dims as [|d ds IH]; intros strides slices HL HE HI Hn HA.
  - exfalso. apply HA. destruct slices; [constructor|simpl in Hn; lia].
  - destruct strides as [|s ss]; [discriminate|]. inversion HE as [|? ? Hd HE']; subst. cbn [length] in *.
    assert (Tot : forall slices, (length slices <= length ds)%nat -> rslice_loop ds ss slices = Throw \/
       exists vd vo vs, rslice_loop ds ss slices = Ok (vd, vo, vs) /\ length vo = length ds).
    { assert (HL' : length ss = length ds) by lia. clear - HL'. revert ss HL'. induction ds as [|e es IHe]; intros ss HL' sl Hsl.
      - right. exists [], [], []. destruct sl; auto.
      - destruct ss as [|q qs]; [discriminate|]. cbn [length] in *. cbn [rslice_loop]. destruct sl as [|(a, b) rest].
        + destruct (IHe qs ltac:(lia) [] ltac:(simpl; lia)) as [->|(vd & vo & vs & -> & L)]; [now left|right].
          simpl. do 3 eexists. split; [reflexivity|simpl; lia].
        + destruct ((to_size a =? to_size (-1)) && (0 <=? to_size b)).
          * destruct (IHe qs ltac:(lia) rest ltac:(simpl in *; lia)) as [->|(vd & vo & vs & -> & L)]; [now left|right].
            simpl. do 3 eexists. split; [reflexivity|simpl; lia].
          * match goal with |- context [if ?c then Throw else _] => destruct c end; [now left|].
            destruct (IHe qs ltac:(lia) rest ltac:(simpl in *; lia)) as [->|(vd & vo & vs & -> & L)]; [now left|right].
            simpl. do 3 eexists. split; [reflexivity|simpl; lia]. }
    destruct slices as [|(a, b) rest].
    + cbn [map] in *. rewrite fill_up_nil in HA. cbn [rslice_loop].
      destruct (Z.ltb_spec 0 d) as [Hp|Hz].
      * destruct (IH ss [] ltac:(lia) HE' HI ltac:(simpl; lia)) as [E|(vd & vo & vs & E & L & N)].
        -- intros H. apply HA. constructor; auto.
        -- left. now rewrite E.
        -- right. rewrite E. simpl. do 3 eexists. split; [reflexivity|]. split; [simpl; lia|].
           intros H. apply N. inversion H; auto.
      * destruct (Tot []) as [E|(vd & vo & vs & E & L)]; [simpl; lia|left; now rewrite E|right].
        rewrite E. simpl. do 3 eexists. split; [reflexivity|]. split; [simpl; lia|].
        intros H. inversion H as [|? ? ? ? H1]; subst. rewrite to_ptrdiff_id in H1 by (unfold int64; lia). lia.
    + cbn [map] in *. rewrite fill_up_cons in HA. inversion HI as [|? ? Hab HI']; subst.
      cbn [fst snd] in Hab. destruct Hab as (Ia & Ib). 
      cbn [rslice_loop]. rewrite to_size_m1 by auto. unfold range_means at 1 in HA. cbn [fst snd] in HA.
      assert (Rb := to_size_range b). destruct (Z.leb_spec 0 (to_size b)); [|lia].
      destruct (Z.eqb_spec a (-1)) as [Em|Nm]; cbn [andb].
      * destruct (Tot rest) as [E|(vd & vo & vs & E & L)]; [simpl in *; lia|left; now rewrite E|].
        destruct (Z.leb_spec (- d) b); [destruct (Z.ltb_spec b d)|].
        -- destruct (IH ss rest ltac:(lia) HE' HI' ltac:(simpl in *; lia)) as [E2|(vd2 & vo2 & vs2 & E2 & L2 & N)].
           ++ intros H'. apply HA. constructor; auto. simpl. lia.
           ++ left. now rewrite E2.
           ++ right. rewrite E2. simpl. do 3 eexists. split; [reflexivity|]. split; [simpl; lia|].
              intros H'. apply N. inversion H'; auto.
        -- right. rewrite E. simpl. do 3 eexists. split; [reflexivity|]. split; [simpl; lia|].
           intros H'. inversion H' as [|? ? ? ? Hk]; subst. rewrite to_ptrdiff_size in Hk by auto. lia.
        -- right. rewrite E. simpl. do 3 eexists. split; [reflexivity|]. split; [simpl; lia|].
           intros H'. inversion H' as [|? ? ? ? Hk]; subst. rewrite to_ptrdiff_size in Hk by auto. lia.
      * assert (Ra := to_size_range a). rewrite (proj2 (Z.ltb_ge (to_size a) 0)) by lia. rewrite (proj2 (Z.ltb_ge (to_size b) 0)) by lia. cbv iota. rewrite (proj2 (Z.ltb_ge (to_size a) 0)) by lia. rewrite (proj2 (Z.ltb_ge (to_size b) 0)) by lia.
        destruct (Z.leb_spec d (to_size a)); [now left|]. destruct (Z.ltb_spec d (to_size b)); [now left|].
        destruct (Z.leb_spec (to_size b) (to_size a)); [now left|]. cbn [orb].
        unfold int64, extent in *.
        assert (Pa : 0 <= a). { destruct (Z.ltb_spec a 0); auto. rewrite (to_size_neg a) in * by lia. lia. }
        assert (Pb : 0 <= b). { destruct (Z.ltb_spec b 0); auto. rewrite (to_size_neg b) in * by lia. lia. }
        rewrite (to_size_nonneg a), (to_size_nonneg b) in * by lia.
        destruct (IH ss rest ltac:(lia) HE' HI' ltac:(simpl in *; lia)) as [E2|(vd2 & vo2 & vs2 & E2 & L2 & N)].
        -- intros H'. apply HA. constructor; auto. simpl. lia.
        -- left. now rewrite E2.
        -- right. rewrite E2. simpl. do 3 eexists. split; [reflexivity|]. split; [simpl; lia|].
           intros H'. apply N. inversion H'; auto.
Qed.

(** A run-time tensor as the constructors make it, or any run-time view. *)
Definition rs_ok (x : rsrc) : Prop :=
  Forall extent (ddims (rs_desc x)) /\
  match x with
  | RT t => t = rt_ctor (dbase (rt_desc t)) (ddims (rt_desc t))
  | RV v => length (dstrides (rv_desc v)) = length (ddims (rv_desc v)) /\
            rv_istr v = row_major_strides (ddims (rv_desc v)) /\
            (zprod (ddims (rv_desc v)) < 2 ^ 31 -> rv_size v = zprod (ddims (rv_desc v)))
  end.
Lemma rs_ok_length : forall x, rs_ok x -> length (dstrides (rs_desc x)) = length (ddims (rs_desc x)).
Proof.
  intros [t|v] (_ & H); simpl in *; [|apply H]. rewrite H. simpl. rewrite dims_to_strides_eq. simpl. apply rms_length.
Qed.

Lemma rs_data_ok : forall x inds os, rs_ok x -> spell (ddims (rs_desc x)) (map to_ptrdiff inds) os ->
  length inds = length (ddims (rs_desc x)) -> rs_data x inds = Ok (addr (rs_desc x) os).
Proof.
  intros x inds os HX HS HL. assert (HLs := rs_ok_length x HX). unfold rs_data, indices_to_sentinel_negative_check.
  rewrite map_length, HL, HLs, Nat.ltb_irrefl. cbn [orb].
  rewrite (negative_check_ok _ _ os) by auto. cbn [bind]. rewrite Z.add_0_l.
  destruct x as [t|v]; cbn [rs_desc] in *; [|reflexivity].
  destruct HX as (HE & HT). cbn [rs_desc] in *.
  assert (R : 0 <= dotp os (dstrides (rt_desc t)) < rt_len t).
  { rewrite HT. simpl. rewrite dims_to_strides_eq. simpl. apply rm_range. now apply spell_wrap in HS. }
  destruct (Z.leb_spec (rt_len t) (dotp os (dstrides (rt_desc t)))); [lia|]. reflexivity.
Qed.
Lemma rs_data_throw : forall x inds, rs_ok x -> ~ Forall2 (fun k d => - d <= k < d) (map to_ptrdiff inds) (ddims (rs_desc x)) ->
  length inds = length (ddims (rs_desc x)) -> rs_data x inds = Throw.
Proof.
  intros x inds HX HS HL. assert (HLs := rs_ok_length x HX). unfold rs_data, indices_to_sentinel_negative_check.
  rewrite map_length, HL, HLs, Nat.ltb_irrefl. cbn [orb].
  rewrite negative_check_throw; auto. now rewrite map_length.
Qed.

(** C43.  Slicing a run-time tensor or view with a vector of ranges, any number
    up to the rank: if every range is accepted (a non-empty range counted from
    the front, or [Range{-1,k}] for index [k]), the result is the view of that
    block: its extents, and each of its elements is the element selected;
    otherwise the call throws.
    What is missing: bounds counted from the back, and the documented
    [Range{a,a}] ([C43_negative_range_refuted], [C43_unit_range_refuted]). *)
Theorem C43_ranges_partial : forall x slices, rs_ok x -> Forall (fun r => int64 (fst r) /\ int64 (snd r)) slices ->
  let dims := ddims (rs_desc x) in
  let args := fill_up (length dims) (map range_means slices) in
  ((length slices <= length dims)%nat /\ Forall2 accepted args dims ->
     exists v, rslice x slices = Ok v /\ rs_ok (RV v) /\ ddims (rv_desc v) = slice_dims args dims /\
       (forall j p, selects args dims j p -> addr (rv_desc v) j = addr (rs_desc x) p)) /\
  (~ ((length slices <= length dims)%nat /\ Forall2 accepted args dims) -> rslice x slices = Throw).
Proof.
  intros x slices HX HI dims args. assert (HLs := rs_ok_length x HX). split.
  - intros (Hn & HA). unfold rslice. fold dims. destruct (Nat.ltb_spec (length dims) (length slices)); [lia|].
    destruct (rslice_loop_ok dims (dstrides (rs_desc x)) slices) as (vd & vo & vs & os & E & D & L & Lo & X & Sp & Hs); auto.
    { apply HX. }
    rewrite E. cbn [bind]. rewrite (rs_data_ok x vo os) by auto. cbn [bind].
    eexists. split; [reflexivity|]. split; [|split; [exact D|]].
    + split; auto. cbn [rs_desc rv_desc rv_make ddims dstrides rv_istr rv_size].
      split; auto. rewrite dims_to_strides_eq. split; auto. intros Hz. apply size_model_correct; auto.
      eapply Forall_impl; [|exact X]. unfold extent. simpl. lia.
    + intros j p Hsel. unfold addr at 1 2. simpl. fold args in Hs. specialize (Hs j p Hsel). unfold addr. lia.
  - intros HN. unfold rslice. fold dims. destruct (Nat.ltb_spec (length dims) (length slices)); auto.
    destruct (rslice_loop_throw dims (dstrides (rs_desc x)) slices) as [E|(vd & vo & vs & E & L & N)]; auto.
    { apply HX. }
    + now rewrite E.
    + rewrite E. cbn [bind]. rewrite rs_data_throw by auto. reflexivity.
Qed.
Print Assumptions C43_ranges_partial.

(** Element of the arguments as turned into ranges. *)
Lemma rarg_ranges_length : forall dims args, (length args <= length dims)%nat -> length (rarg_ranges dims args) = length args.
Proof.
  induction dims as [|d ds IH]; intros [|a r] H; simpl in *; auto; [lia|]. f_equal. apply IH. lia.
Qed.
Lemma rarg_ranges_int64 : forall dims args, Forall extent dims -> (length args <= length dims)%nat -> Forall2 accepted (fill_up (length dims) args) dims ->
  Forall (fun r => int64 (fst r) /\ int64 (snd r)) (rarg_ranges dims args).
Proof.
  induction dims as [|d ds IH]; intros [|a r] HE HL HA; cbn [rarg_ranges]; auto.
  cbn [length] in *. rewrite fill_up_cons in HA. inversion HA as [|? ? ? ? Ha HA']; subst. inversion HE as [|? ? Hd HE']; subst.
  unfold extent in Hd. constructor; [|apply IH; auto; lia]. unfold int64. destruct a as [k| |lo hi]; simpl in *; try lia.
  destruct (Z.ltb_spec k 0); lia.
Qed.
Lemma rarg_ranges_accepted : forall dims args, (length args <= length dims)%nat -> Forall2 accepted (fill_up (length dims) args) dims ->
  Forall2 accepted (fill_up (length dims) (map range_means (rarg_ranges dims args))) dims.
Proof.
  induction dims as [|d ds IH]; intros [|a r] HL HA; cbn [rarg_ranges map] in *; auto; [simpl in HL; lia|].
  cbn [length] in *. rewrite fill_up_cons in HA. rewrite fill_up_cons. inversion HA as [|? ? ? ? Ha HA']; subst.
  constructor; [|apply IH; auto; lia]. unfold range_means. destruct a as [k| |lo hi]; simpl in *.
  - destruct (Z.ltb_spec k 0); simpl; lia.
  - lia.
  - destruct (Z.eqb_spec lo (-1)); simpl; lia.
Qed.
Lemma rarg_ranges_dims : forall dims args, (length args <= length dims)%nat -> Forall2 accepted (fill_up (length dims) args) dims ->
  slice_dims (fill_up (length dims) (map range_means (rarg_ranges dims args))) dims = slice_dims (fill_up (length dims) args) dims.
Proof.
  induction dims as [|d ds IH]; intros [|a r] HL HA; cbn [rarg_ranges map] in *; auto; [simpl in HL; lia|].
  cbn [length] in *. rewrite fill_up_cons in HA. rewrite !fill_up_cons. inversion HA as [|? ? ? ? Ha HA']; subst.
  unfold range_means at 1. destruct a as [k| |lo hi]; simpl in *; rewrite ?IH by (auto; lia); auto.
  - destruct (Z.ltb_spec d 0); [lia|]. f_equal. lia.
  - destruct (Z.eqb_spec lo (-1)); [lia|]. reflexivity.
Qed.
Lemma rarg_ranges_selects : forall dims args, (length args <= length dims)%nat -> Forall2 accepted (fill_up (length dims) args) dims ->
  forall j p, selects (fill_up (length dims) args) dims j p -> selects (fill_up (length dims) (map range_means (rarg_ranges dims args))) dims j p.
Proof.
  induction dims as [|d ds IH]; intros [|a r] HL HA j p HS; cbn [rarg_ranges map] in *; auto; [simpl in HL; lia|].
  cbn [length] in *. rewrite fill_up_cons in HA, HS. rewrite fill_up_cons. inversion HA as [|? ? ? ? Ha HA']; subst.
  unfold range_means at 1. destruct a as [k| |lo hi]; simpl in *; inversion HS; subst.
  - constructor; [|apply IH; auto; lia]. unfold spells in *. destruct (Z.ltb_spec k 0); lia.
  - replace x with (0 + x) at 2 by lia. eapply sel_range with (e := d); try lia. apply IH; auto; lia.
  - destruct (Z.eqb_spec lo (-1)); [lia|]. simpl. eapply sel_range with (e := e); try lia. apply IH; auto; lia.
Qed.

(** C43.  The same for the call operator with [All], ranges and integers (also
    counted from the back); too many arguments, an integer that is not an index
    of its axis from -2d on (see [C43_far_index_refuted] for the others), a
    range that is not accepted: the call throws. *)
Theorem C43_args_partial : forall x args, rs_ok x ->
  let dims := ddims (rs_desc x) in
  ((length args <= length dims)%nat -> Forall2 accepted (fill_up (length dims) args) dims ->
     exists v, rsub x args = Ok v /\ rs_ok (RV v) /\ ddims (rv_desc v) = slice_dims (fill_up (length dims) args) dims /\
       (forall j p, selects (fill_up (length dims) args) dims j p -> addr (rv_desc v) j = addr (rs_desc x) p)) /\
  ((length dims < length args)%nat -> rsub x args = Throw) /\
  (forall n a d, nth_error args n = Some a -> nth_error dims n = Some d ->
     match a with SInt k => int64 k /\ (k < - 2 * d \/ d <= k) | SAll => d = 0 | SRange lo hi => lo <> -1 /\ ~ (0 <= lo /\ lo < hi <= d) end ->
     Forall (fun a => match a with SInt k => int64 k | SAll => True | SRange lo hi => int64 lo /\ int64 hi end) args ->
     rsub x args = Throw).
Proof.
  intros x args HX dims. split; [|split].
  - intros HL HA. unfold rsub. fold dims. destruct (Nat.ltb_spec (length dims) (length args)); [lia|].
    destruct (C43_ranges_partial x (rarg_ranges dims args) HX) as (H1 & _).
    { apply rarg_ranges_int64; auto. apply HX. }
    fold dims in H1. destruct H1 as (v & E & O & D & S).
    { rewrite rarg_ranges_length by auto. split; auto. now apply rarg_ranges_accepted. }
    exists v. split; auto. split; auto. split; [now rewrite D, rarg_ranges_dims by auto|].
    intros j p Hs. apply S. apply rarg_ranges_selects; auto.
  - intros HL. unfold rsub. fold dims. destruct (Nat.ltb_spec (length dims) (length args)); [auto|lia].
  - intros n a d Ha Hd Hbad HI. unfold rsub. fold dims. destruct (Nat.ltb_spec (length dims) (length args)); [auto|].
    destruct (C43_ranges_partial x (rarg_ranges dims args) HX) as (_ & H2).
    { destruct HX as (HE & _). fold dims in HE. clearbody dims. clear - HE HI. revert dims HE. induction HI as [|a r Hx HI IH]; intros [|e es] HE; simpl; auto.
      inversion HE as [|? ? He HE']; subst. unfold extent, int64 in *. constructor; [|apply IH; auto].
      destruct a as [k| |lo hi]; simpl; try lia. destruct (Z.ltb_spec k 0); lia. }
    apply H2. fold dims. intros (_ & HA). clear H2 HI. destruct HX as (HE & _). fold dims in HE. clearbody dims. clear - HA Ha Hd Hbad HE.
    revert dims args HA Ha Hd HE. induction n as [|n IH]; intros dims args HA Ha Hd HE.
    + destruct args as [|b r]; [discriminate|]. destruct dims as [|e es]; [discriminate|]. simpl in Ha, Hd. inversion Ha; inversion Hd; subst.
      cbn [rarg_ranges map length] in HA. rewrite fill_up_cons in HA. inversion HA as [|? ? ? ? Hacc _]; subst. inversion HE as [|? ? He _]; subst.
      unfold range_means, extent in *. destruct a as [k| |lo hi]; simpl in *.
      * destruct Hbad as (_ & Hb). destruct (Z.ltb_spec k 0); simpl in *; lia.
      * lia.
      * destruct (Z.eqb_spec lo (-1)); [lia|]. simpl in Hacc. lia.
    + destruct args as [|b r]; [discriminate|]. destruct dims as [|e es]; [discriminate|]. simpl in Ha, Hd.
      cbn [rarg_ranges map length] in HA. rewrite fill_up_cons in HA. inversion HA; subst. inversion HE; subst. eapply IH; eauto.
Qed.
Print Assumptions C43_args_partial.

(** Chains of slices. *)
Theorem C43_chain_partial : forall argss x, rs_ok x -> chain_accepted argss (ddims (rs_desc x)) ->
  exists y, rchain x argss = Ok y /\ rs_ok y /\
    ddims (rs_desc y) = chain_dims (filled argss (ddims (rs_desc x))) (ddims (rs_desc x)) /\
    (forall j p, sees (filled argss (ddims (rs_desc x))) (ddims (rs_desc x)) j p -> addr (rs_desc y) j = addr (rs_desc x) p).
Proof.
  induction argss as [|a r IH]; intros x HX HC.
  - exists x. split; auto. split; auto. split; auto. intros j p Hs. simpl in Hs. now subst.
  - destruct HC as (HL & HA & HC). destruct (C43_args_partial x a HX) as (H1 & _).
    destruct (H1 HL HA) as (v & E & O & D & S). cbn [rchain]. rewrite E. cbn [bind].
    destruct (IH (RV v) O) as (y & E2 & O2 & D2 & S2).
    { cbn [rs_desc]. rewrite D. auto. }
    cbn [rs_desc] in D2, S2. exists y. split; auto. split; auto. cbn [filled chain_dims]. rewrite D in D2, S2. split; auto.
    intros j p (q & Hq & Hs). rewrite (S2 j q) by auto. apply S; auto.
Qed.
Print Assumptions C43_chain_partial.

(** ** Loops over sentinels *)
Lemma pseq_map : forall T X Y (g : X -> Y) (body : Y -> prog T unit) l, pseq (map g l) body = pseq l (fun x => body (g x)).
Proof. induction l as [|x l IH]; simpl; auto. now rewrite IH. Qed.

Lemma addresses_ok : forall f g l, (forall s, In s l -> f s = Ok (g s)) -> addresses f l = Ok (map g l).
Proof.
  induction l as [|s l IH]; intros H; simpl; auto. rewrite H by (now left). simpl. rewrite IH by (intros; apply H; now right). reflexivity.
Qed.
Lemma loop_pool_ok : forall T f g (body : Z * Z -> prog T unit) parts, (forall s, In s (concat parts) -> f s = Ok (g s)) ->
  loop_pool f body parts = Ok (map (fun r => pseq r (fun s => body (g s))) parts).
Proof.
  intros T f g body. induction parts as [|r parts IH]; intros H; simpl; auto.
  rewrite (addresses_ok f g) by (intros; apply H; simpl; apply in_or_app; auto). simpl.
  rewrite IH by (intros; apply H; simpl; apply in_or_app; auto). simpl. now rewrite pseq_map.
Qed.

Definition at_sentinel (dims : list Z) (s : Z) : list Z := sentinel_to_indices s (row_major_strides dims).

Lemma sentinel_loop : forall T (D S : desc) f body (res : list Z -> T) parts h,
  Forall (fun d => 0 <= d) (ddims D) -> inj D ->
  (forall s, 0 <= s < zprod (ddims D) -> f s = Ok (addr D (at_sentinel (ddims D) s), addr S (at_sentinel (ddims D) s))) ->
  Permutation (concat parts) (zrange (zprod (ddims D))) ->
  (forall idx h', inb idx (ddims D) -> (forall a, a = addr D idx \/ ~ cell D a -> h' a = h a) ->
     psafe (fun a => a = addr D idx) (fun a => ~ cell D a) (body (addr D idx, addr S idx)) h' /\
     exists h'', run (body (addr D idx, addr S idx)) h' = Ok (tt, h'') /\ h'' (addr D idx) = Some (res idx)) ->
  exists ps, loop_pool f body parts = Ok ps /\
    par_spec ps h (fun h' => holds h' D res /\ (forall a, ~ cell D a -> h' a = h a)).
Proof.
  intros T D S f body res parts h HF HI Hf HP HB.
  set (ix := at_sentinel (ddims D)).
  assert (Hix : forall s, 0 <= s < zprod (ddims D) -> inb (ix s) (ddims D)) by (intros; apply rm_sti_inb; auto).
  assert (Hall : forall idx, inb idx (ddims D) -> exists s, 0 <= s < zprod (ddims D) /\ ix s = idx).
  { intros idx Hi. exists (dotp idx (row_major_strides (ddims D))). split; [now apply rm_range|]. now apply rm_roundtrip. }
  assert (Hown : forall a, owned (zrange (zprod (ddims D))) (fun s => addr D (ix s)) a <-> cell D a).
  { intros a. unfold owned. rewrite in_map_iff. split.
    - intros (s & <- & Hs). apply zrange_in in Hs. exists (ix s). auto.
    - intros (idx & Hi & ->). destruct (Hall idx Hi) as (s & Hs & <-). exists s. split; auto. now apply zrange_in. }
  rewrite (loop_pool_ok _ _ (fun s => (addr D (ix s), addr S (ix s)))).
  2: { intros s Hs. apply Hf. apply zrange_in. eapply Permutation_in; eauto. }
  eexists. split; [reflexivity|].
  refine (par_spec_weaken _ _ _ _ _ _ (par_cells _ _ (zrange (zprod (ddims D))) parts (fun s => addr D (ix s)) (fun s => Some (res (ix s)))
     (fun s => body (addr D (ix s), addr S (ix s))) h HP _ _)).
  - intros h' (H1 & H2). split.
    + intros idx Hi. destruct (Hall idx Hi) as (s & Hs & <-). apply H1. now apply zrange_in.
    + intros a Ha. apply H2. rewrite Hown. auto.
  - assert (G : forall l, NoDup l -> (forall s, In s l -> 0 <= s < zprod (ddims D)) -> NoDup (map (fun s => addr D (ix s)) l)).
    { induction l as [|s l IH]; intros Hn Hl; simpl; constructor; inversion Hn as [|? ? Hni Hn']; subst.
      - rewrite in_map_iff. intros (s' & E & Hs'). apply HI in E.
        + assert (s' = s); [|subst; contradiction].
          rewrite <- (rm_sti_ordinal (ddims D) s'), <- (rm_sti_ordinal (ddims D) s); auto; try (apply Hl; simpl; auto).
          unfold ix, at_sentinel in E. now rewrite E.
        + apply Hix. apply Hl. now right.
        + apply Hix. apply Hl. now left.
      - apply IH; auto. intros; apply Hl; now right. }
    apply G; [apply zrange_NoDup|]. intros s. apply zrange_in.
  - intros s h' Hs Hsame. apply zrange_in in Hs.
    destruct (HB (ix s) h' (Hix s Hs)) as (P & h'' & E & V).
    { intros a Ha. apply Hsame. destruct Ha as [Ha|Ha]; auto. right. rewrite Hown. auto. }
    split; [|exists h''; auto].
    eapply psafe_mono; [| |exact P]; simpl; auto. intros a Ha. rewrite Hown. auto.
Qed.

Lemma ord_loop_at : forall dims strides s acc, Forall (fun d => 0 <= d) dims -> 0 <= s < zprod dims -> length strides = length dims ->
  ord_loop s (row_major_strides dims) strides acc = Ok (acc + dotp (at_sentinel dims s) strides).
Proof.
  unfold at_sentinel. induction dims as [|d ds IH]; intros strides s acc HF Hs HL.
  - destruct strides; [|discriminate]. simpl. f_equal. lia.
  - destruct strides as [|q qs]; [discriminate|]. rewrite rms_cons. cbn [ord_loop sentinel_to_indices]. simpl in Hs. inversion HF as [|? ? Hd HF']; subst.
    assert (0 <= zprod ds) by (now apply zprod_nonneg).
    destruct (Z.eqb_spec (zprod ds) 0) as [E|E]; [rewrite E in Hs; lia|].
    rewrite IH; auto. 
    + simpl. f_equal. lia.
    + apply Z.mod_pos_bound. lia.
Qed.

(** Bodies of the loops. *)
Lemma put_body_ok : forall T (D S : desc) (f : list Z -> T) h, alloc h D -> holds h S f -> ddims S = ddims D -> disj D S ->
  forall idx h', inb idx (ddims D) -> (forall a, a = addr D idx \/ ~ cell D a -> h' a = h a) ->
     psafe (fun a => a = addr D idx) (fun a => ~ cell D a) (put_body (addr D idx, addr S idx)) h' /\
     exists h'', run (put_body (addr D idx, addr S idx)) h' = Ok (tt, h'') /\ h'' (addr D idx) = Some (f idx).
Proof.
  intros T D S f h HA HS HD Hdis idx h' Hi Hsame. unfold put_body. cbn [fst snd].
  assert (N : ~ cell D (addr S idx)).
  { intros (j & Hj & E). apply (Hdis j idx Hj); [now rewrite HD|auto]. }
  assert (R : h' (addr S idx) = Some (f idx)).
  { rewrite Hsame by auto. apply HS. now rewrite HD. }
  destruct (HA idx Hi) as (w & Hw). assert (W : h' (addr D idx) = Some w) by (rewrite Hsame; auto).
  split.
  - cbn [psafe]. split; [auto|]. exists (f idx). split; auto. split; [auto|]. split; [eauto|exact I].
  - eexists. cbn [run]. rewrite R. cbn [run]. rewrite W. split; [reflexivity|]. apply upd_same.
Qed.

Definition inside (base n a : Z) : Prop := base <= a < base + n.

Lemma rt_ctor_desc : forall b dims, rt_desc (rt_ctor b dims) = tensor_ctor b dims.
Proof. intros. unfold rt_ctor, tensor_ctor. simpl. now rewrite dims_to_strides_eq. Qed.
Lemma rt_ctor_len : forall b dims, rt_len (rt_ctor b dims) = zprod dims.
Proof. intros. unfold rt_ctor. simpl. now rewrite dims_to_strides_eq. Qed.
Lemma tensor_addr_sentinel : forall b dims s, Forall (fun d => 0 <= d) dims -> 0 <= s < zprod dims ->
  addr (tensor_ctor b dims) (at_sentinel dims s) = b + s.
Proof. intros. unfold addr. simpl. unfold at_sentinel. now rewrite rm_sti_ordinal. Qed.
Lemma tensor_cell_inside : forall b dims a, cell (tensor_ctor b dims) a -> inside b (zprod dims) a.
Proof. intros b dims a (i & Hi & ->). unfold inside, addr. simpl in *. assert (R := rm_range _ _ Hi). lia. Qed.

(** [rt_shape]: the target gets the view's extents and a buffer of that size. *)
Lemma rt_shape_spec : forall T (zero : T) newbase t v h, rs_ok (RV v) -> zprod (ddims (rv_desc v)) < 2 ^ 31 ->
  buffer h (dbase (rt_desc t)) (rt_len t) ->
  (ddims (rt_desc t) = ddims (rv_desc v) -> t = rt_ctor (dbase (rt_desc t)) (ddims (rt_desc t))) ->
  exists b h1, rt_shape zero newbase t v h = (rt_ctor b (ddims (rv_desc v)), h1) /\
    (b = dbase (rt_desc t) \/ b = newbase) /\ buffer h1 b (zprod (ddims (rv_desc v))) /\
    (forall a, inside b (zprod (ddims (rv_desc v))) a -> inside (dbase (rt_desc t)) (rt_len t) a \/ inside newbase (zprod (ddims (rv_desc v))) a) /\
    (forall a, ~ inside (dbase (rt_desc t)) (rt_len t) a -> ~ inside newbase (zprod (ddims (rv_desc v))) a -> h1 a = h a).
Proof.
  intros T zero newbase t v h (HE & HL & HI & HZ) Hz HB HT. cbn [rs_desc] in *. specialize (HZ Hz). unfold rt_shape.
  set (dims := ddims (rv_desc v)) in *.
  assert (HF : Forall (fun d => 0 <= d) dims).
  { eapply Forall_impl; [|exact HE]. unfold extent. simpl. lia. }
  assert (Hpos : 0 <= zprod dims) by (now apply zprod_nonneg).
  destruct (list_eq_dec Z.eq_dec (ddims (rt_desc t)) dims) as [Ed|Nd].
  - specialize (HT Ed). rewrite Ed in HT. exists (dbase (rt_desc t)), h. split; [now rewrite <- HT|].
    assert (Lt : rt_len t = zprod dims) by (rewrite HT; apply rt_ctor_len). rewrite <- Lt.
    split; auto.
  - unfold vec_resize. rewrite HZ. destruct (Z.eqb_spec (rt_len t) (zprod dims)) as [El|Nl].
    + exists (dbase (rt_desc t)), h. split; [unfold rt_ctor; now rewrite dims_to_strides_eq|]. rewrite <- El.
      split; auto.
    + exists newbase. eexists. split; [unfold rt_ctor; rewrite dims_to_strides_eq; reflexivity|]. split; auto. split; [|split].
      * intros k Hk. destruct (Z.leb_spec newbase (newbase + k)); [|lia]. destruct (Z.ltb_spec (newbase + k) (newbase + zprod dims)); [|lia].
        cbn [andb]. destruct (Z.ltb_spec (newbase + k - newbase) (rt_len t)).
        -- apply HB. lia.
        -- eauto.
      * auto.
      * intros a N1 N2. unfold inside in *.
        destruct (Z.leb_spec newbase a); destruct (Z.ltb_spec a (newbase + zprod dims)); cbn [andb]; try lia;
          destruct (Z.leb_spec (dbase (rt_desc t)) a); destruct (Z.ltb_spec a (dbase (rt_desc t) + rt_len t)); cbn [andb]; auto; lia.
Qed.

Lemma subscript_at : forall v idx, rs_ok (RV v) -> inb idx (ddims (rv_desc v)) -> rv_subscript v idx = Ok (addr (rv_desc v) idx).
Proof.
  intros v idx (HE & HL & _) Hi. cbn [rs_desc] in *. unfold rv_subscript, indices_to_sentinel_negative_check.
  rewrite HL. rewrite (inb_length _ _ Hi), Nat.ltb_irrefl. cbn [orb].
  rewrite (negative_check_ok _ _ idx) by (auto using spell_self). reflexivity.
Qed.

Lemma extent_nonneg : forall dims, Forall extent dims -> Forall (fun d => 0 <= d) dims.
Proof. intros dims H. eapply Forall_impl; [|exact H]. unfold extent. simpl. lia. Qed.

(** C43.  Assigning a (strided) run-time view to a run-time tensor of the same
    element type, for every distribution of the iterations over threads and
    every interleaving: the tensor gets the view's extents and elements, and no
    memory outside the tensor's old and new buffer changes.  Views with fewer
    than 2^31 elements; the view does not lie in the tensor's buffers. *)
Theorem C43_assign_view : forall T (zero : T) newbase t v parts h f,
  rs_ok (RV v) -> zprod (ddims (rv_desc v)) < 2 ^ 31 ->
  buffer h (dbase (rt_desc t)) (rt_len t) ->
  (ddims (rt_desc t) = ddims (rv_desc v) -> t = rt_ctor (dbase (rt_desc t)) (ddims (rt_desc t))) ->
  holds h (rv_desc v) f ->
  (forall a, cell (rv_desc v) a -> ~ inside (dbase (rt_desc t)) (rt_len t) a /\ ~ inside newbase (zprod (ddims (rv_desc v))) a) ->
  Permutation (concat parts) (zrange (zprod (ddims (rv_desc v)))) ->
  exists b h1 ps, rt_assign_view zero newbase t v parts h = Ok (rt_ctor b (ddims (rv_desc v)), h1, ps) /\
    (b = dbase (rt_desc t) \/ b = newbase) /\
    par_spec ps h1 (fun h' => holds h' (tensor_ctor b (ddims (rv_desc v))) f /\
      (forall a, ~ inside (dbase (rt_desc t)) (rt_len t) a -> ~ inside newbase (zprod (ddims (rv_desc v))) a -> h' a = h a)).
Proof.
  intros T zero newbase t v parts h f HV Hz HB HT Hf Hdis HP.
  destruct (rt_shape_spec T zero newbase t v h HV Hz HB HT) as (b & h1 & E & Hb & B1 & In1 & O1).
  set (dims := ddims (rv_desc v)) in *.
  assert (HF : Forall (fun d => 0 <= d) dims) by (apply extent_nonneg; apply HV).
  set (D := tensor_ctor b dims).
  assert (HfD : holds h1 (rv_desc v) f).
  { intros idx Hi. rewrite O1; [now apply Hf| |]; apply Hdis; exists idx; auto. }
  destruct (sentinel_loop T D (rv_desc v) (rt_copy_addr (rt_ctor b dims) v) put_body f parts h1) as (ps & Ep & Sp); auto.
  - apply rm_inj.
  - cbn [D tensor_ctor ddims]. intros s Hs. unfold rt_copy_addr. rewrite rt_ctor_desc. cbn [tensor_ctor dstrides dbase].
    fold (at_sentinel dims s). rewrite subscript_at; auto; [|apply rm_sti_inb; auto]. cbn [bind]. unfold D. rewrite tensor_addr_sentinel; auto.
  - apply (put_body_ok T D (rv_desc v) f h1); auto.
    + intros idx Hi. cbn [D tensor_ctor ddims] in Hi. unfold addr. cbn [D tensor_ctor dbase dstrides]. apply B1. now apply rm_range.
    + intros i j Hi Hj Ea. assert (C : cell D (addr D i)) by (exists i; auto). apply tensor_cell_inside in C.
      apply In1 in C. rewrite Ea in C. destruct (Hdis (addr (rv_desc v) j)); [exists j; auto|]. tauto.
  - unfold rt_assign_view. rewrite E, Ep. cbn [bind]. exists b, h1, ps. split; auto. split; auto.
    eapply par_spec_weaken; [|exact Sp]. intros h' (H1 & H2). split; auto. intros a N1 N2.
    rewrite H2; [apply O1; auto|]. intros C. apply tensor_cell_inside in C. apply In1 in C. tauto.
Qed.
Print Assumptions C43_assign_view.

(** C43.  Constructing a run-time tensor from a (strided) [TensorView] copies
    its elements. *)
Theorem C43_from_view : forall T (zero : T) base src parts h f,
  Forall (fun d => 0 <= d) (ddims src) -> length (dstrides src) = length (ddims src) ->
  holds h src f -> (forall a, cell src a -> ~ inside base (zprod (ddims src)) a) ->
  Permutation (concat parts) (zrange (zprod (ddims src))) ->
  exists h1 ps, rt_from_view zero base src parts h = Ok (rt_ctor base (ddims src), h1, ps) /\
    par_spec ps h1 (fun h' => holds h' (tensor_ctor base (ddims src)) f /\
      (forall a, ~ inside base (zprod (ddims src)) a -> h' a = h a)).
Proof.
  intros T zero base src parts h f HF HL Hf Hdis HP. set (D := tensor_ctor base (ddims src)).
  set (h1 := alloc_buffer zero base (zprod (ddims src)) h).
  unfold rt_from_view. rewrite rt_ctor_desc, rt_ctor_len. fold h1.
  destruct (sentinel_loop T D src (fun s => o <- ord_loop s (dstrides D) (dstrides src) 0 ;; Ok (base + s, dbase src + o))
     put_body f parts h1) as (ps & Ep & Sp); auto.
  - apply rm_inj.
  - cbn [D tensor_ctor ddims dstrides]. intros s Hs. rewrite ord_loop_at by auto. cbn [bind]. unfold D. rewrite tensor_addr_sentinel by auto.
    unfold addr. now rewrite Z.add_0_l.
  - apply (put_body_ok T D src f h1); auto.
    + intros idx Hi. exists zero. apply alloc_buffer_cell. assert (C : cell D (addr D idx)) by (exists idx; auto).
      now apply tensor_cell_inside in C.
    + intros idx Hi. unfold h1. rewrite alloc_buffer_other; [now apply Hf|]. apply Hdis. exists idx. auto.
    + intros i j Hi Hj Ea. assert (C : cell D (addr D i)) by (exists i; auto). apply tensor_cell_inside in C.
      rewrite Ea in C. apply (Hdis (addr src j)); auto. exists j; auto.
  - unfold D in Ep. rewrite Ep. cbn [bind]. exists h1, ps. split; auto.
    eapply par_spec_weaken; [|exact Sp]. intros h' (H1 & H2). split; auto. intros a Na.
    rewrite H2; [now apply alloc_buffer_other|]. intros C. apply tensor_cell_inside in C. tauto.
Qed.
Print Assumptions C43_from_view.

Lemma rv_ord_at : forall v s, rs_ok (RV v) -> 0 <= s < zprod (ddims (rv_desc v)) ->
  rv_ord v s = Ok (addr (rv_desc v) (at_sentinel (ddims (rv_desc v)) s)).
Proof.
  intros v s HV Hs. destruct HV as (HE & HL & HI & _). cbn [rs_desc] in *. unfold rv_ord. rewrite HI, ord_loop_at; auto using extent_nonneg.
Qed.

(** C43.  Assignments to a run-time view: from a view or a tensor of the same
    extents (throwing otherwise), from a value, and the compound operators:
    every element of the view gets its value and no other cell changes. *)
Theorem C43_into_view : forall T (v : rview) (h : heap T) f parts,
  rs_ok (RV v) -> inj (rv_desc v) -> holds h (rv_desc v) f ->
  Permutation (concat parts) (zrange (zprod (ddims (rv_desc v)))) ->
  let only (g : list Z -> T) := fun h' => holds h' (rv_desc v) g /\ (forall a, ~ cell (rv_desc v) a -> h' a = h a) in
  (forall w g, rs_ok (RV w) -> holds h (rv_desc w) g ->
     (ddims (rv_desc w) = ddims (rv_desc v) -> disj (rv_desc v) (rv_desc w) ->
        (exists ps, rv_assign_view v w parts = Ok ps /\ par_spec ps h (only g)) /\
        (forall op, exists ps, rv_op_view op v w parts = Ok ps /\ par_spec ps h (only (fun i => op (f i) (g i))))) /\
     (ddims (rv_desc w) <> ddims (rv_desc v) ->
        rv_assign_view (T := T) v w parts = Throw /\ forall op : T -> T -> T, rv_op_view op v w parts = Throw)) /\
  (forall t b dims g, t = rt_ctor b dims -> holds h (tensor_ctor b dims) g ->
     (dims = ddims (rv_desc v) -> disj (rv_desc v) (tensor_ctor b dims) -> exists ps, rv_assign_tensor v t parts = Ok ps /\ par_spec ps h (only g)) /\
     (dims <> ddims (rv_desc v) -> rv_assign_tensor (T := T) v t parts = Throw)) /\
  (forall x, exists ps, rv_fill v x parts = Ok ps /\ par_spec ps h (only (fun _ => x))).
Proof.
  intros T v h f parts HV HI Hf HP only.
  assert (HF : Forall (fun d => 0 <= d) (ddims (rv_desc v))) by (apply extent_nonneg; apply HV).
  assert (HA : alloc h (rv_desc v)) by (intros i Hi; eexists; now apply Hf).
  split; [|split].
  - intros w g HW Hg. split.
    + intros Ed Hdis.
      assert (HPA : forall s, 0 <= s < zprod (ddims (rv_desc v)) ->
        rv_pair_addr v w s = Ok (addr (rv_desc v) (at_sentinel (ddims (rv_desc v)) s), addr (rv_desc w) (at_sentinel (ddims (rv_desc v)) s))).
      { intros s Hs. unfold rv_pair_addr. rewrite rv_ord_at by auto. cbn [bind]. destruct HV as (_ & _ & HVi & _). destruct HW as (_ & HWl & _).
        cbn [rs_desc] in *. rewrite HVi, ord_loop_at; auto. now rewrite HWl, Ed. }
      split.
      * unfold rv_assign_view. rewrite Ed. destruct (list_eq_dec Z.eq_dec _ _) as [_|N]; [|congruence].
        apply (sentinel_loop T (rv_desc v) (rv_desc w)); auto. now apply put_body_ok.
      * intros op. unfold rv_op_view. rewrite Ed. destruct (list_eq_dec Z.eq_dec _ _) as [_|N]; [|congruence].
        apply (sentinel_loop T (rv_desc v) (rv_desc w)); auto.
        intros idx h' Hi Hsame. unfold op_body. cbn [fst snd].
        assert (N : ~ cell (rv_desc v) (addr (rv_desc w) idx)).
        { intros (j & Hj & E). apply (Hdis j idx Hj); [now rewrite Ed|auto]. }
        assert (R : h' (addr (rv_desc w) idx) = Some (g idx)) by (rewrite Hsame by auto; apply Hg; now rewrite Ed).
        assert (W : h' (addr (rv_desc v) idx) = Some (f idx)) by (rewrite Hsame by auto; auto).
        split.
        -- cbn [psafe]. split; auto. exists (g idx). split; auto. split; auto. exists (f idx). split; auto. split; auto. split; eauto.
        -- eexists. cbn [run]. rewrite R. cbn [run]. rewrite W. cbn [run]. split; [reflexivity|]. apply upd_same.
    + intros N. split; [unfold rv_assign_view|intros op; unfold rv_op_view]; destruct (list_eq_dec Z.eq_dec _ _); congruence.
  - intros t b dims g -> Hg. split.
    + intros Ed Hdis. unfold rv_assign_tensor. rewrite rt_ctor_desc. cbn [tensor_ctor ddims dbase]. rewrite Ed.
      destruct (list_eq_dec Z.eq_dec _ _) as [_|N]; [|congruence].
      apply (sentinel_loop T (rv_desc v) (tensor_ctor b dims)); auto.
      * intros s Hs. rewrite rv_ord_at by auto. cbn [bind]. rewrite Ed. now rewrite tensor_addr_sentinel by auto.
      * apply put_body_ok; auto.
    + intros N. unfold rv_assign_tensor. rewrite rt_ctor_desc. cbn [tensor_ctor ddims].
      destruct (list_eq_dec Z.eq_dec _ _); congruence.
  - intros x. unfold rv_fill. apply (sentinel_loop T (rv_desc v) (rv_desc v)); auto.
    + intros s Hs. rewrite rv_ord_at by auto. reflexivity.
    + intros idx h' Hi Hsame. unfold pwrite. cbn [fst]. destruct (HA idx Hi) as (w & Hw).
      assert (W : h' (addr (rv_desc v) idx) = Some w) by (rewrite Hsame; auto). split.
      * cbn [psafe]. split; auto. split; [eauto|exact I].
      * eexists. cbn [run]. rewrite W. split; [reflexivity|]. apply upd_same.
Qed.
Print Assumptions C43_into_view.

(** C43 fails for bounds counted from the back: on an axis of extent [d] the
    range from [0] to [-1] denotes the non-empty block of the first [d - 1]
    positions (this is what slicing a [Tensor] gives, [selects]); the run-time
    interface throws, for every tensor and every such range. *)
Theorem C43_negative_range_refuted :
  (forall x slices a b, rs_ok x -> Forall (fun r => int64 (fst r) /\ int64 (snd r)) slices ->
     In (a, b) slices -> a <> -1 -> (a < 0 \/ b < 0) -> rslice x slices = Throw) /\
  (let x := RT (rt_ctor 0 [3; 3]) in
   rs_ok x /\ selects [SRange 0 (-1); SAll] [3; 3] [1; 2] [1; 2] /\ rslice x [(0, -1)] = Throw).
Proof.
  assert (G : forall x slices a b, rs_ok x -> Forall (fun r => int64 (fst r) /\ int64 (snd r)) slices ->
     In (a, b) slices -> a <> -1 -> (a < 0 \/ b < 0) -> rslice x slices = Throw).
  { intros x slices a b HX HI Hin Ha Hneg. apply (C43_ranges_partial x slices HX HI). intros (HL & HA).
    revert HL HA. generalize (ddims (rs_desc x)). clear HI. induction slices as [|r rest IH]; intros dims HL HA; [destruct Hin|].
    destruct dims as [|d ds]; [simpl in HL; lia|]. cbn [length map] in *. rewrite fill_up_cons in HA. inversion HA as [|? ? ? ? H1 H2]; subst.
    destruct Hin as [->|Hin].
    - unfold range_means in H1. simpl in H1. destruct (Z.eqb_spec a (-1)); [lia|]. simpl in H1. lia.
    - apply (IH Hin ds); auto. lia. }
  split; auto. cbv zeta.
  assert (HX : rs_ok (RT (rt_ctor 0 [3; 3]))).
  { split; [|reflexivity]. simpl. repeat (constructor; [unfold extent; lia|]). constructor. }
  split; auto. split.
  - change ([1; 2]) with ([0 + 1; 2]) at 2. eapply sel_range with (e := 2); try lia. apply sel_all; [lia|]. constructor.
  - apply (G _ _ 0 (-1)); auto; try lia; [|now left]. constructor; [|constructor]. split; unfold int64; simpl; lia.
Qed.
Print Assumptions C43_negative_range_refuted.

(** C43 fails for the documented [Range{a, a}] ("keep the axis in the view, it
    will have dimension 1", RuntimeTensor.hpp 1036-1040): it throws. *)
Theorem C43_unit_range_refuted : forall x slices a, rs_ok x -> Forall (fun r => int64 (fst r) /\ int64 (snd r)) slices ->
  0 <= a -> In (a, a) slices -> rslice x slices = Throw.
Proof.
  intros x slices a HX HI Ha Hin. apply (C43_ranges_partial x slices HX HI). intros (HL & HA).
  revert HL HA. generalize (ddims (rs_desc x)). clear HI. induction slices as [|r rest IH]; intros dims HL HA; [destruct Hin|].
  destruct dims as [|d ds]; [simpl in HL; lia|]. cbn [length map] in *. rewrite fill_up_cons in HA. inversion HA as [|? ? ? ? H1 H2]; subst.
  destruct Hin as [->|Hin].
  - unfold range_means in H1. simpl in H1. destruct (Z.eqb_spec a (-1)); [lia|]. simpl in H1. lia.
  - apply (IH Hin ds); auto. lia.
Qed.
Print Assumptions C43_unit_range_refuted.

(** C43 fails for integers below [-d]: on a 2 x 2 tensor the index -3 is out of
    range; the call returns row 1 (it is wrapped twice). *)
Theorem C43_far_index_refuted :
  ~ Forall2 accepted [SInt (-3); SAll] [2; 2] /\
  exists v, rsub (RT (rt_ctor 0 [2; 2])) [SInt (-3); SAll] = Ok v /\ ddims (rv_desc v) = [2] /\
    forall k, addr (rv_desc v) [k] = addr (rt_desc (rt_ctor 0 [2; 2])) [1; k].
Proof.
  split.
  - intros H. inversion H as [|? ? ? ? H1]; subst. simpl in H1. lia.
  - exists (mkRv (mkDesc 2 [2] [1]) 2 [1]). split; [reflexivity|]. split; [reflexivity|]. intros k. unfold addr. simpl. lia.
Qed.
Print Assumptions C43_far_index_refuted.

(** C43 fails for assignment of a strided view of another element type: the
    upper left 2 x 2 block of a 4 x 4 tensor.  The assignment throws (from inside
    the parallel loop), whatever the memory. *)
Theorem C43_cast_refuted : forall T (zero : T) newbase t h,
  exists v, rslice (RT (rt_ctor 0 [4; 4])) [(0, 2); (0, 2)] = Ok v /\ rs_ok (RV v) /\ ddims (rv_desc v) = [2; 2] /\
    rt_assign_cast zero newbase t v [zrange 4] h = Throw.
Proof.
  intros T zero newbase t h. exists (mkRv (mkDesc 0 [2; 2] [4; 1]) 4 [2; 1]). split; [reflexivity|]. split; [|split; [reflexivity|]].
  - split; [|split; [reflexivity|split; [reflexivity|reflexivity]]].
    simpl. repeat (constructor; [unfold extent; lia|]). constructor.
  - unfold rt_assign_cast. destruct (vec_resize _ _ _ _ _ _) as (b, h'). reflexivity.
Qed.
Print Assumptions C43_cast_refuted.

(** C43 fails for a default-constructed tensor assigned a view without axes (one
    element): the extents agree, so no memory is allocated and nothing is copied. *)
Theorem C43_default_target_refuted : forall T (zero : T) newbase v h, ddims (rv_desc v) = [] ->
  rt_assign_view zero newbase (mkRt (mkDesc 0 [] []) 0) v [zrange 0] h = Ok (mkRt (mkDesc 0 [] []) 0, h, [PRet tt]).
Proof. intros T zero newbase v h E. unfold rt_assign_view, rt_shape. rewrite E. reflexivity. Qed.
Print Assumptions C43_default_target_refuted.

(** Case: a 3 x 4 x 5 tensor sliced with (Range{1,3}, -2), of it (All, Range{2,5}):
    extents 2 x 3; element (1, 2) is (2, 2, 4); and copied to another tensor by
    two threads. *)
Example C43_case :
  let x := RT (rt_ctor 100 [3; 4; 5]) in
  let argss := [[SRange 1 3; SInt (-2)]; [SAll; SRange 2 5]] in
  rs_ok x /\ chain_accepted argss [3; 4; 5] /\ sees (filled argss [3; 4; 5]) [3; 4; 5] [1; 2] [2; 2; 4] /\
  (exists v, rchain x argss = Ok (RV v) /\ ddims (rv_desc v) = [2; 3] /\ addr (rv_desc v) [1; 2] = addr (rs_desc x) [2; 2; 4] /\
     (forall a, cell (rv_desc v) a -> ~ inside 0 7 a /\ ~ inside 10 6 a) /\
     exists h1 ps, rt_assign_view 0 10 (mkRt (mkDesc 0 [7] [1]) 7) v [[0; 3; 4]; [1; 2; 5]] (fun a => if (0 <=? a) && (a <? 200) then Some a else None) = Ok (rt_ctor 10 [2; 3], h1, ps)) /\
  rsub x [SInt 3] = Throw /\ rsub x [SRange 2 2] = Throw.
Proof.
  cbv zeta. split; [|split; [|split; [|split; [|split; reflexivity]]]].
  - split; [|reflexivity]. simpl. repeat (constructor; [unfold extent; lia|]). constructor.
  - cbn. repeat split; try lia; repeat (constructor; [simpl; lia|]); constructor.
  - exists [1; 4]. split.
    + cbn. replace 2 with (1 + 1) at 3 by lia. eapply sel_range with (e := 3); try lia. apply sel_int; [split; [lia|right; lia]|].
      apply sel_all; [lia|]. constructor.
    + exists [1; 2]. split; [|reflexivity]. cbn. apply sel_all; [lia|]. replace 4 with (2 + 2) by lia. eapply sel_range with (e := 5); try lia. constructor.
  - exists (mkRv (mkDesc 132 [2; 3] [20; 1]) 6 [3; 1]). split; [reflexivity|]. split; [reflexivity|]. split; [reflexivity|]. split.
    + intros a (i & Hi & ->). cbn in Hi. inversion Hi as [|? ? ? ? H1 H2]; subst. inversion H2 as [|? ? ? ? H3 H4]; subst. inversion H4; subst.
      unfold addr, inside. simpl. lia.
    + eexists _, _. reflexivity.
Qed.
