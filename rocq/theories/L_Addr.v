(** * L_Addr: lemmas about the addressing model. *)
From Coq Require Import List ZArith Lia Bool.
From Verif Require Import Base Heap M_Addr S_Addr.
Import ListNotations.
Open Scope Z_scope.

(** ** Row-major strides *)

Lemma stride_scan_app : forall l v d, stride_scan v (l ++ [d]) = stride_scan v l ++ [v * zprod l].
Proof.
  induction l as [|x l IH]; intros v d; simpl.
  - f_equal. lia.
  - rewrite IH. simpl. f_equal. f_equal. f_equal. lia.
Qed.

Lemma zprod_rev : forall l, zprod (rev l) = zprod l.
Proof. induction l as [|x l IH]; simpl; auto. rewrite zprod_app, IH. simpl. lia. Qed.

Lemma rms_nil : row_major_strides [] = [].
Proof. reflexivity. Qed.

Lemma rms_cons : forall d ds, row_major_strides (d :: ds) = zprod ds :: row_major_strides ds.
Proof.
  intros. unfold row_major_strides. simpl. rewrite stride_scan_app, rev_app_distr. simpl.
  f_equal. rewrite zprod_rev. lia.
Qed.

Lemma rms_length : forall ds, length (row_major_strides ds) = length ds.
Proof. induction ds as [|d ds IH]; [auto|]. rewrite rms_cons. simpl. auto. Qed.

Lemma data_size_eq : forall dims, dims <> [] -> data_size dims = zprod dims.
Proof. intros [|d ds] H; [congruence|]. unfold data_size. rewrite rms_cons. simpl. lia. Qed.

Lemma dims_to_strides_eq : forall dims, dims_to_strides dims = (row_major_strides dims, zprod dims).
Proof.
  induction dims as [|d ds IH]; [reflexivity|]. simpl. rewrite IH, rms_cons. f_equal. lia.
Qed.

Lemma indices_to_sentinel_dotp : forall s i, indices_to_sentinel s i = dotp i s.
Proof.
  assert (G : forall s i out, indices_to_sentinel_from out s i = out + dotp i s).
  { induction s as [|x s IH]; intros [|y i] out; simpl; try lia. rewrite IH. lia. }
  intros. unfold indices_to_sentinel. rewrite G. lia.
Qed.

Lemma rm_range : forall dims idx, inb idx dims -> 0 <= dotp idx (row_major_strides dims) < zprod dims.
Proof.
  intros dims idx H. induction H as [|i d is ds Hi Hr IH]; [simpl; lia|].
  rewrite rms_cons. simpl. nia.
Qed.

Lemma rm_sti_zero : forall dims, Forall (fun d => 0 < d) dims ->
  sentinel_to_indices 0 (row_major_strides dims) = repeat 0 (length dims).
Proof.
  induction dims as [|d ds IH]; intros H; [reflexivity|]. rewrite rms_cons. simpl.
  inversion H; subst. assert (0 < zprod ds) by (now apply zprod_pos).
  destruct (Z.eqb_spec (zprod ds) 0); [lia|].
  rewrite Z.div_0_l, Z.mod_0_l by lia. rewrite IH by auto. reflexivity.
Qed.

Lemma rm_roundtrip : forall dims idx, inb idx dims ->
  sentinel_to_indices (dotp idx (row_major_strides dims)) (row_major_strides dims) = idx.
Proof.
  intros dims idx H. induction H as [|i d is ds Hi Hr IH]; [reflexivity|].
  rewrite rms_cons. simpl. assert (HB := rm_range _ _ Hr).
  destruct (Z.eqb_spec (zprod ds) 0); [lia|].
  replace ((i * zprod ds + dotp is (row_major_strides ds)) / zprod ds) with i.
  - replace ((i * zprod ds + dotp is (row_major_strides ds)) mod zprod ds)
      with (dotp is (row_major_strides ds)); [congruence|].
    rewrite Z.add_comm, Z_mod_plus_full. rewrite Z.mod_small; lia.
  - rewrite Z.add_comm, Z.div_add by lia. rewrite Z.div_small; lia.
Qed.

(** Also valid one past the end in the first axis. *)
Lemma rm_sti_dotp : forall dims n, Forall (fun d => 0 < d) dims -> 0 <= n -> dims <> [] ->
  dotp (sentinel_to_indices n (row_major_strides dims)) (row_major_strides dims) = n.
Proof.
  induction dims as [|d ds IH]; intros n HF Hn Hne; [congruence|].
  inversion HF; subst. rewrite rms_cons. simpl.
  assert (0 < zprod ds) by (now apply zprod_pos).
  destruct (Z.eqb_spec (zprod ds) 0); [lia|]. simpl.
  destruct ds as [|e es].
  - simpl in *. rewrite Z.div_1_r. lia.
  - rewrite IH; auto; try discriminate.
    + rewrite Z.mul_comm. symmetry. rewrite (Z_div_mod_eq_full n (zprod (e :: es))) at 1. lia.
    + apply Z.mod_pos_bound; lia.
Qed.

Lemma rm_sti_inb : forall dims n, 0 <= n < zprod dims -> Forall (fun d => 0 <= d) dims ->
  inb (sentinel_to_indices n (row_major_strides dims)) dims.
Proof.
  induction dims as [|d ds IH]; intros n Hn HF; [constructor|].
  inversion HF; subst. rewrite rms_cons. simpl in *.
  assert (0 <= zprod ds) by (now apply zprod_nonneg).
  destruct (Z.eqb_spec (zprod ds) 0) as [E|E]; [rewrite E in Hn; lia|].
  apply inb_cons. split.
  - split; [apply Z.div_pos; lia|]. apply Z.div_lt_upper_bound; lia.
  - apply IH; auto. apply Z.mod_pos_bound; lia.
Qed.

Lemma zprod_pos_Forall : forall dims, Forall (fun d => 0 <= d) dims -> 0 < zprod dims ->
  Forall (fun d => 0 < d) dims.
Proof.
  induction dims as [|d ds IH]; intros HF Hp; constructor; inversion HF; subst; simpl in Hp;
    assert (0 <= zprod ds) by (now apply zprod_nonneg); [nia|apply IH; auto; nia].
Qed.

Lemma rm_sti_ordinal : forall dims n, 0 <= n < zprod dims -> Forall (fun d => 0 <= d) dims ->
  dotp (sentinel_to_indices n (row_major_strides dims)) (row_major_strides dims) = n.
Proof.
  intros dims n Hn HF. destruct dims as [|d ds].
  - simpl in *. lia.
  - apply rm_sti_dotp; try lia; try discriminate. apply zprod_pos_Forall; auto. lia.
Qed.

Lemma rm_inj : forall b dims, inj (tensor_ctor b dims).
Proof.
  intros b dims i j Hi Hj E. unfold addr in E. simpl in *.
  rewrite <- (rm_roundtrip dims i Hi), <- (rm_roundtrip dims j Hj). f_equal. lia.
Qed.

Lemma rm_lex : forall dims i j, inb i dims -> inb j dims ->
  (lexlt i j <-> dotp i (row_major_strides dims) < dotp j (row_major_strides dims)).
Proof.
  induction dims as [|d ds IH]; intros i j Hi Hj.
  - inversion Hi; inversion Hj; subst. simpl. split; intros H; [inversion H|lia].
  - destruct i as [|i is]; [inversion Hi|]. destruct j as [|j js]; [inversion Hj|].
    apply inb_cons in Hi as (Hi & His). apply inb_cons in Hj as (Hj & Hjs).
    rewrite rms_cons. simpl. specialize (IH is js His Hjs).
    assert (B1 := rm_range _ _ His). assert (B2 := rm_range _ _ Hjs).
    split.
    + intros H. inversion H; subst; [|apply IH in H1; lia].
      assert (0 <= (j - i - 1) * zprod ds) by (apply Z.mul_nonneg_nonneg; lia). lia.
    + intros H. destruct (Z.lt_trichotomy i j) as [L|[->|L]].
      * constructor; auto. rewrite (inb_length _ _ His), (inb_length _ _ Hjs). auto.
      * apply lex_tail. apply IH. lia.
      * exfalso. assert (0 <= (i - j - 1) * zprod ds) by (apply Z.mul_nonneg_nonneg; lia). lia.
Qed.

(** [indices] enumerates by address. *)
Lemma indices_length : forall dims, Forall (fun d => 0 <= d) dims ->
  Z.of_nat (length (indices dims)) = zprod dims.
Proof.
  induction dims as [|d ds IH]; intros HF; [reflexivity|]. inversion HF; subst. simpl.
  assert (G : forall l, Z.of_nat (length (flat_map (fun i => map (cons i) (indices ds)) l))
              = Z.of_nat (length l) * zprod ds).
  { induction l as [|x l IHl]; [simpl; lia|]. simpl. rewrite app_length, map_length. 
    rewrite Nat2Z.inj_add, IHl, IH by auto. lia. }
  rewrite G, zrange_length. rewrite Z2Nat.id by lia. reflexivity.
Qed.

Lemma nth_error_indices : forall dims idx, inb idx dims ->
  nth_error (indices dims) (Z.to_nat (dotp idx (row_major_strides dims))) = Some idx.
Proof.
  intros dims idx H. induction H as [|i d is ds Hi Hr IH]; [reflexivity|].
  rewrite rms_cons. simpl.
  assert (HB := rm_range _ _ Hr).
  assert (HL : Z.of_nat (length (indices ds)) = zprod ds).
  { apply indices_length. eapply Forall_impl; [|eapply inb_pos; eauto]. simpl; lia. }
  set (f := fun i0 => map (cons i0) (indices ds)).
  assert (G : forall n k, (k < n)%nat -> forall m, 0 <= m < zprod ds ->
    forall s, nth_error (flat_map f (map Z.of_nat (seq s n))) (Z.to_nat (Z.of_nat k * zprod ds + m))
    = nth_error (f (Z.of_nat (s + k))) (Z.to_nat m)).
  { induction n as [|n IHn]; intros k Hk m Hm s; [lia|]. simpl. 
    destruct k as [|k].
    - rewrite nth_error_app1.
      + rewrite Nat.add_0_r. f_equal.
      + unfold f. rewrite map_length. lia.
    - assert (HLf : forall z, length (f z) = length (indices ds)) by (intros; unfold f; now rewrite map_length).
      rewrite nth_error_app2 by (rewrite HLf; nia). rewrite HLf.
      replace (Z.to_nat (Z.of_nat (S k) * zprod ds + m) - length (indices ds))%nat
        with (Z.to_nat (Z.of_nat k * zprod ds + m)) by nia.
      rewrite IHn by (auto; lia). f_equal. f_equal. lia. }
  unfold zrange. fold f.
  replace (i * zprod ds) with (Z.of_nat (Z.to_nat i) * zprod ds) by lia.
  rewrite G by lia. unfold f. rewrite nth_error_map, IH. simpl. f_equal. f_equal. lia.
Qed.

(** ** Negative spellings *)

Lemma spell_wrap : forall dims ks idx, spell dims ks idx ->
  wrap_negative dims ks = idx /\ inb idx dims.
Proof.
  intros dims ks idx H. induction H as [|d ds k ks i is (Hi & Hk) Hs (IH1 & IH2)].
  - split; [reflexivity|constructor].
  - simpl. split; [|apply inb_cons; auto]. f_equal; auto.
    destruct Hk; subst; destruct (Z.ltb_spec i 0); destruct (Z.ltb_spec (i - d) 0); lia.
Qed.

Lemma spell_self : forall dims idx, inb idx dims -> spell dims idx idx.
Proof. intros dims idx H. induction H; constructor; auto. split; auto. Qed.

Lemma spell_exists : forall dims ks, Forall2 (fun k d => - d <= k < d) ks dims ->
  exists idx, spell dims ks idx.
Proof.
  intros dims ks H. induction H as [|k d ks ds Hk H (is & IH)].
  - exists []. constructor.
  - destruct (Z.ltb_spec k 0).
    + exists (k + d :: is). constructor; auto. split; [lia|right; lia].
    + exists (k :: is). constructor; auto. split; [lia|left; lia].
Qed.

(** ** Checked conversion *)

Lemma negative_check_ok : forall dims ks idx, spell dims ks idx ->
  forall strides out, length strides = length dims ->
  negative_check_loop out strides dims ks = Ok (out + dotp idx strides).
Proof.
  intros dims ks idx H. induction H as [|d ds k ks i is (Hi & Hk) Hs IH]; intros strides out HL.
  - destruct strides; simpl; f_equal; lia.
  - destruct strides as [|s ss]; [discriminate|]. simpl.
    assert (E : (if k <? 0 then k + d else k) = i).
    { destruct Hk; subst; destruct (Z.ltb_spec i 0); destruct (Z.ltb_spec (i - d) 0); lia. }
    rewrite E. destruct (Z.ltb_spec i 0); [lia|]. destruct (Z.geb_spec i d); [lia|]. simpl.
    rewrite IH by (simpl in HL; lia). f_equal. lia.
Qed.

Lemma negative_check_throw : forall dims ks, length ks = length dims ->
  ~ Forall2 (fun k d => - d <= k < d) ks dims ->
  forall strides out, length strides = length dims ->
  negative_check_loop out strides dims ks = Throw.
Proof.
  induction dims as [|d ds IH]; intros [|k ks] HL Hn strides out HS; try discriminate.
  - exfalso. apply Hn. constructor.
  - destruct strides as [|s ss]; [discriminate|]. simpl.
    destruct (Z.ltb_spec k 0).
    + destruct (Z.ltb_spec (k + d) 0); simpl; auto. destruct (Z.geb_spec (k + d) d); simpl; auto.
      apply IH; auto. intros HF. apply Hn. constructor; auto. lia.
    + destruct (Z.ltb_spec k 0); simpl; auto. destruct (Z.geb_spec k d); simpl; auto.
      apply IH; auto. intros HF. apply Hn. constructor; auto. lia.
Qed.

(** ** Slices *)

Lemma set_at_app : forall pre x v r, set_at (length pre) v (pre ++ x :: r) = pre ++ v :: r.
Proof. induction pre as [|y pre IH]; intros; simpl; auto. now rewrite IH. Qed.

Lemma slice_loop_spec : forall args dims strides pd psr done vd vs,
  Forall2 arg_ok args dims -> length strides = length dims ->
  length pd = length done -> length psr = length done ->
  (int_after_range args /\ length vd = length done \/ no_range args) ->
  exists offs vstr,
    slice_loop (length done) args (pd ++ dims) (psr ++ strides) (done ++ repeat 0 (length dims)) vd vs
    = (done ++ offs, vd ++ slice_dims args dims, vs ++ vstr) /\
    length offs = length dims /\
    (forall j p, selects args dims j p ->
       dotp p strides = dotp offs strides + dotp j vstr).
Proof.
  intros args dims strides pd psr done vd vs HF. revert strides pd psr done vd vs.
  induction HF as [|a d args ds Ha HF IH]; intros strides pd psr done vd vs HS Hpd Hps Hc.
  - exists [], []. simpl. rewrite !app_nil_r. repeat split; auto.
    intros j p H. inversion H; subst. reflexivity.
  - destruct strides as [|s ss]; [discriminate|]. simpl in HS. injection HS as HS.
    assert (Hnd : nth (length done) (pd ++ d :: ds) 0 = d)
      by (rewrite <- Hpd; now rewrite nth_middle).
    assert (Hns : nth (length done) (psr ++ s :: ss) 0 = s)
      by (rewrite <- Hps; now rewrite nth_middle).
    assert (step : forall x vd' vs', length vd' = length vd' ->
       (int_after_range args /\ length vd' = length (done ++ [x]) \/ no_range args) ->
       exists offs vstr,
         slice_loop (S (length done)) args (pd ++ d :: ds) (psr ++ s :: ss)
            (done ++ x :: repeat 0 (length ds)) vd' vs'
         = (done ++ x :: offs, vd' ++ slice_dims args ds, vs' ++ vstr) /\
         length offs = length ds /\
         (forall j p, selects args ds j p -> dotp p ss = dotp offs ss + dotp j vstr)).
    { intros x vd' vs' _ Hc'.
      destruct (IH ss (pd ++ [d]) (psr ++ [s]) (done ++ [x]) vd' vs') as (offs & vstr & E & HLo & HP); auto;
        try (rewrite !app_length; simpl; lia).
      exists offs, vstr. repeat split; auto.
      rewrite <- !app_assoc in E. simpl in E. rewrite app_length in E. simpl in E.
      replace (length done + 1)%nat with (S (length done)) in E by lia. exact E. }
    destruct Ha as [k d Hk|d Hd|lo hi d Hlo Hhi|lo hi d Hlo Hhi1 Hhi2]; simpl in *.
    + rewrite Hnd.
      assert (Hn : no_range args) by tauto.
      destruct (step (if k <? 0 then d + k else k) vd vs) as (offs & vstr & E & HLo & HP); auto.
      exists ((if k <? 0 then d + k else k) :: offs), vstr. rewrite set_at_app. split; auto.
      split; [simpl; lia|]. intros j p H. inversion H; subst. simpl.
      match goal with Hq : selects args ds _ _ |- _ => rewrite (HP _ _ Hq) end.
      match goal with Hx : spells _ _ _ |- _ => destruct Hx as (Hi & [-> | ->]) end.
      * destruct (Z.ltb_spec i 0); lia.
      * destruct (Z.ltb_spec (i - d) 0); [|lia]. replace (d + (i - d)) with i by lia. lia.
    + rewrite Hnd, Hns.
      destruct (step 0 (vd ++ [d]) (vs ++ [s])) as (offs & vstr & E & HLo & HP); auto.
      { destruct Hc as [(H1 & H2)|H1]; [left|right]; auto. split; auto. rewrite !app_length; simpl; lia. }
      exists (0 :: offs), (s :: vstr). rewrite <- !app_assoc in E. simpl in E. split; auto.
      split; [simpl; lia|]. intros j p H. inversion H; subst. simpl. match goal with Hq : selects args ds _ _ |- _ => rewrite (HP _ _ Hq) end. lia.
    + destruct Hc as [(H1 & H2)|[]]. rewrite Hnd, Hns, H2, set_at_app.
      destruct (Z.ltb_spec hi 0); [lia|].
      destruct (step lo (vd ++ [hi - lo]) (vs ++ [s])) as (offs & vstr & E & HLo & HP); auto.
      { left. split; auto. rewrite !app_length; simpl; lia. }
      exists (lo :: offs), (s :: vstr). rewrite <- !app_assoc in E. simpl in E. split; auto.
      split; [simpl; lia|]. intros j p H0. inversion H0; subst. simpl. match goal with Hq : selects args ds _ _ |- _ => rewrite (HP _ _ Hq) end. lia.
    + destruct Hc as [(H1 & H2)|[]]. rewrite Hnd, Hns, H2, set_at_app.
      destruct (Z.ltb_spec hi 0); [|lia].
      destruct (step lo (vd ++ [d + hi - lo]) (vs ++ [s])) as (offs & vstr & E & HLo & HP); auto.
      { left. split; auto. rewrite !app_length; simpl; lia. }
      exists (lo :: offs), (s :: vstr). rewrite <- !app_assoc in E. simpl in E. split; auto.
      split; [simpl; lia|]. intros j p H0. inversion H0; subst. simpl. match goal with Hq : selects args ds _ _ |- _ => rewrite (HP _ _ Hq) end. lia.
Qed.

Lemma selects_inb : forall args dims j p, selects args dims j p ->
  inb j (slice_dims args dims) /\ inb p dims.
Proof.
  intros args dims j p H. induction H as [|k d i args ds j p (Hi & Hk) H (I1 & I2)
    |d x args ds j p Hx H (I1 & I2)|lo hi e d x args ds j p He Hed Hlo Hx Hle H (I1 & I2)]; simpl.
  - split; constructor.
  - split; auto. apply inb_cons. auto.
  - split; apply inb_cons; auto.
  - split; apply inb_cons; split; auto; destruct (Z.ltb_spec hi 0); lia.
Qed.

Lemma selects_total : forall args dims, Forall2 arg_ok args dims ->
  forall j, inb j (slice_dims args dims) -> exists p, selects args dims j p.
Proof.
  intros args dims H. induction H as [|a d args ds Ha H IH]; intros j Hj.
  - inversion Hj; subst. exists []. constructor.
  - destruct Ha as [k d Hk|d Hd|lo hi d Hlo Hhi|lo hi d Hlo Hhi1 Hhi2]; simpl in Hj.
    + destruct (IH j Hj) as (p & Hp).
      destruct (Z.ltb_spec k 0).
      * exists (k + d :: p). constructor; auto. split; lia.
      * exists (k :: p). constructor; auto. split; lia.
    + destruct j as [|x j]; [inversion Hj|]. apply inb_cons in Hj as (Hx & Hj).
      destruct (IH j Hj) as (p & Hp). exists (x :: p). constructor; auto.
    + destruct j as [|x j]; [inversion Hj|]. apply inb_cons in Hj as (Hx & Hj).
      destruct (IH j Hj) as (p & Hp). exists (lo + x :: p).
      destruct (Z.ltb_spec hi 0); [lia|]. eapply sel_range with (e := hi); eauto; lia.
    + destruct j as [|x j]; [inversion Hj|]. apply inb_cons in Hj as (Hx & Hj).
      destruct (IH j Hj) as (p & Hp). exists (lo + x :: p).
      destruct (Z.ltb_spec hi 0); [|lia]. eapply sel_range with (e := d + hi); eauto; lia.
Qed.

(** Main slice lemma. *)
Lemma slice_correct : forall d args,
  length (dstrides d) = length (ddims d) ->
  Forall2 arg_ok args (ddims d) -> int_after_range args ->
  ddims (slice d args) = slice_dims args (ddims d) /\
  (forall j p, selects args (ddims d) j p -> addr (slice d args) j = addr d p).
Proof.
  intros d args HL HF HI.
  destruct (slice_loop_spec args (ddims d) (dstrides d) [] [] [] [] [] HF HL eq_refl eq_refl)
    as (offs & vstr & E & HLo & HP); [left; auto|].
  simpl in E. unfold slice. rewrite E. simpl. split; auto.
  intros j p Hs. unfold addr. simpl. rewrite (HP j p Hs). lia.
Qed.

Lemma slice_ranges_correct : forall d rs,
  length (dstrides d) = length (ddims d) ->
  Forall2 arg_ok (map (fun r => SRange (fst r) (snd r)) rs) (ddims d) ->
  ddims (slice_ranges d rs) = slice_dims (map (fun r => SRange (fst r) (snd r)) rs) (ddims d) /\
  (forall j p, selects (map (fun r => SRange (fst r) (snd r)) rs) (ddims d) j p ->
     addr (slice_ranges d rs) j = addr d p).
Proof.
  intros d rs HL HF.
  assert (G : forall rs dims, Forall2 arg_ok (map (fun r => SRange (fst r) (snd r)) rs) dims ->
    exists offs, slice_ranges_loop rs dims = (offs, slice_dims (map (fun r => SRange (fst r) (snd r)) rs) dims) /\
      forall strides, length strides = length dims ->
      forall j p, selects (map (fun r => SRange (fst r) (snd r)) rs) dims j p ->
        dotp p strides = dotp offs strides + dotp j strides).
  { clear. induction rs as [|(lo, hi) rs IH]; intros dims HF.
    - inversion HF; subst. exists []. split; auto. intros s _ j p H. inversion H; subst. simpl. lia.
    - inversion HF as [|a d args ds Ha HF' E1 E2]; subst. destruct (IH ds HF') as (offs & E & HP).
      simpl in *. rewrite E. eexists. split.
      + f_equal. f_equal. inversion Ha; subst; destruct (Z.ltb_spec hi 0); lia.
      + intros [|s ss] Hl j p H; [discriminate|]. inversion H; subst. simpl.
        rewrite (HP ss) with (j := j0) by (auto; simpl in Hl; lia). lia. }
  destruct (G rs (ddims d) HF) as (offs & E & HP). unfold slice_ranges. rewrite E. simpl.
  split; auto. intros j p Hs. unfold addr. simpl. rewrite (HP _ HL j p Hs). lia.
Qed.

(** ** Views *)

Lemma vadd_length : forall a b, length a = length b -> length (vadd a b) = length a.
Proof. induction a; intros [|y b] H; simpl in *; auto; try discriminate. Qed.

Lemma dotp_vadd : forall a b s, length a = length b -> dotp (vadd a b) s = dotp a s + dotp b s.
Proof.
  induction a as [|x a IH]; intros [|y b] s H; try discriminate; [reflexivity|].
  destruct s as [|z s]; [reflexivity|]. simpl in *. rewrite IH by lia. lia.
Qed.

Lemma fits_inb : forall os ns ds, fits os ns ds -> forall j, inb j ns -> inb (vadd os j) ds.
Proof.
  intros os ns ds H. induction H as [|o n d os ns ds Ho Hn Hd H IH]; intros j Hj.
  - inversion Hj; subst. constructor.
  - destruct j as [|x j]; [inversion Hj|]. apply inb_cons in Hj as (Hx & Hj).
    simpl. apply inb_cons. split; [lia|auto].
Qed.

Lemma fits_length : forall os ns ds, fits os ns ds -> length os = length ds /\ length ns = length ds.
Proof. induction 1; simpl; lia. Qed.

Lemma count_m1_nonneg : forall dims, Forall (fun d => 0 <= d) dims -> count_m1 dims = 0%nat.
Proof.
  induction 1 as [|d ds Hd H IH]; auto. unfold count_m1 in *. simpl.
  destruct (Z.eqb_spec d (-1)); [lia|auto].
Qed.

Lemma view_ctor_same_rank : forall other dims o,
  Forall (fun d => 0 <= d) dims -> length dims = length (ddims other) ->
  view_ctor other dims (Some o) None =
  Ok (mkDesc (dbase other + dotp o (dstrides other)) dims (dstrides other)).
Proof.
  intros other dims o HF HL. unfold view_ctor. rewrite count_m1_nonneg by auto. simpl.
  rewrite HL, Nat.eqb_refl. reflexivity.
Qed.

Lemma fits_nonneg : forall os ns ds, fits os ns ds -> Forall (fun n => 0 <= n) ns.
Proof. induction 1; constructor; auto. Qed.

(** ** size() *)

Lemma to_int32_id : forall x, - 2 ^ 31 <= x < 2 ^ 31 -> to_int32 x = x.
Proof. intros x H. unfold to_int32. rewrite Z.mod_small; lia. Qed.

Lemma size_model_correct : forall dims, Forall (fun d => 0 <= d) dims -> zprod dims < 2 ^ 31 ->
  size_model dims = zprod dims.
Proof.
  intros dims HF Hs. unfold size_model.
  assert (G0 : forall l, fold_left (fun acc d => to_int32 (acc * d)) l 0 = 0).
  { induction l as [|x l IH]; simpl; auto. 
    }
  assert (Gz : forall l acc, Exists (fun d => d = 0) l ->
     fold_left (fun acc d => to_int32 (acc * d)) l acc = 0).
  { intros l acc H. revert acc. induction H as [x l ->|x l H IH]; intros acc; simpl.
    - replace (acc * 0) with 0 by lia. rewrite to_int32_id by lia. apply G0.
    - apply IH. }
  assert (G : forall l acc, Forall (fun d => 0 < d) l -> 0 < acc -> acc * zprod l < 2 ^ 31 ->
     fold_left (fun acc d => to_int32 (acc * d)) l acc = acc * zprod l).
  { induction l as [|x l IH]; intros acc Hp Ha Hb; simpl in *; [lia|]. inversion Hp; subst.
    assert (0 < zprod l) by (now apply zprod_pos).
    rewrite to_int32_id by nia. rewrite IH; auto; nia. }
  destruct (Exists_dec (fun d => d = 0) dims (fun d => Z.eq_dec d 0)) as [He|Hne].
  - rewrite (Gz dims 1 He).
    assert (zprod dims = 0). { clear - He. induction He; simpl; [subst; lia|rewrite IHHe; lia]. }
    rewrite H. reflexivity.
  - assert (Hp : Forall (fun d => 0 < d) dims).
    { rewrite Forall_forall in *. intros x Hx. specialize (HF x Hx).
      assert (x <> 0) by (intros ->; apply Hne; apply Exists_exists; eauto). lia. }
    rewrite G by (auto; lia). assert (0 < zprod dims) by (now apply zprod_pos).
    rewrite Z.mod_small; lia.
Qed.

(** ** Iterator *)

Lemma last_lt : forall l rd, Forall2 Z.lt l rd -> l <> [] -> last l 0 < last rd 0.
Proof.
  intros l rd H. induction H as [|x e l rd Hx H IH]; intros Hne; [congruence|].
  destruct H as [|y e' l rd Hy H]; auto. apply IH. discriminate.
Qed.

Lemma carry_ne : forall rd x l, carry (x :: l) rd <> [].
Proof. intros [|e rd] x [|y l]; simpl; try discriminate. destruct (_ >=? _); discriminate. Qed.

Lemma carry_snoc : forall l rd x e i d, Forall2 Z.lt l rd ->
  carry ((x :: l) ++ [i]) ((e :: rd) ++ [d]) =
  let r := carry (x :: l) (e :: rd) in
  if last r 0 >=? last (e :: rd) 0 then removelast r ++ [0; i + 1] else r ++ [i].
Proof.
  intros l rd x e i d H. revert x e. induction H as [|y e' l rd Hy H IH]; intros x e.
  - simpl. destruct (x >=? e); reflexivity.
  - change ((x :: y :: l) ++ [i]) with (x :: y :: (l ++ [i])).
    change ((e :: e' :: rd) ++ [d]) with (e :: (e' :: rd) ++ [d]).
    cbv zeta.
    change (carry (x :: y :: l) (e :: e' :: rd))
      with (if x >=? e then 0 :: carry (y + 1 :: l) (e' :: rd) else x :: y :: l).
    change (carry (x :: y :: l ++ [i]) (e :: (e' :: rd) ++ [d]))
      with (if x >=? e then 0 :: carry ((y + 1 :: l) ++ [i]) ((e' :: rd) ++ [d]) else x :: y :: l ++ [i]).
    destruct (x >=? e) eqn:E.
    + rewrite IH. cbv zeta.
      assert (Hc := carry_ne (e' :: rd) (y + 1) l).
      destruct (carry (y + 1 :: l) (e' :: rd)) as [|c cs]; [congruence|].
      change (last (0 :: c :: cs) 0) with (last (c :: cs) 0).
      change (last (e :: e' :: rd) 0) with (last (e' :: rd) 0).
      destruct (last (c :: cs) 0 >=? last (e' :: rd) 0); reflexivity.
    + change (last (x :: y :: l) 0) with (last (y :: l) 0).
      change (last (e :: e' :: rd) 0) with (last (e' :: rd) 0).
      assert (last (y :: l) 0 < last (e' :: rd) 0) by (apply last_lt; [constructor; auto|discriminate]).
      destruct (Z.geb_spec (last (y :: l) 0) (last (e' :: rd) 0)); [lia|]. reflexivity.
Qed.

Lemma Forall2_rev : forall A B (R : A -> B -> Prop) l m, Forall2 R l m -> Forall2 R (rev l) (rev m).
Proof.
  intros A B R l m H. induction H; simpl; [constructor|]. apply Forall2_app; auto.
Qed.

(** One step of the iterator, by position from the front. *)
Lemma iter_next_cons : forall i d is ds, inb is ds -> is <> [] ->
  iter_next (d :: ds) (i :: is) =
  let r := iter_next ds is in
  if hd 0 r >=? hd 0 ds then (i + 1) :: 0 :: tl r else i :: r.
Proof.
  intros i d is ds Hin Hne. unfold iter_next. simpl (rev (i :: is)). simpl (rev (d :: ds)).
  assert (HR : Forall2 Z.lt (rev is) (rev ds)).
  { apply Forall2_rev. clear - Hin. induction Hin; constructor; auto. lia. }
  destruct (rev is) as [|x l] eqn:Er.
  { exfalso. apply Hne. rewrite <- (rev_involutive is), Er. reflexivity. }
  inversion HR as [|? e ? rd Hx HR' E1 E2]; subst.
  change (((x :: l) ++ [i])) with (x :: (l ++ [i])). cbv iota beta.
  change (x + 1 :: l ++ [i]) with ((x + 1 :: l) ++ [i]).
  rewrite (carry_snoc l rd (x + 1) e i d HR'). cbv zeta.
  assert (Hds : ds = rev (e :: rd)) by (rewrite E2, rev_involutive; auto).
  assert (Hc := carry_ne (e :: rd) (x + 1) l).
  set (r := carry (x + 1 :: l) (e :: rd)) in *.
  assert (Hh : forall m : list Z, hd 0 (rev m) = last m 0).
  { intros m. destruct m as [|z m _] using rev_ind; [reflexivity|]. 
    rewrite rev_app_distr, last_last. reflexivity. }
  rewrite Hh. rewrite Hds, Hh.
  destruct (last r 0 >=? last (e :: rd) 0).
  - rewrite rev_app_distr. simpl. f_equal. f_equal.
    destruct r as [|z m _] using rev_ind; [congruence|].
    rewrite removelast_last, rev_app_distr. reflexivity.
  - rewrite rev_app_distr. reflexivity.
Qed.

Lemma iter_next_sti : forall dims n, dims <> [] -> Forall (fun d => 0 < d) dims -> 0 <= n < zprod dims ->
  iter_next dims (sentinel_to_indices n (row_major_strides dims))
  = sentinel_to_indices (n + 1) (row_major_strides dims).
Proof.
  induction dims as [|d ds IH]; intros n Hne HF Hn; [congruence|].
  inversion HF as [|? ? Hd HF']; subst. rewrite rms_cons. simpl in Hn |- *.
  assert (Hp : 0 < zprod ds) by (now apply zprod_pos).
  destruct (Z.eqb_spec (zprod ds) 0); [lia|].
  destruct ds as [|e es].
  - simpl in *. unfold iter_next. simpl. rewrite !Z.div_1_r. reflexivity.
  - set (D := e :: es) in *.
    assert (Hm : 0 <= n mod zprod D < zprod D) by (apply Z.mod_pos_bound; lia).
    assert (Hin : inb (sentinel_to_indices (n mod zprod D) (row_major_strides D)) D).
    { apply rm_sti_inb; auto. eapply Forall_impl; [|exact HF']. simpl. lia. }
    rewrite iter_next_cons; auto.
    2:{ intros E. apply inb_length in Hin. rewrite E in Hin. discriminate. }
    rewrite IH by (auto; discriminate). cbv zeta.
    set (m := n mod zprod D) in *.
    assert (Hq : n = zprod D * (n / zprod D) + m) by (apply Z_div_mod_eq_full).
    assert (Hes : 0 < zprod es) by (apply zprod_pos; inversion HF'; auto).
    destruct (Z.eq_dec (m + 1) (zprod D)) as [Em|Em].
    + assert (E1 : sentinel_to_indices (m + 1) (row_major_strides D) = e :: repeat 0 (length es)).
      { rewrite Em. unfold D. rewrite rms_cons. simpl.
        destruct (Z.eqb_spec (zprod es) 0); [lia|]. rewrite Z.div_mul, Z.mod_mul by lia.
        rewrite rm_sti_zero; auto. inversion HF'; auto. }
      rewrite E1. change (hd 0 D) with e. simpl (hd 0 _). simpl (tl _). destruct (Z.geb_spec e e); [|lia].
      assert (E2 : n + 1 = (n / zprod D + 1) * zprod D) by lia.
      rewrite E2, Z.div_mul, Z.mod_mul by lia.
      rewrite rm_sti_zero by auto. reflexivity.
    + assert (Hin' : inb (sentinel_to_indices (m + 1) (row_major_strides D)) D).
      { apply rm_sti_inb; try lia. eapply Forall_impl; [|exact HF']. simpl. lia. }
      destruct (sentinel_to_indices (m + 1) (row_major_strides D)) as [|x xs] eqn:Ex.
      { apply inb_length in Hin'. discriminate. }
      unfold D in Hin'. apply inb_cons in Hin' as (Hx & _).
      simpl (hd 0 _). destruct (Z.geb_spec x e); [lia|].
      replace ((n + 1) / zprod D) with (n / zprod D).
      2:{ apply Z.div_unique with (r := m + 1); [left; lia|]. rewrite Hq at 1. ring. }
      replace ((n + 1) mod zprod D) with (m + 1).
      2:{ apply Z.mod_unique with (q := n / zprod D); [left; lia|]. rewrite Hq at 1. ring. }
      rewrite Ex. reflexivity.
Qed.

Lemma iter_advance_sti : forall dims k, dims <> [] -> Forall (fun d => 0 < d) dims ->
  forall n, 0 <= n -> n + Z.of_nat k <= zprod dims ->
  iter_advance k dims (sentinel_to_indices n (row_major_strides dims))
  = sentinel_to_indices (n + Z.of_nat k) (row_major_strides dims).
Proof.
  intros dims k Hne HF. induction k as [|k IH]; intros n Hn Hk; simpl.
  - f_equal. lia.
  - rewrite iter_next_sti by (auto; lia). rewrite IH by lia. f_equal. lia.
Qed.

(** ** Reshape *)

Lemma count_m1_wild : forall dims, count_m1 dims = wildcards dims.
Proof.
  induction dims as [|d ds IH]; [reflexivity|]. unfold count_m1 in *. simpl.
  destruct (d =? -1); simpl; rewrite IH; reflexivity.
Qed.

Lemma no_wild_fills : forall spec dims, wildcards spec = 0%nat -> fills spec dims -> dims = spec.
Proof.
  intros spec dims Hw H. induction H as [|s d spec dims Hs H IH]; auto. simpl in Hw.
  destruct (Z.eqb_spec s (-1)); [simpl in Hw; lia|]. f_equal; [lia|]. apply IH. simpl in Hw; lia.
Qed.

Lemma no_wild_self : forall spec, wildcards spec = 0%nat -> Forall (fun s => -1 <= s) spec -> fills spec spec.
Proof.
  intros spec Hw H. induction H as [|s spec Hs H IH]; [constructor|]. simpl in Hw.
  destruct (Z.eqb_spec s (-1)); [simpl in Hw; lia|]. constructor; [lia|]. apply IH. simpl in Hw; lia.
Qed.

Lemma known_product_nowild : forall spec, wildcards spec = 0%nat -> known_product spec = zprod spec.
Proof.
  induction spec as [|s spec IH]; intros Hw; auto. simpl in *.
  destruct (Z.eqb_spec s (-1)); [simpl in Hw; lia|]. rewrite IH; auto.
Qed.

(** The position found for a single wildcard. *)
Lemma last_m1_split : forall spec i acc, wildcards spec = 1%nat ->
  exists pre post, spec = pre ++ -1 :: post /\ wildcards pre = 0%nat /\ wildcards post = 0%nat /\ last_m1 i spec acc = (i + length pre)%nat.
Proof.
  induction spec as [|s spec IH]; intros i acc Hw; [discriminate|]. simpl in *.
  destruct (Z.eqb_spec s (-1)) as [->|Hs].
  - exists [], spec. simpl. repeat split; auto.
    assert (G : forall l i acc, wildcards l = 0%nat -> last_m1 i l acc = acc).
    { induction l as [|x l IHl]; intros j a Hl; simpl in *; auto.
      destruct (Z.eqb_spec x (-1)); [simpl in Hl; lia|]. apply IHl. auto. }
    rewrite G by (simpl in Hw; lia). lia.
  - destruct (IH (S i) acc) as (pre & post & -> & H1 & H2 & H3); [auto|].
    exists (s :: pre), post. simpl. repeat split; auto.
    + destruct (Z.eqb_spec s (-1)); [lia|]. auto.
    + rewrite H3. lia.
Qed.

Lemma product_except_app : forall pre x post, product_except (length pre) (pre ++ x :: post) = zprod pre * zprod post.
Proof. induction pre as [|y pre IH]; intros; simpl; [lia|]. rewrite IH. lia. Qed.

Lemma known_product_app : forall a b, known_product (a ++ b) = known_product a * known_product b.
Proof. induction a as [|x a IH]; intros; simpl; [lia|]. rewrite IH. lia. Qed.

Lemma wildcards_app : forall a b, wildcards (a ++ b) = (wildcards a + wildcards b)%nat.
Proof. induction a as [|x a IH]; intros; simpl; auto. rewrite IH. lia. Qed.

Lemma fills_app_inv : forall a b dims, fills (a ++ b) dims ->
  exists x y, dims = x ++ y /\ fills a x /\ fills b y.
Proof. intros a b dims H. apply Forall2_app_inv_l in H as (x & y & H1 & H2 & ->). eauto. Qed.

Lemma reshape_ok_iff : forall b edims spec,
  edims <> [] -> spec <> [] -> Forall (fun d => 0 < d) edims -> Forall (fun s => -1 <= s) spec ->
  known_product spec <> 0 \/ wildcards spec <> 1%nat ->
  (forall t, reshape (tensor_ctor b edims) spec = Ok t <->
     (wildcards spec <= 1)%nat /\ exists dims, fills spec dims /\ zprod dims = zprod edims /\ t = tensor_ctor b dims) /\ (reshape (tensor_ctor b edims) spec = Throw <->
     ~ ((wildcards spec <= 1)%nat /\ exists dims, fills spec dims /\ zprod dims = zprod edims)).
Proof.
  intros b edims spec Hen Hsn Hep Hsp Hk.
  assert (Hz : 0 < zprod edims) by (now apply zprod_pos).
  unfold reshape. simpl ddims. rewrite count_m1_wild. rewrite (data_size_eq edims) by auto.
  destruct (Nat.ltb_spec 1 (wildcards spec)) as [Hw|Hw].
  { split; [intros t; split; [discriminate|intros (Hc & _); lia]|].
    split; [intros _ (Hc & _); lia|auto]. }
  destruct (Nat.eqb_spec (wildcards spec) 1) as [E1|E1].
  - destruct (last_m1_split spec 0 0 E1) as (pre & post & -> & Hpre & Hpost & ->).
    simpl plus. rewrite product_except_app, set_at_app.
    assert (Hkp : known_product (pre ++ -1 :: post) = zprod pre * zprod post).
    { rewrite known_product_app. simpl. rewrite !known_product_nowild by auto. lia. }
    rewrite Hkp in Hk.
    apply Forall_app in Hsp as (Sp & Sq). inversion Sq as [|? ? _ Sq']; subst.
    assert (P1 : Forall (fun d => 0 <= d) pre).
    { apply Forall_forall. intros x Hx. rewrite Forall_forall in Sp. specialize (Sp x Hx).
      assert (x <> -1); [|lia]. intros ->. clear - Hpre Hx. induction pre; simpl in *; auto.
      destruct Hx as [->|Hx]; [simpl in Hpre; lia|]. apply IHpre; auto. lia. }
    assert (P2 : Forall (fun d => 0 <= d) post).
    { apply Forall_forall. intros x Hx. rewrite Forall_forall in Sq'. specialize (Sq' x Hx).
      assert (x <> -1); [|lia]. intros ->. clear - Hpost Hx. induction post; simpl in *; auto.
      destruct Hx as [->|Hx]; [simpl in Hpost; lia|]. apply IHpost; auto. lia. }
    assert (Q1 := zprod_nonneg _ P1). assert (Q2 := zprod_nonneg _ P2).
    set (p := zprod pre * zprod post) in *.
    assert (Hp : 0 < p) by (destruct Hk as [Hk|Hk]; [unfold p in *; nia|lia]).
    assert (Hfill : forall dims, fills (pre ++ -1 :: post) dims <->
       exists x, 0 <= x /\ dims = pre ++ x :: post).
    { intros dims. split.
      - intros H. apply fills_app_inv in H as (a & c & -> & Ha & Hc).
        inversion Hc as [|? x ? q Hx Hq]; subst.
        apply no_wild_fills in Ha; auto. apply no_wild_fills in Hq; auto. subst.
        exists x. split; auto. lia.
      - intros (x & Hx & ->). apply Forall2_app; [apply no_wild_self; auto|].
        constructor; [lia|]. apply no_wild_self; auto. }
    assert (Hprod : forall x, zprod (pre ++ x :: post) = x * p).
    { intros. rewrite zprod_app. simpl. unfold p. lia. }
    destruct (Z.gtb_spec p (zprod edims)) as [Hg|Hg].
    + simpl. split; [intros t; split; [discriminate|]|].
      * intros (_ & dims & Hf & Hd & _). apply Hfill in Hf as (x & Hx & ->). rewrite Hprod in Hd. destruct (Z.eq_dec x 0); [subst x; lia|nia].
      * split; auto. intros _ (_ & dims & Hf & Hd). apply Hfill in Hf as (x & Hx & ->). rewrite Hprod in Hd. destruct (Z.eq_dec x 0); [subst x; lia|nia].
    + destruct (Z.eqb_spec p 0); [lia|]. simpl.
      rewrite data_size_eq by (intros H0; symmetry in H0; now apply app_cons_not_nil in H0).
      rewrite Hprod.
      destruct (Z.eqb_spec (zprod edims / p * p) (zprod edims)) as [Hd|Hd].
      * split.
        -- intros t. split.
           ++ intros H. injection H as <-. split; auto. exists (pre ++ zprod edims / p :: post).
              split; [apply Hfill; exists (zprod edims / p); split; auto; apply Z.div_pos; lia|].
              split; auto. rewrite Hprod. auto.
           ++ intros (_ & dims & Hf & Hz' & ->). apply Hfill in Hf as (x & Hx & ->).
              rewrite Hprod in Hz'. rewrite <- Hz'. rewrite Z.div_mul by lia. reflexivity.
        -- split; [discriminate|]. intros H. exfalso. apply H. split; auto.
           exists (pre ++ zprod edims / p :: post).
           split; [apply Hfill; exists (zprod edims / p); split; auto; apply Z.div_pos; lia|].
           rewrite Hprod. auto.
      * assert (Hno : forall dims, fills (pre ++ -1 :: post) dims -> zprod dims = zprod edims -> False).
        { intros dims Hf Hz'. apply Hfill in Hf as (x & Hx & ->). rewrite Hprod in Hz'.
          apply Hd. rewrite <- Hz'. rewrite Z.div_mul by lia. reflexivity. }
        split.
        -- intros t. split; [discriminate|]. intros (_ & dims & Hf & Hz' & _). exfalso; eauto.
        -- split; auto. intros _ (_ & dims & Hf & Hz'). eauto.
  - assert (Hw0 : wildcards spec = 0%nat) by lia. simpl.
    rewrite data_size_eq by auto.
    destruct (Z.eqb_spec (zprod spec) (zprod edims)) as [Hd|Hd].
    + split.
      * intros t. split.
        -- intros H. injection H as <-. split; auto. exists spec. repeat split; auto. now apply no_wild_self.
        -- intros (_ & dims & Hf & _ & ->). apply no_wild_fills in Hf; auto. now subst.
      * split; [discriminate|]. intros H. exfalso. apply H. split; auto. exists spec. split; auto. now apply no_wild_self.
    + assert (Hno : forall dims, fills spec dims -> zprod dims = zprod edims -> False).
      { intros dims Hf Hz'. apply no_wild_fills in Hf; auto. subst. auto. }
      split.
      * intros t. split; [discriminate|]. intros (_ & dims & Hf & Hz' & _). exfalso; eauto.
      * split; auto. intros _ (_ & dims & Hf & Hz'). eauto.
Qed.
