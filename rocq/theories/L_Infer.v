(** * L_Infer: float division followed by ceil is exact for counts up to 2^24
    (Flocq; uses the real numbers of the standard library). *)
From Coq Require Import List ZArith Lia Bool Reals Lra SpecFloat.
From Flocq Require Import Core IEEE754.BinarySingleNaN.
From Verif Require Import Base Heap M_Addr M_Infer.
Import ListNotations.
Open Scope Z_scope.

Local Instance p24 : Prec_gt_0 24 := eq_refl.
Local Instance p24lt : Prec_lt_emax 24 128 := eq_refl.
Notation b32 := (binary_float 24 128).
Notation f32exp := (SpecFloat.fexp 24 128).
Notation rnd32 := (round radix2 f32exp (round_mode mode_NE)).

Lemma round_aux_equiv : forall sx mx ex lx,
  SpecFloat.binary_round_aux 24 128 sx mx ex lx = BinarySingleNaN.binary_round_aux 24 128 mode_NE sx mx ex lx.
Proof.
  intros. unfold SpecFloat.binary_round_aux, BinarySingleNaN.binary_round_aux.
  destruct (SpecFloat.shr_fexp 24 128 mx ex lx) as [mrs' e'].
  replace (choice_mode mode_NE sx (shr_m mrs') (loc_of_shr_record mrs')) with (round_nearest_even (shr_m mrs') (loc_of_shr_record mrs')); auto.
  destruct (loc_of_shr_record mrs') as [|[]]; try reflexivity. simpl. unfold Round.cond_incr. now destruct (Z.even _).
Qed.
Definition bz (z : Z) : b32 := BinarySingleNaN.binary_normalize 24 128 _ _ mode_NE z 0 false.
Lemma f32_bz : forall z, f32 z = B2SF (bz z).
Proof.
  intros [|p|p]; unfold f32, bz; simpl; auto; rewrite B2SF_SF2B;
    unfold SpecFloat.binary_round, BinarySingleNaN.binary_round, shl_align_fexp; destruct (shl_align _ _ _); apply round_aux_equiv.
Qed.
Lemma div_b : forall x y : b32, SFdiv 24 128 (B2SF x) (B2SF y) = B2SF (Bdiv mode_NE x y).
Proof.
  intros [sx|sx| |sx mx ex Hx] [sy|sy| |sy my ey Hy]; try reflexivity.
  simpl. rewrite B2SF_SF2B. destruct (SFdiv_core_binary _ _ _ _ _ _) as [[mz ez] lz]. apply round_aux_equiv.
Qed.

Lemma fmt32 : forall a, Z.abs a <= 2 ^ 24 -> generic_format radix2 f32exp (IZR a).
Proof.
  intros a Ha. destruct (Z.eq_dec (Z.abs a) (2 ^ 24)) as [E|E].
  - assert (G : generic_format radix2 f32exp (bpow radix2 24)).
    { apply generic_format_bpow. unfold SpecFloat.fexp, SpecFloat.emin. lia. }
    change (bpow radix2 24) with (IZR (2 ^ 24)) in G.
    destruct (Z.abs_eq_or_opp a) as [P|P]; rewrite E in P.
    + rewrite <- P. exact G.
    + replace a with (- 2 ^ 24) by lia. rewrite opp_IZR. now apply generic_format_opp.
  - replace (IZR a) with (F2R (Float radix2 a 0)) by (unfold F2R; simpl; ring).
    apply (generic_format_FLT radix2 (SpecFloat.emin 24 128) 24). exists (Float radix2 a 0); auto.
    + simpl. lia.
    + unfold SpecFloat.emin. simpl. lia.
Qed.
Lemma rnd_int : forall a, Z.abs a <= 2 ^ 24 -> rnd32 (IZR a) = IZR a.
Proof. intros a Ha. apply round_generic; [apply valid_rnd_N|now apply fmt32]. Qed.
Lemma fmt_bpow : forall k, -100 <= k <= 100 -> generic_format radix2 f32exp (bpow radix2 k).
Proof. intros k Hk. apply generic_format_bpow. unfold SpecFloat.fexp, SpecFloat.emin. lia. Qed.
Lemma rnd_le : forall x y, (x <= y)%R -> (rnd32 x <= rnd32 y)%R.
Proof. intros. apply round_le; auto. - apply (fexp_correct 24 128). reflexivity. - apply valid_rnd_N. Qed.
Lemma rnd_bpow : forall k, -100 <= k <= 100 -> rnd32 (bpow radix2 k) = bpow radix2 k.
Proof. intros k Hk. apply round_generic; [apply valid_rnd_N|now apply fmt_bpow]. Qed.

(** Conversion of a positive integer below 2^63. *)
Lemma bz_spec : forall a, 0 <= a < 2 ^ 63 -> is_finite (bz a) = true /\ B2R (bz a) = rnd32 (IZR a).
Proof.
  intros a Ha. pose proof (binary_normalize_correct 24 128 _ _ mode_NE a 0 false) as H. cbv zeta in H.
  replace (F2R (Float radix2 a 0)) with (IZR a) in H by (unfold F2R; simpl; ring).
  rewrite Rlt_bool_true in H; [fold (bz a) in H; tauto|].
  assert (L : (0 <= rnd32 (IZR a))%R).
  { rewrite <- (rnd_int 0) by lia. apply rnd_le. apply IZR_le. lia. }
  rewrite Rabs_pos_eq by auto. apply Rle_lt_trans with (bpow radix2 63).
  - rewrite <- (rnd_bpow 63) by lia. apply rnd_le. change (bpow radix2 63) with (IZR (2 ^ 63)). apply IZR_le. lia.
  - apply bpow_lt. lia.
Qed.

(** The rounded quotient lies in the same unit interval as the quotient and does
    not fall on its lower end. *)
Lemma quotient_bounds : forall a s, 0 < a <= 2 ^ 24 -> 0 < s < 2 ^ 63 ->
  let k := (a - 1) / s in
  (IZR k < rnd32 (IZR a / rnd32 (IZR s)) <= IZR (k + 1))%R.
Proof.
  intros a s Ha Hs k.
  assert (VE : Valid_exp f32exp) by (apply (fexp_correct 24 128); reflexivity).
  assert (Pa : (0 < IZR a)%R) by (apply IZR_lt; lia).
  destruct (Z.le_gt_cases s (2 ^ 24)) as [Hs2|Hs2].
  - rewrite (rnd_int s) by lia. assert (Ps : (0 < IZR s)%R) by (apply IZR_lt; lia).
    assert (Hk : k * s <= a - 1 < (k + 1) * s) by (unfold k; pose proof (Z.div_mod (a - 1) s); pose proof (Z.mod_pos_bound (a - 1) s); nia).
    assert (K0 : 0 <= k) by (unfold k; apply Z.div_pos; lia).
    assert (K1 : k + 1 <= 2 ^ 24) by nia.
    assert (Q1 : (IZR a / IZR s <= IZR (k + 1))%R).
    { apply Rmult_le_reg_r with (IZR s); auto. unfold Rdiv. rewrite Rmult_assoc, Rinv_l, Rmult_1_r by lra.
      rewrite <- mult_IZR. apply IZR_le. lia. }
    assert (Q2 : (IZR k + / IZR s <= IZR a / IZR s)%R).
    { apply Rmult_le_reg_r with (IZR s); auto. unfold Rdiv. rewrite Rmult_plus_distr_r, Rmult_assoc, !Rinv_l, Rmult_1_r by lra.
      rewrite <- mult_IZR, <- (plus_IZR _ 1). apply IZR_le. lia. }
    split; [|rewrite <- (rnd_int (k + 1)) by lia; now apply rnd_le].
    destruct (Z.eq_dec k 0) as [E|E].
    + rewrite E in *. apply Rlt_le_trans with (bpow radix2 (-24)); [apply bpow_gt_0|].
      rewrite <- (rnd_bpow (-24)) by lia. apply rnd_le. apply Rle_trans with (2 := Q2). rewrite Rplus_0_l.
      change (bpow radix2 (-24)) with (/ IZR (2 ^ 24))%R. apply Rinv_le; auto. apply IZR_le. lia.
    + assert (Pk : (0 < IZR k)%R) by (apply IZR_lt; lia).
      assert (Fk : generic_format radix2 f32exp (IZR k)) by (apply fmt32; lia).
      apply Rlt_le_trans with (succ radix2 f32exp (IZR k)); [apply succ_gt_id; lra|].
      apply round_N_ge_midp; [exact VE|now apply generic_format_succ|].
      rewrite pred_succ by auto. rewrite succ_eq_pos by lra.
      apply Rlt_le_trans with (2 := Q2).
      assert (U : (ulp radix2 f32exp (IZR k) / 2 < / IZR s)%R); [|lra].
      rewrite ulp_neq_0 by lra. unfold cexp.
      replace (f32exp (mag radix2 (IZR k))) with (mag radix2 (IZR k) - 24).
      2:{ unfold SpecFloat.fexp, SpecFloat.emin. rewrite Z.max_l; [lia|].
          assert (0 < mag radix2 (IZR k)) by (apply (mag_gt_bpow radix2 (IZR k) 0); rewrite Rabs_pos_eq by lra; change (bpow radix2 0) with (IZR 1); apply IZR_le; lia). lia. }
      destruct (mag radix2 (IZR k)) as [e He]. cbn [mag_val]. specialize (He ltac:(lra)). rewrite Rabs_pos_eq in He by lra.
      replace (bpow radix2 (e - 24)) with (bpow radix2 (e - 1) * bpow radix2 (-23))%R by (rewrite <- bpow_plus; f_equal; lia).
      apply Rle_lt_trans with (IZR k * bpow radix2 (-23) / 2)%R.
      * unfold Rdiv. apply Rmult_le_compat_r; [lra|]. apply Rmult_le_compat_r; [apply bpow_ge_0|]. lra.
      * replace (IZR k * bpow radix2 (-23) / 2)%R with (IZR k / IZR (2 ^ 24))%R by (change (bpow radix2 (-23)) with (/ IZR (2 ^ 23))%R; replace (IZR (2 ^ 24)) with (2 * IZR (2 ^ 23))%R by (rewrite <- mult_IZR; reflexivity); field; apply IZR_neq; discriminate).
        assert (P24 : (0 < IZR (2 ^ 24))%R) by (apply IZR_lt; reflexivity).
        apply Rmult_lt_reg_r with (IZR (2 ^ 24) * IZR s)%R; [apply Rmult_lt_0_compat; auto|].
        unfold Rdiv.
        replace (IZR k * / IZR (2 ^ 24) * (IZR (2 ^ 24) * IZR s))%R with (IZR (k * s))%R by (rewrite mult_IZR; field; lra).
        replace (/ IZR s * (IZR (2 ^ 24) * IZR s))%R with (IZR (2 ^ 24)) by (field; lra).
        apply IZR_lt. lia.
  - assert (k = 0) by (apply Z.div_small; lia). rewrite H. 
    assert (S1 : (IZR (2 ^ 24) <= rnd32 (IZR s))%R).
    { rewrite <- (rnd_int (2 ^ 24)) by lia. apply rnd_le. apply IZR_le. lia. }
    assert (S2 : (rnd32 (IZR s) <= bpow radix2 63)%R).
    { rewrite <- (rnd_bpow 63) by lia. apply rnd_le. change (bpow radix2 63) with (IZR (2 ^ 63)). apply IZR_le. lia. }
    assert (P24 : (0 < IZR (2 ^ 24))%R) by (apply IZR_lt; reflexivity).
    split.
    + apply Rlt_le_trans with (bpow radix2 (-63)); [apply bpow_gt_0|]. rewrite <- (rnd_bpow (-63)) by lia. apply rnd_le.
      change (-63)%Z with (- (63))%Z. rewrite (bpow_opp radix2 63). apply Rmult_le_reg_r with (rnd32 (IZR s)); [lra|]. unfold Rdiv. rewrite Rmult_assoc, Rinv_l, Rmult_1_r by lra.
      apply Rle_trans with 1%R; [|apply (IZR_le 1); lia].
      apply Rmult_le_reg_l with (bpow radix2 63); [apply bpow_gt_0|]. rewrite <- Rmult_assoc, Rinv_r, Rmult_1_l, Rmult_1_r; auto.
      apply Rgt_not_eq, bpow_gt_0.
    + rewrite <- (rnd_int (0 + 1)) by lia. apply rnd_le. apply Rmult_le_reg_r with (rnd32 (IZR s)); [lra|].
      unfold Rdiv. rewrite Rmult_assoc, Rinv_l, Rmult_1_r by lra. simpl (0 + 1). rewrite Rmult_1_l.
      apply Rle_trans with (2 := S1). apply IZR_le. lia.
Qed.

Lemma f32_ceil_spec : forall (x : b32) k, is_finite x = true -> -2^62 <= k <= 2 ^ 62 ->
  (IZR k < B2R x <= IZR (k + 1))%R -> f32_ceil (B2SF x) = Ok (k + 1).
Proof.
  intros [s|s| |s m e Hx] k F Hk H; try discriminate; simpl in H.
  - destruct H as (H1 & H2). apply lt_IZR in H1. apply le_IZR in H2. simpl. f_equal. lia.
  - unfold B2SF, f32_ceil. set (v := if s then Z.neg m else Z.pos m).
    change (cond_Zopp s (Z.pos m)) with v in H. unfold F2R in H. cbn [Fnum Fexp] in H.
    assert (G : (if 0 <=? e then v * 2 ^ e else - (- v / 2 ^ (- e))) = k + 1).
    { destruct (Z.leb_spec 0 e).
      - rewrite <- IZR_Zpower, <- mult_IZR in H by auto. destruct H as (H1 & H2). apply lt_IZR in H1. apply le_IZR in H2.
        change (radix2 ^ e) with (2 ^ e) in *. lia.
      - assert (P : 0 < 2 ^ (- e)) by (apply Z.pow_pos_nonneg; lia).
        assert (E : (IZR v * bpow radix2 e * IZR (2 ^ (- e)) = IZR v)%R).
        { change (2 ^ (- e)) with (radix2 ^ (- e)). rewrite IZR_Zpower by lia. rewrite Rmult_assoc, <- bpow_plus.
          replace (e + - e) with 0 by lia. simpl. ring. }
        assert (PR : (0 < IZR (2 ^ (- e)))%R) by (apply IZR_lt; auto).
        destruct H as (H1 & H2). apply Rmult_lt_compat_r with (r := IZR (2 ^ (- e))) in H1; auto.
        apply Rmult_le_compat_r with (r := IZR (2 ^ (- e))) in H2; [|lra]. rewrite E, <- mult_IZR in *.
        apply lt_IZR in H1. apply le_IZR in H2.
        pose proof (Z.div_mod (- v) (2 ^ (- e)) ltac:(lia)). pose proof (Z.mod_pos_bound (- v) (2 ^ (- e)) P). nia. }
    rewrite G. rewrite (proj2 (Z.leb_le _ _)), (proj2 (Z.ltb_lt _ _)) by lia. reflexivity.
Qed.

(** The extent computed in [float]: the exact ceiling of the quotient. *)
Lemma inferred_exact : forall n o s, 0 <= o <= n -> n - o <= 2 ^ 24 -> n < 2 ^ 63 -> 0 < s < 2 ^ 63 ->
  inferred n o s = Ok (- ((- (n - o)) / s)).
Proof.
  intros n o s Ho Hn Hb Hs. unfold inferred. rewrite Z.mod_small by lia. rewrite !f32_bz, div_b.
  set (a := n - o) in *. assert (Ha : 0 <= a <= 2 ^ 24) by lia.
  destruct (bz_spec a) as (Fa & Ra); [lia|]. destruct (bz_spec s) as (Fs & Rs); [lia|]. rewrite rnd_int in Ra by lia.
  assert (S1 : (1 <= rnd32 (IZR s))%R).
  { rewrite <- (rnd_int 1) by lia. apply rnd_le. apply IZR_le. lia. }
  assert (NZ : B2R (bz s) <> 0%R) by lra.
  pose proof (Bdiv_correct 24 128 _ _ mode_NE (bz a) (bz s) NZ) as H. rewrite Ra, Rs in H.
  destruct (Z.eq_dec a 0) as [E|E].
  - rewrite E in *. simpl (bz 0). change (bz 0) with (B754_zero false : b32).
    destruct (bz s) as [x|x| |x m e Hx]; try discriminate; [simpl in NZ; lra|]. reflexivity.
  - destruct (quotient_bounds a s) as (B1 & B2); [lia|lia|]. set (k := (a - 1) / s) in *.
    assert (K0 : 0 <= k) by (apply Z.div_pos; lia). assert (K1 : k <= 2 ^ 24) by (apply Z.div_le_upper_bound; nia).
    rewrite Rlt_bool_true in H.
    + destruct H as (H1 & H2 & _). rewrite (f32_ceil_spec _ k); try congruence; [|lia|rewrite H1; auto].
      f_equal. unfold k. pose proof (Z.div_mod (a - 1) s ltac:(lia)). pose proof (Z.mod_pos_bound (a - 1) s ltac:(lia)).
      pose proof (Z.div_mod (- a) s ltac:(lia)). pose proof (Z.mod_pos_bound (- a) s ltac:(lia)). nia.
    + rewrite Rabs_pos_eq by (apply Rle_trans with (IZR k); [apply (IZR_le 0); lia|lra]).
      apply Rle_lt_trans with (1 := B2). apply Rle_lt_trans with (bpow radix2 25).
      * change (bpow radix2 25) with (IZR (2 ^ 25)). apply IZR_le. lia.
      * apply bpow_lt. lia.
Qed.
