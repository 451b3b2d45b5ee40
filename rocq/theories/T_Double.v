(** * T_Double: IEEE double arithmetic (Flocq) is exact on the integers met by
    arange with integer ends and by fftfreq.  These theorems use the real
    numbers of the standard library, hence its axioms. *)
From Coq Require Import List ZArith Lia Bool Reals Lra.
From Flocq Require Import Core IEEE754.BinarySingleNaN.
From Verif Require Import Base Heap Conc M_Addr S_Addr L_Addr M_Elt L_Elt M_Einsum S_Einsum M_Blas M_Util S_Util L_Util T_Util.
Import ListNotations.
Open Scope Z_scope.

Local Instance p53 : Prec_gt_0 53 := eq_refl.
Local Instance p53lt : Prec_lt_emax 53 1024 := eq_refl.
Definition b64 := binary_float 53 1024.
(** Round to nearest even, the default mode. *)
Definition DOps : Ops :=
  mkOps b64 (B754_zero false) (Bone (prec := 53) (emax := 1024)) (Bplus mode_NE) (Bmult mode_NE) (Bminus mode_NE) Bopp (Bdiv mode_NE) Beqb.
Definition d_ofZ (z : Z) : b64 := binary_normalize 53 1024 _ _ mode_NE z 0 false.

Lemma fmt : forall a, Z.abs a <= 2 ^ 53 -> generic_format radix2 (SpecFloat.fexp 53 1024) (IZR a).
Proof.
  intros a Ha. destruct (Z.eq_dec (Z.abs a) (2 ^ 53)) as [E|E].
  - assert (G : generic_format radix2 (SpecFloat.fexp 53 1024) (bpow radix2 53)).
    { apply generic_format_bpow. unfold SpecFloat.fexp, SpecFloat.emin. lia. }
    change (bpow radix2 53) with (IZR (2 ^ 53)) in G.
    destruct (Z.abs_eq_or_opp a) as [P|P]; rewrite E in P.
    + rewrite <- P. exact G.
    + replace a with (- 2 ^ 53) by lia. rewrite opp_IZR. now apply generic_format_opp.
  - replace (IZR a) with (F2R (Float radix2 a 0)) by (unfold F2R; simpl; ring).
    apply (generic_format_FLT radix2 (SpecFloat.emin 53 1024) 53). exists (Float radix2 a 0); auto.
    + simpl. lia.
    + unfold SpecFloat.emin. simpl. lia.
Qed.
Lemma small : forall a, Z.abs a <= 2 ^ 53 -> Rlt_bool (Rabs (IZR a)) (bpow radix2 1024) = true.
Proof.
  intros a Ha. apply Rlt_bool_true. rewrite <- abs_IZR. apply Rle_lt_trans with (bpow radix2 53).
  - change (bpow radix2 53) with (IZR (2 ^ 53)). now apply IZR_le.
  - apply bpow_lt. lia.
Qed.
Lemma rnd : forall a, Z.abs a <= 2 ^ 53 -> round radix2 (SpecFloat.fexp 53 1024) (round_mode mode_NE) (IZR a) = IZR a.
Proof. intros a Ha. apply round_generic; [apply valid_rnd_N|now apply fmt]. Qed.
Lemma cmp0 : forall a, Rcompare (IZR a) 0 = (a ?= 0).
Proof. intros a. apply Rcompare_IZR. Qed.

Lemma d_ofZ_spec : forall a, Z.abs a <= 2 ^ 53 ->
  is_finite (d_ofZ a) = true /\ B2R (d_ofZ a) = IZR a /\ Bsign (d_ofZ a) = (a <? 0).
Proof.
  intros a Ha. pose proof (binary_normalize_correct 53 1024 _ _ mode_NE a 0 false) as H. cbv zeta in H.
  replace (F2R (Float radix2 a 0)) with (IZR a) in H by (unfold F2R; simpl; ring).
  rewrite rnd, small in H by auto. destruct H as (H1 & H2 & H3). fold (d_ofZ a) in *.
  split; [auto|]. split; [auto|]. rewrite H3, cmp0. unfold Z.ltb. now destruct (a ?= 0).
Qed.
Lemma d_ofZ_eq : forall a (x : b64), Z.abs a <= 2 ^ 53 -> is_finite x = true -> B2R x = IZR a -> Bsign x = (a <? 0) -> x = d_ofZ a.
Proof.
  intros a x Ha Hf Hr Hs. destruct (d_ofZ_spec a Ha) as (F & R & S). apply B2R_Bsign_inj; auto; congruence.
Qed.
Lemma d_plus : forall a b, Z.abs a <= 2 ^ 53 -> Z.abs b <= 2 ^ 53 -> Z.abs (a + b) <= 2 ^ 53 ->
  Bplus mode_NE (d_ofZ a) (d_ofZ b) = d_ofZ (a + b).
Proof.
  intros a b Ha Hb Hab. destruct (d_ofZ_spec a Ha) as (Fa & Ra & Sa). destruct (d_ofZ_spec b Hb) as (Fb & Rb & Sb).
  pose proof (Bplus_correct 53 1024 _ _ mode_NE _ _ Fa Fb) as H. rewrite Ra, Rb, <- plus_IZR, rnd, small in H by auto.
  destruct H as (H1 & H2 & H3). apply d_ofZ_eq; auto. rewrite H3, cmp0, Sa, Sb.
  unfold Z.ltb at 3. destruct (Z.compare_spec (a + b) 0); auto.
  destruct (Z.ltb_spec a 0), (Z.ltb_spec b 0); auto; lia.
Qed.
Lemma d_minus : forall a b, Z.abs a <= 2 ^ 53 -> Z.abs b <= 2 ^ 53 -> Z.abs (a - b) <= 2 ^ 53 ->
  Bminus mode_NE (d_ofZ a) (d_ofZ b) = d_ofZ (a - b).
Proof.
  intros a b Ha Hb Hab. destruct (d_ofZ_spec a Ha) as (Fa & Ra & Sa). destruct (d_ofZ_spec b Hb) as (Fb & Rb & Sb).
  pose proof (Bminus_correct 53 1024 _ _ mode_NE _ _ Fa Fb) as H. rewrite Ra, Rb, <- minus_IZR, rnd, small in H by auto.
  destruct H as (H1 & H2 & H3). apply d_ofZ_eq; auto. rewrite H3, cmp0, Sa, Sb.
  unfold Z.ltb at 3. destruct (Z.compare_spec (a - b) 0); auto.
  destruct (Z.ltb_spec a 0), (Z.ltb_spec b 0); auto; lia.
Qed.
Lemma d_div1 : forall a, Z.abs a <= 2 ^ 53 -> B2R (Bdiv mode_NE (d_ofZ a) (d_ofZ 1)) = IZR a.
Proof.
  intros a Ha. destruct (d_ofZ_spec 1 ltac:(lia)) as (F1 & R1 & S1). destruct (d_ofZ_spec a Ha) as (Fa & Ra & Sa).
  assert (N : B2R (d_ofZ 1) <> 0%R) by (rewrite R1; lra).
  pose proof (Bdiv_correct 53 1024 _ _ mode_NE (d_ofZ a) (d_ofZ 1) N) as H.
  rewrite Ra, R1 in H. replace (IZR a / 1)%R with (IZR a) in H by field. rewrite rnd, small in H by auto. tauto.
Qed.

Lemma double_exact : exact_ints DOps Bltb Btrunc d_ofZ (2 ^ 53).
Proof.
  split; [|split].
  - intros a b Ha Hb. destruct (d_ofZ_spec a Ha) as (Fa & Ra & Sa). destruct (d_ofZ_spec b Hb) as (Fb & Rb & Sb).
    rewrite Bltb_correct by auto. rewrite Ra, Rb. destruct (Z.ltb_spec a b).
    + apply Rlt_bool_true. now apply IZR_lt.
    + apply Rlt_bool_false. now apply IZR_le.
  - intros a Ha Ha1. cbn [oadd DOps car]. apply d_plus; auto; lia.
  - intros a b Ha Hb Hab. cbn [odiv osub DOps car]. rewrite d_minus by lia.
    apply eq_IZR. rewrite Btrunc_correct; [|exact eq_refl]. rewrite d_div1 by lia.
    apply round_generic; [apply valid_rnd_ZR|]. apply generic_format_FIX. exists (Float radix2 (b - a) 0); auto.
    unfold F2R. simpl. ring.
Qed.

(** arange with integer ends (at most 2^31 apart, as the count is an int) and the
    default step 1, in doubles: exact, inside the buffer. *)
Theorem C34_arange_double_partial : forall a b base (h : heap b64) fuel,
  Z.abs a <= 2 ^ 53 -> Z.abs b <= 2 ^ 53 -> 0 <= b - a < 2 ^ 31 -> (Z.to_nat (b - a) <= fuel)%nat ->
  exists h', arange (O := DOps) Bltb (fun x => to_int32 (Btrunc x)) fuel base (d_ofZ a) (d_ofZ b) (d_ofZ 1) h
             = Some (Ok (tensor_ctor base [b - a], h')) /\
    (forall k, 0 <= k < b - a -> exists x, elem h' (tensor_ctor base [b - a]) [k] = Some x /\
       is_finite x = true /\ B2R x = IZR (a + k)) /\
    (forall z, ~ (base <= z < base + (b - a)) -> h' z = h z).
Proof.
  intros a b base h fuel Ha Hb Hab Hf.
  destruct double_exact as (H1 & H2 & H3).
  destruct (arange_spec (O := DOps) Bltb (fun x => to_int32 (Btrunc x)) (fun k => d_ofZ (a + k)) (b - a) fuel base
    (d_ofZ a) (d_ofZ b) (d_ofZ 1) h) as (h' & E & V & F); auto.
  - lia.
  - unfold arange_count. rewrite H3 by lia. apply to_int32_id. lia.
  - now rewrite Z.add_0_r.
  - intros k Hk. rewrite H2 by lia. f_equal. lia.
  - intros k Hk. rewrite H1 by lia. destruct (Z.ltb_spec (a + k) b), (Z.ltb_spec k (b - a)); auto; lia.
  - exists h'. split; [auto|]. split; [|auto]. intros k Hk. exists (d_ofZ (a + k)).
    split; [unfold elem; rewrite V; [reflexivity|now apply inb1]|].
    destruct (d_ofZ_spec (a + k)) as (A & B & C); [lia|auto].
Qed.
Print Assumptions C34_arange_double_partial.

(** fftfreq in doubles: every element is fl(1/(n d)) * k, with k exact. *)
Theorem C35_fftfreq_double : forall n (dd : b64) b0 b1 b2 (h : heap b64) fuel,
  1 <= n < 2 ^ 31 -> (Z.to_nat n <= fuel)%nat ->
  (b0 + n <= b1 \/ b1 + n <= b0) -> (b0 + n <= b2 \/ b2 + n <= b0) ->
  exists h' scale, fftfreq (O := DOps) Bltb Btrunc d_ofZ fuel b0 b1 b2 n dd h = Some (Ok (tensor_ctor b0 [n], h')) /\
    scale = Bdiv mode_NE (Bone (prec := 53) (emax := 1024)) (Bmult mode_NE (d_ofZ n) dd) /\
    forall k, 0 <= k < n -> exists x, elem h' (tensor_ctor b0 [n]) [k] = Some (Bmult mode_NE scale x) /\
      is_finite x = true /\ B2R x = IZR (if k <? (n + 1) / 2 then k else k - n).
Proof.
  intros n dd b0 b1 b2 h fuel Hn Hf D1 D2.
  destruct (C35_fftfreq DOps Bltb Btrunc d_ofZ (2 ^ 53) double_exact n dd b0 b1 b2 h fuel) as (h' & E & V & F); auto; [lia|].
  exists h'. eexists. split; [exact E|]. split; [reflexivity|]. intros k Hk.
  exists (d_ofZ (if k <? (n + 1) / 2 then k else k - n)). split; [exact (V k Hk)|].
  destruct (d_ofZ_spec (if k <? (n + 1) / 2 then k else k - n)) as (A & B & C); [|auto].
  destruct (k <? (n + 1) / 2); lia.
Qed.
Print Assumptions C35_fftfreq_double.
