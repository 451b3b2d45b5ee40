(** * T_Hash: C133. *)
From Coq Require Import List ZArith Bool Lia.
From Verif Require Import M_Hash S_Hash.
Import ListNotations.
Open Scope Z_scope.

Lemma mask_val : hash_mask = Z.shiftl (Z.ones 8) 56.
Proof. reflexivity. Qed.

Lemma bit_high x n m : 0 <= x < 2 ^ n -> n <= m -> 0 <= n -> Z.testbit x m = false.
Proof.
  intros [H0 H1] Hm Hn. rewrite <- (Z.mod_small x (2 ^ n)) by lia.
  apply Z.mod_pow2_bits_high. lia.
Qed.

Lemma mask_bit m : 0 <= m -> Z.testbit hash_mask m = (56 <=? m) && (m <? 64).
Proof.
  intro Hm. rewrite mask_val, Z.shiftl_spec by lia.
  destruct (Z.leb_spec 56 m); cbn [andb].
  - destruct (Z.ltb_spec m 64).
    + apply Z.ones_spec_low; lia.
    + apply Z.ones_spec_high; lia.
  - apply Z.testbit_neg_r. lia.
Qed.

Lemma ldiff_mask x : 0 <= x < 2 ^ 64 -> Z.ldiff x hash_mask = x mod 2 ^ 56.
Proof.
  intro Hx. rewrite <- Z.land_ones by lia. apply Z.bits_inj'. intros m Hm.
  rewrite Z.ldiff_spec, Z.land_spec, mask_bit by lia.
  destruct (Z.leb_spec 56 m); cbn [andb negb].
  - rewrite (Z.ones_spec_high 56 m), andb_false_r by lia.
    destruct (Z.ltb_spec m 64); cbn [negb]; [apply andb_false_r|].
    rewrite (bit_high x 64 m) by lia. reflexivity.
  - rewrite (Z.ones_spec_low 56 m) by lia. reflexivity.
Qed.

Lemma land_mask x : 0 <= x < 2 ^ 64 -> (Z.land x hash_mask =? 0) = (x <? 2 ^ 56).
Proof.
  intro Hx. destruct (Z.ltb_spec x (2 ^ 56)) as [Hl | Hl].
  - apply Z.eqb_eq. apply Z.bits_inj'. intros m Hm.
    rewrite Z.land_spec, mask_bit, Z.bits_0 by lia.
    destruct (Z.leb_spec 56 m); cbn [andb]; [|apply andb_false_r].
    rewrite (bit_high x 56 m) by lia. reflexivity.
  - apply Z.eqb_neq. intro H0.
    pose proof (Z.lor_ldiff_and x hash_mask) as E. rewrite H0, Z.lor_0_r, ldiff_mask in E by lia.
    pose proof (Z.mod_pos_bound x (2 ^ 56)). lia.
Qed.

Lemma lxor_range x y n : 0 <= n -> 0 <= x < 2 ^ n -> 0 <= y < 2 ^ n -> 0 <= Z.lxor x y < 2 ^ n.
Proof.
  intros Hn Hx Hy.
  assert (E : Z.lxor x y = Z.lxor x y mod 2 ^ n).
  { rewrite <- Z.land_ones by lia. apply Z.bits_inj'. intros m Hm.
    rewrite Z.land_spec, Z.lxor_spec. destruct (Z.ltb_spec m n).
    - rewrite Z.ones_spec_low by lia. rewrite andb_true_r. reflexivity.
    - rewrite (bit_high x n m), (bit_high y n m) by lia. reflexivity. }
  rewrite E. apply Z.mod_pos_bound. lia.
Qed.

Lemma lxor_mod x y n : 0 <= n -> 0 <= y < 2 ^ n -> Z.lxor x y mod 2 ^ n = Z.lxor (x mod 2 ^ n) y.
Proof.
  intros Hn Hy. apply Z.bits_inj'. intros m Hm. rewrite Z.lxor_spec.
  destruct (Z.ltb_spec m n).
  - rewrite !Z.mod_pow2_bits_low, Z.lxor_spec by lia. reflexivity.
  - rewrite !Z.mod_pow2_bits_high by lia. rewrite (bit_high y n m) by lia. reflexivity.
Qed.

(** One byte in arithmetic terms. *)
Lemma hash_byte_eq h b : 0 <= h < 2 ^ 56 -> is_byte b ->
  hash_byte h b = if h * 256 + b <? 2 ^ 56 then h * 256 + b
                  else Z.lxor ((h * 256 + b) mod 2 ^ 56) 65280.
Proof.
  intros Hh Hb. unfold is_byte in Hb. unfold hash_byte, size_t_of.
  rewrite Z.shiftl_mul_pow2 by lia. change (2 ^ 8) with 256.
  rewrite (Z.mod_small (h * 256)) by lia. rewrite (Z.mod_small (h * 256 + b)) by lia.
  rewrite land_mask by lia. destruct (h * 256 + b <? 2 ^ 56); cbn [negb]; [reflexivity|].
  change (Z.shiftr hash_mask (6 * 8)) with 65280.
  rewrite ldiff_mask by (apply lxor_range; lia).
  apply lxor_mod; lia.
Qed.

Lemma hash_byte_range h b : 0 <= h < 2 ^ 56 -> is_byte b -> 0 <= hash_byte h b < 2 ^ 56.
Proof.
  intros Hh Hb. rewrite hash_byte_eq by assumption. unfold is_byte in Hb.
  destruct (Z.ltb_spec (h * 256 + b) (2 ^ 56)); [lia|].
  apply lxor_range; [lia| |lia]. apply Z.mod_pos_bound. lia.
Qed.

Lemma hash_bytes_range l : forall h, 0 <= h < 2 ^ 56 -> Forall is_byte l ->
  0 <= fold_left hash_byte l h < 2 ^ 56.
Proof.
  induction l as [|b l IH]; intros h Hh HF; [exact Hh|].
  inversion HF; subst. cbn [fold_left]. apply IH; [apply hash_byte_range; assumption|assumption].
Qed.

Lemma container_flat {E} (repr : E -> list Z) cont :
  container_hash repr cont = fold_left hash_byte (flat_map repr cont) 0.
Proof.
  unfold container_hash. generalize 0 as h. induction cont as [|x r IH]; intro h; [reflexivity|].
  cbn [fold_left flat_map]. rewrite fold_left_app. apply IH.
Qed.

Lemma number_range l : Forall is_byte l -> 0 <= number_of l < 256 ^ Z.of_nat (length l).
Proof.
  induction l as [|b l IH]; intro HF; [cbn; lia|].
  inversion HF as [|? ? Hb HF']; subst. specialize (IH HF'). unfold is_byte in Hb.
  cbn [number_of length]. rewrite Nat2Z.inj_succ, Z.pow_succ_r by lia.
  assert (0 < 256 ^ Z.of_nat (length l)) by (apply Z.pow_pos_nonneg; lia). nia.
Qed.

Lemma hash_small l : forall h, 0 <= h -> Forall is_byte l ->
  h * 256 ^ Z.of_nat (length l) + number_of l < 2 ^ 56 ->
  fold_left hash_byte l h = h * 256 ^ Z.of_nat (length l) + number_of l.
Proof.
  induction l as [|b l IH]; intros h Hh HF Hs.
  - cbn. cbn in Hs. lia.
  - inversion HF as [|? ? Hb HF']; subst. pose proof (number_range l HF') as Hn. unfold is_byte in Hb.
    cbn [number_of length] in *. rewrite Nat2Z.inj_succ, Z.pow_succ_r in * by lia.
    assert (Hp : 0 < 256 ^ Z.of_nat (length l)) by (apply Z.pow_pos_nonneg; lia).
    assert (Hb' : h * 256 + b < 2 ^ 56) by nia.
    cbn [fold_left]. rewrite hash_byte_eq by (unfold is_byte; lia).
    destruct (Z.ltb_spec (h * 256 + b) (2 ^ 56)); [|lia].
    rewrite IH; [ring|lia|assumption|]. nia.
Qed.

(** C133: the hash of every container is below 2^56, whatever its elements. *)
Theorem C133_range : forall {E} (repr : E -> list Z) (cont : list E),
  (forall x, Forall is_byte (repr x)) -> 0 <= container_hash repr cont < 2 ^ 56.
Proof.
  intros E repr cont HF. rewrite container_flat. apply hash_bytes_range; [lia|].
  induction cont as [|x r IH]; cbn [flat_map]; [constructor|].
  apply Forall_app. split; [apply HF|exact IH].
Qed.
Print Assumptions C133_range.

(** C133: the hash of at most seven bytes is the number they write. *)
Theorem C133_short : forall {E} (repr : E -> list Z) (cont : list E),
  (forall x, Forall is_byte (repr x)) -> (length (flat_map repr cont) <= 7)%nat ->
  container_hash repr cont = number_of (flat_map repr cont).
Proof.
  intros E repr cont HF Hl. rewrite container_flat.
  assert (HB : Forall is_byte (flat_map repr cont)).
  { clear Hl. induction cont as [|x r IH]; cbn [flat_map]; [constructor|].
    apply Forall_app. split; [apply HF|exact IH]. }
  pose proof (number_range _ HB) as Hn. rewrite hash_small; [lia|lia|assumption|].
  assert (256 ^ Z.of_nat (length (flat_map repr cont)) <= 256 ^ 7) by (apply Z.pow_le_mono_r; lia).
  change (256 ^ 7) with (2 ^ 56) in *. lia.
Qed.
Print Assumptions C133_short.

Lemma number_inj : forall l m, Forall is_byte l -> Forall is_byte m -> length l = length m ->
  number_of l = number_of m -> l = m.
Proof.
  induction l as [|b l IH]; intros [|c m] HL HM HE HN; try discriminate; [reflexivity|].
  inversion HL as [|? ? Hb HL']; inversion HM as [|? ? Hc HM']; subst. injection HE as HE.
  cbn [number_of] in HN. rewrite HE in HN.
  pose proof (number_range l HL') as Rl. pose proof (number_range m HM') as Rm. rewrite HE in Rl.
  assert (b = c) by nia. subst c. f_equal. apply IH; auto. lia.
Qed.

(** C133: different containers of the same number of bytes, at most seven, have different hashes. *)
Theorem C133_distinct_partial : forall {E} (repr : E -> list Z) (xs ys : list E),
  (forall x, Forall is_byte (repr x)) ->
  length (flat_map repr xs) = length (flat_map repr ys) -> (length (flat_map repr xs) <= 7)%nat ->
  flat_map repr xs <> flat_map repr ys -> container_hash repr xs <> container_hash repr ys.
Proof.
  intros E repr xs ys HF HE Hl HN H. apply HN.
  assert (HB : forall cont, Forall is_byte (flat_map repr cont)).
  { induction cont as [|x r IH]; cbn [flat_map]; [constructor|].
    apply Forall_app. split; [apply HF|exact IH]. }
  rewrite !C133_short in H by (auto; lia). apply number_inj; auto.
Qed.
Print Assumptions C133_distinct_partial.

(** C133: containers whose elements are pairwise equal have equal hashes, when
    equal elements have the same representation. *)
Theorem C133_equal_partial : forall {E} (equal : E -> E -> Prop) (repr : E -> list Z) (xs ys : list E),
  (forall x y, equal x y -> repr x = repr y) ->
  Forall2 equal xs ys -> container_hash repr xs = container_hash repr ys.
Proof.
  intros E equal repr xs ys HE HF. rewrite !container_flat. f_equal.
  induction HF as [|x y xs ys Hxy _ IH]; [reflexivity|].
  cbn [flat_map]. rewrite (HE _ _ Hxy), IH. reflexivity.
Qed.
Print Assumptions C133_equal_partial.

(** Without that condition it is false: a container holding 0.0 and one
    holding -0.0 are equal and have different hashes. *)
Theorem C133_equal_refuted : exists xs ys : list zero_double,
  Forall2 double_equal xs ys /\ container_hash zero_bytes xs <> container_hash zero_bytes ys.
Proof.
  exists [PosZero], [NegZero]. split; [repeat constructor|]. vm_compute. discriminate.
Qed.
Print Assumptions C133_equal_refuted.

Lemma number_snoc l b : number_of (l ++ [b]) = number_of l * 256 + b.
Proof.
  induction l as [|x l IH]; [cbn [app number_of length]; change (256 ^ Z.of_nat 0) with 1; lia|].
  cbn [app number_of]. rewrite IH, app_length. cbn [length].
  replace (Z.of_nat (length l + 1)) with (Z.succ (Z.of_nat (length l))) by lia.
  rewrite Z.pow_succ_r by lia. ring.
Qed.

Lemma forget_step a l b : is_byte a -> a <> 0 -> Forall is_byte l -> length l = 6%nat -> is_byte b ->
  hash_byte (fold_left hash_byte (a :: l) 0) b = Z.lxor (number_of (l ++ [b])) 65280.
Proof.
  intros Ha Hn HF Hl Hb. pose proof (number_range l HF) as HN. rewrite Hl in HN.
  change (256 ^ Z.of_nat 6) with (2 ^ 48) in HN.
  assert (E : fold_left hash_byte (a :: l) 0 = a * 2 ^ 48 + number_of l).
  { assert (En : number_of (a :: l) = a * 2 ^ 48 + number_of l).
    { cbn [number_of]. rewrite Hl. reflexivity. }
    rewrite <- En, hash_small; [lia|lia|constructor; assumption|].
    rewrite En. unfold is_byte in Ha. lia. }
  rewrite E, number_snoc. clear E. generalize dependent (number_of l). intros N HN.
  unfold is_byte in Ha, Hb. rewrite hash_byte_eq by (unfold is_byte; lia).
  replace ((a * 2 ^ 48 + N) * 256 + b) with (N * 256 + b + a * 2 ^ 56) by lia.
  rewrite Z.mod_add, Z.mod_small by lia.
  destruct (Z.ltb_spec (N * 256 + b + a * 2 ^ 56) (2 ^ 56)); [lia|reflexivity].
Qed.

Lemma forget_first a l6 b r : is_byte a -> a <> 0 -> Forall is_byte l6 -> length l6 = 6%nat -> is_byte b ->
  fold_left hash_byte (a :: l6 ++ b :: r) 0 =
  fold_left hash_byte r (Z.lxor (number_of (l6 ++ [b])) 65280).
Proof.
  intros Ha Hn HF Hl Hb. rewrite <- (forget_step a) by assumption.
  change (a :: l6 ++ b :: r) with ((a :: l6) ++ b :: r). rewrite fold_left_app. reflexivity.
Qed.

(** C133: arrays of 32-bit integers of length at least two: every first
    coordinate from 1 to 255 gives the same hash, with the same remaining
    coordinates; so hashes of containers do not spread over the first coordinate. *)
Theorem C133_spread_refuted : forall i j rest, 1 <= i <= 255 -> 1 <= j <= 255 -> rest <> [] ->
  container_hash int_bytes (i :: rest) = container_hash int_bytes (j :: rest).
Proof.
  intros i j rest Hi Hj Hr. rewrite !container_flat. cbn [flat_map].
  assert (HI : forall k, Forall is_byte (int_bytes k)).
  { intro k. unfold int_bytes. repeat constructor; apply Z.mod_pos_bound; lia. }
  assert (HB : Forall is_byte (flat_map int_bytes rest)).
  { clear Hr. induction rest as [|x r IH]; cbn [flat_map]; [constructor|].
    apply Forall_app. split; [apply HI|exact IH]. }
  assert (HL : (4 <= length (flat_map int_bytes rest))%nat).
  { destruct rest as [|x r]; [congruence|]. cbn [flat_map]. rewrite app_length. cbn [int_bytes length]. lia. }
  assert (E : forall k, 1 <= k <= 255 -> int_bytes k = [k; 0; 0; 0]).
  { intros k Hk. unfold int_bytes. rewrite (Z.mod_small k 256), !(Z.div_small k) by lia. reflexivity. }
  rewrite !E by assumption. cbn [app].
  destruct (flat_map int_bytes rest) as [|b0 [|b1 [|b2 [|b3 r]]]]; cbn [length] in HL; try lia.
  inversion HB as [|? ? B0 HB0]; inversion HB0 as [|? ? B1 HB1]; inversion HB1 as [|? ? B2 HB2];
    inversion HB2 as [|? ? B3 HB3]; subst.
  change (0 :: 0 :: 0 :: b0 :: b1 :: b2 :: b3 :: r) with ([0; 0; 0; b0; b1; b2] ++ b3 :: r).
  assert (HF : Forall is_byte [0; 0; 0; b0; b1; b2])
    by (repeat (constructor; [first [assumption | unfold is_byte; lia]|]); constructor).
  rewrite !forget_first; try assumption; try reflexivity; unfold is_byte; lia.
Qed.
Print Assumptions C133_spread_refuted.

(** Concrete cases. *)
Example C133_case :
  container_hash int_bytes [258] = 33619968 /\
  container_hash int_bytes [1; 2] = container_hash int_bytes [200; 2] /\
  container_hash int_bytes [1; 2] <> container_hash int_bytes [1; 3] /\
  container_hash int_bytes [0; 2] <> container_hash int_bytes [1; 2].
Proof. vm_compute. repeat split; discriminate. Qed.
