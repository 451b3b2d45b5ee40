(** * L_Gauss: the algebra of Gauss-Laguerre quadrature. *)
From Coq Require Import List ZArith Lia Bool Ring.
From Verif Require Import Base Heap M_Laguerre S_Laguerre T_Laguerre T_Infer.
Import ListNotations.
Local Open Scope nat_scope.

Lemma binom_fact : forall a b, binom (a + b) a * fact a * fact b = fact (a + b).
Proof.
  induction a as [|a IHa]; intros b.
  - simpl. rewrite binom_0. simpl. lia.
  - induction b as [|b IHb].
    + rewrite Nat.add_0_r. assert (E : forall n, binom n n = 1).
      { induction n; [reflexivity|]. simpl. rewrite IHn, binom_gt by lia. lia. }
      rewrite E. simpl fact. lia.
    + specialize (IHa (S b)). change (S a + S b) with (S (a + S b)).
      change (binom (S (a + S b)) (S a)) with (binom (a + S b) a + binom (a + S b) (S a)).
      replace (S a + b) with (a + S b) in IHb by lia.
      change (fact (S (a + S b))) with (S (a + S b) * fact (a + S b)).
      change (fact (S a)) with (S a * fact a) in *. change (fact (S b)) with (S b * fact b) in *. nia.
Qed.

Open Scope nat_scope.

Section Field.
  Context {O : Ops} (HF : is_field0 O).
  Notation T := (car O).
  Let HR : is_ring O := f_ring HF.
  Add Ring Tring3 : (ir_rt O HR).
  Notation "0" := (@o0 O). Notation "1" := (@o1 O).
  Infix "+" := (@oadd O). Infix "*" := (@omul O). Infix "-" := (@osub O). Notation "- x" := (@oopp O x). Infix "/" := (@odiv O).
  Notation Lg := (@laguerre O).

  Lemma one_ne : 1 <> 0 :> T.
  Proof. intros E. apply (f_char HF 0). simpl. rewrite E. ring. Qed.
  Lemma mul_ne : forall a b : T, a <> 0 -> b <> 0 -> a * b <> 0.
  Proof. intros a b Ha Hb H. destruct (f_int HF _ _ H); auto. Qed.
  Lemma div_eq : forall a b c : T, b <> 0 -> a = c * b -> a / b = c.
  Proof. intros a b c Hb E. apply (cancel HF _ _ b Hb). rewrite (f_div HF) by auto. auto. Qed.

  (** ** Vandermonde's identity *)
  Lemma vandermonde : forall a b r,
    psum (fun j => num (binom a j * binom b (r + j))) (S a) = num (binom (a + b) (a + r)) :> T.
  Proof.
    induction a as [|a IH]; intros b r.
    - cbn [psum]. change (binom 0 0) with 1%nat. rewrite Nat.mul_1_l, Nat.add_0_r. cbn [Nat.add]. ring.
    - rewrite (psum_shift HF).
      rewrite (psum_ext _ (fun j => num (binom a j * binom b (S r + j)) + num (binom a (S j) * binom b (r + S j)))).
      2:{ intros j _. rewrite <- (num_add HF). f_equal. change (binom (S a) (S j)) with (binom a j + binom a (S j))%nat.
          replace (S r + j)%nat with (r + S j)%nat by lia. lia. }
      rewrite (psum_add HF), IH.
      transitivity (num (binom (a + b) (a + S r)) + (num (binom a 0 * binom b (r + 0)) + psum (fun j => num (binom a (S j) * binom b (r + S j))) (S a)) : T).
      { rewrite !binom_0. ring. }
      rewrite <- (psum_shift HF (fun j => num (binom a j * binom b (r + j)))).
      change (psum (fun j => num (binom a j * binom b (r + j))) (S (S a)))
        with (psum (fun j => num (binom a j * binom b (r + j))) (S a) + num (binom a (S a) * binom b (r + S a)) : T).
      rewrite IH, (binom_gt a (S a)) by lia. simpl (num (0 * _)).
      change (S a + b)%nat with (S (a + b)). change (S a + r)%nat with (S (a + r)).
      change (binom (S (a + b)) (S (a + r))) with (binom (a + b) (a + r) + binom (a + b) (S (a + r)))%nat.
      rewrite (num_add HF). replace (a + S r)%nat with (S (a + r)) by lia. ring.
  Qed.

  (** ** Powers in terms of Laguerre polynomials *)
  Lemma laguerre_x : forall k (x : T),
    x * Lg k x = num (2 * k + 1) * Lg k x - num (S k) * Lg (S k) x - match k with 0%nat => 0 | S j => num k * Lg j x end.
  Proof.
    intros [|k] x.
    - rewrite (laguerre_0 HF), (laguerre_1 HF). simpl. ring.
    - rewrite (laguerre_rec HF). ring.
  Qed.
  Definition ecoef (a k : nat) : T := pow (- (1)) k * num (fact a * binom a k).
  Lemma ecoef_0 : forall a k, (a < k)%nat -> ecoef a k = 0.
  Proof. intros a k H. unfold ecoef. rewrite binom_gt by auto. rewrite Nat.mul_0_r. simpl. ring. Qed.
  Lemma ecoef_rec : forall a k, ecoef (S a) k =
    num (2 * k + 1) * ecoef a k - (match k with 0%nat => 0 | S j => num k * ecoef a j end) - num (S k) * ecoef a (S k).
  Proof.
    intros a k. unfold ecoef. destruct k as [|j].
    - rewrite !binom_0. pose proof (binom_absorb a 0) as A. rewrite binom_0 in A. simpl pow.
      assert (E : num (fact (S a) * 1) = num (fact a * 1) + num (1 * (fact a * binom a 1)) :> T).
      { rewrite <- (num_add HF). f_equal. change (fact (S a)) with (S a * fact a)%nat. nia. }
      rewrite E. rewrite (num_mul HF 1). simpl (num 1). simpl (num (2 * 0 + 1)). ring.
    - simpl pow.
      assert (E : num (fact (S a) * binom (S a) (S j)) =
        num ((2 * S j + 1) * (fact a * binom a (S j))) + num (S j * (fact a * binom a j)) + num (S (S j) * (fact a * binom a (S (S j)))) :> T).
      { rewrite <- !(num_add HF). f_equal. change (fact (S a)) with (S a * fact a)%nat.
        change (binom (S a) (S j)) with (binom a j + binom a (S j))%nat.
        pose proof (binom_absorb a j). pose proof (binom_absorb a (S j)). nia. }
      rewrite E, !(num_mul HF (2 * S j + 1)), (num_mul HF (S j)), (num_mul HF (S (S j))). ring.
  Qed.
  Lemma pow_expand : forall a N (x : T), (a < N)%nat -> pow x a = psum (fun k => ecoef a k * Lg k x) N.
  Proof.
    induction a as [|a IH]; intros N x HN.
    - destruct N as [|N]; [lia|]. rewrite (psum_shift HF), (psum_0 HF).
      + unfold ecoef. rewrite (laguerre_0 HF). simpl. ring.
      + intros i _. rewrite ecoef_0 by lia. ring.
    - destruct N as [|N]; [lia|]. simpl pow. rewrite (IH (S N) x) by lia.
      rewrite <- (psum_mul HF).
      rewrite (psum_ext _ (fun k => (num (2 * k + 1) * ecoef a k * Lg k x + - (1) * (num (S k) * ecoef a k * Lg (S k) x)) +
         - (1) * (match k with 0%nat => 0 | S j => num k * ecoef a k * Lg j x end))).
      2:{ intros k _. transitivity (ecoef a k * (x * Lg k x)); [ring|]. rewrite laguerre_x. destruct k; ring. }
      rewrite !(psum_add HF), !(psum_mul HF).
      (* the two shifted sums *)
      assert (S1 : psum (fun k => num (S k) * ecoef a k * Lg (S k) x) (S N) =
                   psum (fun k => match k with 0%nat => 0 | S j => num k * ecoef a j end * Lg k x) (S N)).
      { rewrite (psum_shift HF (fun k => match k with 0%nat => 0 | S j => num k * ecoef a j end * Lg k x)).
        cbn [psum]. rewrite (ecoef_0 a N) by lia. ring. }
      assert (S2 : psum (fun k => match k with 0%nat => 0 | S j => num k * ecoef a k * Lg j x end) (S N) =
                   psum (fun k => num (S k) * ecoef a (S k) * Lg k x) (S N)).
      { rewrite (psum_shift HF). cbn [psum]. rewrite (ecoef_0 a (S N)) by lia. ring. }
      rewrite S1, S2, <- !(psum_mul HF), <- !(psum_add HF). apply psum_ext. intros k _. rewrite ecoef_rec. ring.
  Qed.
  Lemma sign_sq : forall k, pow (- (1)) k * pow (- (1)) k = 1 :> T.
  Proof. induction k as [|k IH]; simpl; [ring|]. transitivity (pow (- (1)) k * pow (- (1)) k : T); [ring|exact IH]. Qed.
  Lemma ecoef_parseval : forall a b n, (a < n)%nat -> psum (fun k => ecoef a k * ecoef b k) n = num (fact (a + b)).
  Proof.
    intros a b n Ha. rewrite (psum_ext _ (fun k => num (fact a * fact b) * num (binom a k * binom b (0 + k)))).
    2:{ intros k _. unfold ecoef. rewrite !(num_mul HF). change (0 + k)%nat with k.
        transitivity (pow (- (1)) k * pow (- (1)) k * (num (fact a) * num (fact b) * (num (binom a k) * num (binom b k)))); [ring|].
        rewrite sign_sq. ring. }
    rewrite (psum_mul HF). replace n with (S a + (n - S a))%nat by lia.
    rewrite (psum_more HF), vandermonde, <- (num_mul HF).
    - f_equal. rewrite Nat.add_0_r. pose proof (binom_fact a b). nia.
    - intros i Hi. rewrite (binom_gt a i) by lia. reflexivity.
  Qed.

  (** ** Sums of Laguerre polynomials *)
  Notation dsum n x := (psum (fun k => Lg k x) n).
  Lemma x_dsum : forall n (x : T), x * dsum (S n) x = num (S n) * (Lg n x - Lg (S n) x).
  Proof.
    induction n as [|n IH]; intros x.
    - simpl psum. rewrite (laguerre_0 HF), (laguerre_1 HF). simpl. ring.
    - change (dsum (S (S n)) x) with (dsum (S n) x + Lg (S n) x).
      transitivity (x * dsum (S n) x + x * Lg (S n) x); [ring|]. rewrite IH.
      transitivity (num (S n) * Lg n x - num (S n) * Lg (S n) x + x * Lg (S n) x); [ring|].
      transitivity (num (S (S n)) * Lg (S n) x - num (S (S n)) * Lg (S (S n)) x); [|ring].
      rewrite (laguerre_rec HF). replace (2 * S n + 1)%nat with (S (S n) + S n)%nat by lia. rewrite (num_add HF). ring.
  Qed.
  (** Christoffel-Darboux at one point. *)
  Lemma darboux : forall n (x : T), psum (fun k => Lg k x * Lg k x) (S n) = num (S n) * (Lg n x * dsum (S n) x - Lg (S n) x * dsum n x).
  Proof.
    induction n as [|n IH]; intros x.
    - simpl psum. rewrite (laguerre_0 HF). simpl. ring.
    - change (psum (fun k => Lg k x * Lg k x) (S (S n))) with (psum (fun k => Lg k x * Lg k x) (S n) + Lg (S n) x * Lg (S n) x).
      rewrite IH. pose proof (x_dsum n x) as D. pose proof (laguerre_rec HF n x) as R.
      change (dsum (S (S n)) x) with (dsum (S n) x + Lg (S n) x).
      set (A := dsum (S n) x) in *. assert (B : dsum n x = A - Lg n x) by (unfold A; simpl psum; ring). rewrite B.
      set (l0 := Lg n x) in *. set (l1 := Lg (S n) x) in *. set (l2 := Lg (S (S n)) x) in *. set (m := num (S n) : T) in *.
      transitivity (num (S (S n)) * (l1 * (A + l1)) - (num (S (S n)) * l2) * A); [|ring]. rewrite R.
      replace (2 * S n + 1)%nat with (S n + S (S n))%nat by lia. rewrite (num_add HF). change (num (S (S n)) : T) with (1 + m). fold m.
      transitivity (m * (l0 * A - l1 * (A - l0)) + l1 * l1 + l1 * (x * A - m * (l0 - l1))); [rewrite D; ring|ring].
  Qed.

  (** ** Eigenvectors *)
  Lemma tri_vec : forall n (v : nat -> T) x, (1 <= n)%nat ->
    (forall k, (k < n)%nat -> psum (fun j => tri (Z.of_nat k) (Z.of_nat j) * v j) n = x * v k) ->
    (forall k, (k < n)%nat -> v k = v 0%nat * Lg k x) /\ v 0%nat * Lg n x = 0.
  Proof.
    intros n v x Hn H.
    assert (ST : forall k, (k < n)%nat -> (forall j, (j <= k)%nat -> v j = v 0%nat * Lg j x) ->
       (if Nat.ltb (S k) n then num (S k) * v (S k) else 0) = num (S k) * (v 0%nat * Lg (S k) x)).
    { intros k Hk Hj. specialize (H k Hk). rewrite (tri_row HF) in H by auto.
      pose proof (laguerre_x k x) as X. rewrite (Hj k) in H by lia.
      assert (E : (if Nat.ltb (S k) n then - (num (S k) * v (S k)) else 0) = - (if Nat.ltb (S k) n then num (S k) * v (S k) else 0))
        by (destruct (Nat.ltb (S k) n); ring).
      rewrite E in H. set (q := if Nat.ltb (S k) n then num (S k) * v (S k) else 0) in *.
      assert (H' : q = num (2 * k + 1) * (v 0%nat * Lg k x) + match k with 0%nat => 0 | S k0 => - (num (S k0) * v k0) end - x * (v 0%nat * Lg k x))
        by (rewrite <- H; ring).
      rewrite H'. transitivity (v 0%nat * (num (2 * k + 1) * Lg k x - match k with 0%nat => 0 | S j => num k * Lg j x end - x * Lg k x)).
      - destruct k as [|j]; [ring|]. rewrite (Hj j) by lia. ring.
      - rewrite X. ring. }
    assert (ALL : forall k, (k < n)%nat -> forall j, (j <= k)%nat -> v j = v 0%nat * Lg j x).
    { induction k as [|k IH]; intros Hk j Hj.
      - replace j with 0%nat by lia. rewrite (laguerre_0 HF). ring.
      - destruct (Nat.eq_dec j (S k)) as [->|]; [|apply IH; lia].
        specialize (ST k ltac:(lia) (IH ltac:(lia))). rewrite (proj2 (Nat.ltb_lt _ _)) in ST by lia.
        apply (cancel HF _ _ (num (S k))); [apply (f_char HF)|]. transitivity (num (S k) * v (S k)); [ring|]. rewrite ST. ring. }
    split; [intros k Hk; apply (ALL k Hk k); lia|].
    specialize (ST (n - 1)%nat ltac:(lia) (ALL (n - 1)%nat ltac:(lia))). replace (S (n - 1)) with n in ST by lia.
    rewrite Nat.ltb_irrefl in ST. apply (cancel HF _ _ (num n)); [apply (num_ne HF); lia|].
    transitivity (num n * (v 0%nat * Lg n x)); [ring|]. rewrite <- ST. ring.
  Qed.

  Context (n : nat) (Hn : (1 <= n)%nat) (V : nat -> nat -> T) (xs : nat -> T).
  Context (HE : forall i k, (i < n)%nat -> (k < n)%nat -> psum (fun j => tri (Z.of_nat k) (Z.of_nat j) * V i j) n = xs i * V i k).
  Context (HRow : forall i j, (i < n)%nat -> (j < n)%nat -> psum (fun l => V i l * V j l) n = if Nat.eqb i j then 1 else 0).
  Context (HCol : forall j k, (j < n)%nat -> (k < n)%nat -> psum (fun i => V i j * V i k) n = if Nat.eqb j k then 1 else 0).

  Lemma ev_vec : forall i k, (i < n)%nat -> (k < n)%nat -> V i k = V i 0%nat * Lg k (xs i).
  Proof. intros i k Hi. apply (tri_vec n (V i) (xs i) Hn (fun k => HE i k Hi)). Qed.
  Lemma ev_norm : forall i j, (i < n)%nat -> (j < n)%nat -> psum (fun l => V i l * V j l) n = V i 0%nat * V j 0%nat * psum (fun l => Lg l (xs i) * Lg l (xs j)) n.
  Proof.
    intros i j Hi Hj. rewrite <- (psum_mul HF). apply psum_ext. intros l Hl. rewrite (ev_vec i l), (ev_vec j l) by auto. ring.
  Qed.
  Lemma ev_one : forall i, (i < n)%nat -> V i 0%nat * V i 0%nat * psum (fun l => Lg l (xs i) * Lg l (xs i)) n = 1.
  Proof. intros i Hi. rewrite <- ev_norm, HRow, Nat.eqb_refl by auto. reflexivity. Qed.
  Lemma ev_ne : forall i, (i < n)%nat -> V i 0%nat <> 0.
  Proof. intros i Hi E. apply one_ne. rewrite <- (ev_one i Hi), E. ring. Qed.
  Lemma ev_root : forall i, (i < n)%nat -> Lg n (xs i) = 0.
  Proof.
    intros i Hi. destruct (tri_vec n (V i) (xs i) Hn (fun k => HE i k Hi)) as (_ & H).
    destruct (f_int HF _ _ H) as [E|E]; [|exact E]. exfalso. apply (ev_ne i Hi E).
  Qed.
  Lemma ev_distinct : forall i j, (i < n)%nat -> (j < n)%nat -> xs i = xs j -> i = j.
  Proof.
    intros i j Hi Hj E. destruct (Nat.eq_dec i j) as [|N]; auto. exfalso.
    pose proof (ev_norm i j Hi Hj) as H. rewrite HRow in H by auto. rewrite (proj2 (Nat.eqb_neq _ _) N), <- E in H.
    symmetry in H. destruct (f_int HF _ _ H) as [H1|H1].
    - destruct (f_int HF _ _ H1) as [H2|H2]; [exact (ev_ne i Hi H2)|exact (ev_ne j Hj H2)].
    - apply one_ne. rewrite <- (ev_one i Hi), H1. ring.
  Qed.
  Definition wt (i : nat) : T := V i 0%nat * V i 0%nat.
  (** The weights in terms of the values used by the program. *)
  Lemma wt_eq : forall i, (i < n)%nat -> wt i * (num n * (Lg (n - 1) (xs i) * psum (fun k => Lg k (xs i)) n)) = 1.
  Proof.
    intros i Hi. rewrite <- (ev_one i Hi). unfold wt. f_equal. pose proof (darboux (n - 1) (xs i)) as D.
    replace (S (n - 1)) with n in D by lia. rewrite D, (ev_root i Hi). ring.
  Qed.
  Lemma val_ne : forall i, (i < n)%nat -> Lg (n - 1) (xs i) <> 0 /\ psum (fun k => Lg k (xs i)) n <> 0.
  Proof. intros i Hi. split; intros E; apply one_ne; rewrite <- (wt_eq i Hi), E; ring. Qed.

  Lemma quad_orth : forall j k, (j < n)%nat -> (k <= n)%nat ->
    psum (fun i => wt i * (Lg j (xs i) * Lg k (xs i))) n = if Nat.eqb j k then 1 else 0.
  Proof.
    intros j k Hj Hk. destruct (Nat.eq_dec k n) as [->|N].
    - rewrite (proj2 (Nat.eqb_neq _ _)) by lia. apply (psum_0 HF). intros i Hi. rewrite ev_root by auto. ring.
    - rewrite <- HCol by lia. apply psum_ext. intros i Hi. unfold wt. rewrite (ev_vec i j), (ev_vec i k) by lia. ring.
  Qed.
  Lemma quad_pow : forall a b, (a < n)%nat -> (b <= n)%nat -> psum (fun i => wt i * pow (xs i) (a + b)) n = num (fact (a + b)).
  Proof.
    intros a b Ha Hb. rewrite <- (ecoef_parseval a b n Ha).
    assert (PA : forall x a b, pow x (a + b) = pow x a * pow x b :> T).
    { intros x. induction a0 as [|a0 IH]; intros; simpl; [ring|]. rewrite IH. ring. }
    rewrite (psum_ext _ (fun i => psum (fun j => ecoef a j * psum (fun k => ecoef b k * (wt i * (Lg j (xs i) * Lg k (xs i)))) (S n)) n)).
    2:{ intros i Hi. rewrite PA, (pow_expand a n), (pow_expand b (S n)) by lia.
        set (B := psum (fun k => ecoef b k * Lg k (xs i)) (S n)).
        transitivity ((wt i * B) * psum (fun k => ecoef a k * Lg k (xs i)) n); [ring|]. rewrite <- (psum_mul HF).
        apply psum_ext. intros j Hj. transitivity (ecoef a j * ((wt i * Lg j (xs i)) * B)); [ring|]. f_equal.
        unfold B. rewrite <- (psum_mul HF). apply psum_ext. intros k Hk. ring. }
    rewrite (psum_swap HF). apply psum_ext. intros j Hj. rewrite (psum_mul HF). f_equal.
    rewrite (psum_swap HF).
    rewrite (psum_ext _ (fun k => if Nat.eqb k j then ecoef b k else 0)).
    - apply (psum_delta HF). lia.
    - intros k Hk. rewrite (psum_mul HF), quad_orth by lia. rewrite (Nat.eqb_sym k j). destruct (Nat.eqb j k); ring.
  Qed.
  Lemma quad_moment : forall m, (m < 2 * n)%nat -> psum (fun i => wt i * pow (xs i) m) n = num (fact m).
  Proof.
    intros m Hm. destruct (Nat.le_gt_cases m n) as [L|L].
    - apply (quad_pow 0 m); lia.
    - pose proof (quad_pow (m - n) n ltac:(lia) ltac:(lia)) as H. replace (m - n + n)%nat with m in H by lia. exact H.
  Qed.
End Field.
