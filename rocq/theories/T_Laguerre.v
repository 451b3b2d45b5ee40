(** * T_Laguerre: C45, Laguerre series evaluation and differentiation. *)
From Coq Require Import List ZArith Lia Bool Arith Ring QArith Qcanon Field_theory.
From Verif Require Import Base Heap Num M_Laguerre S_Laguerre.
Import ListNotations.

(** ** Binomials. *)
Lemma binom_0 : forall n, binom n 0 = 1%nat.
Proof. destruct n; reflexivity. Qed.
Lemma binom_gt : forall n p, (n < p)%nat -> binom n p = 0%nat.
Proof. induction n; intros [|p] H; simpl; try lia. rewrite !IHn by lia. reflexivity. Qed.
(** (p+1) C(n,p+1) + p C(n,p) = n C(n,p). *)
Lemma binom_absorb : forall n p, (S p * binom n (S p) + p * binom n p = n * binom n p)%nat.
Proof.
  induction n as [|n IH]; intros p.
  - destruct p; simpl; lia.
  - destruct p as [|p].
    + specialize (IH 0%nat). rewrite binom_0 in *. simpl binom. rewrite binom_0. lia.
    + simpl binom. pose proof (IH p) as H1. pose proof (IH (S p)) as H2. nia.
Qed.
Lemma binom_rec3 : forall n p,
  (S (S n) * binom (S (S n)) p + S n * binom n p = (2 * S n + 1) * binom (S n) p + p * binom (S n) (p - 1))%nat.
Proof.
  intros n [|p].
  - simpl Nat.sub. rewrite !binom_0. lia.
  - replace (S p - 1)%nat with p by lia.
    pose proof (binom_absorb (S n) p) as H1.
    pose proof (binom_absorb n p) as H2. pose proof (binom_absorb n (S p)) as H3.
    change (binom (S (S n)) (S p)) with (binom (S n) p + binom (S n) (S p))%nat.
    change (binom (S n) (S p)) with (binom n p + binom n (S p))%nat in *. nia.
Qed.

Section Field.
  Context {O : Ops} (HF : is_field0 O).
  Notation T := (car O).
  Let HR : is_ring O := f_ring HF.
  Add Ring Tring : (ir_rt O HR).
  Notation "0" := (@o0 O). Notation "1" := (@o1 O).
  Infix "+" := (@oadd O). Infix "*" := (@omul O). Infix "-" := (@osub O). Notation "- x" := (@oopp O x). Infix "/" := (@odiv O).

  Lemma num_add : forall a b, num (a + b) = num a + num b :> T.
  Proof. induction a; intros; simpl; [ring|rewrite IHa; ring]. Qed.
  Lemma num_mul : forall a b, num (a * b) = num a * num b :> T.
  Proof. induction a; intros; simpl; [ring|rewrite num_add, IHa; ring]. Qed.
  Lemma onat_num : forall n, onat n = num n :> T.
  Proof. induction n; simpl; congruence. Qed.
  Lemma num_ne : forall n, n <> 0%nat -> num n <> 0 :> T.
  Proof. destruct n; intros; [congruence|apply (f_char HF)]. Qed.
  Lemma cancel : forall a b c : T, c <> 0 -> a * c = b * c -> a = b.
  Proof.
    intros a b c Hc H. assert (G : (a - b) * c = 0) by (transitivity (a * c - b * c); [ring|rewrite H; ring]).
    destruct (f_int HF _ _ G) as [E|E]; [|contradiction].
    transitivity (a - b + b); [ring|rewrite E; ring].
  Qed.
  Lemma div_cancel : forall a b : T, b <> 0 -> a / b * b = a.
  Proof. apply (f_div HF). Qed.
  Lemma lcoef_fact : forall k p, lcoef k p * num (fact p) = pow (- (1)) p * num (binom k p).
  Proof. intros. apply div_cancel, num_ne, fact_neq_0. Qed.

  Lemma psum_ext : forall (f g : nat -> T) n, (forall i, (i < n)%nat -> f i = g i) -> psum f n = psum g n.
  Proof. induction n; intros H; simpl; auto. rewrite IHn, H by auto. reflexivity. Qed.
  Lemma psum_add : forall (f g : nat -> T) n, psum (fun i => f i + g i) n = psum f n + psum g n.
  Proof. induction n; simpl; [ring|rewrite IHn; ring]. Qed.
  Lemma psum_mul : forall (f : nat -> T) a n, psum (fun i => a * f i) n = a * psum f n.
  Proof. induction n; simpl; [ring|rewrite IHn; ring]. Qed.
  Lemma psum_0 : forall (f : nat -> T) n, (forall i, (i < n)%nat -> f i = 0) -> psum f n = 0.
  Proof. induction n; intros H; simpl; auto. rewrite IHn, H by auto. ring. Qed.
  Lemma psum_more : forall (f : nat -> T) n k, (forall i, (n <= i)%nat -> f i = 0) -> psum f (n + k) = psum f n.
  Proof.
    induction k; intros H; [now rewrite Nat.add_0_r|]. rewrite Nat.add_succ_r. simpl. rewrite IHk, H by (auto; lia). ring.
  Qed.
  Lemma psum_shift : forall (f : nat -> T) n, psum f (S n) = f 0%nat + psum (fun i => f (S i)) n.
  Proof. induction n; [simpl; ring|]. simpl in *. rewrite IHn. ring. Qed.
  Lemma psum_swap : forall (f : nat -> nat -> T) n m,
    psum (fun i => psum (fun j => f i j) m) n = psum (fun j => psum (fun i => f i j) n) m.
  Proof.
    induction n; intros m; simpl.
    - symmetry. apply psum_0. auto.
    - rewrite IHn, <- psum_add. reflexivity.
  Qed.

  Lemma lcoef_0 : forall k p, (k < p)%nat -> lcoef k p = 0 :> T.
  Proof.
    intros k p H. apply (cancel _ _ (num (fact p))); [apply num_ne, fact_neq_0|].
    rewrite lcoef_fact, binom_gt by auto. simpl. ring.
  Qed.
  Lemma laguerre_more : forall k n (x : T), (k < n)%nat -> psum (fun p => lcoef k p * pow x p) n = laguerre k x.
  Proof.
    intros k n x H. unfold laguerre. replace n with (S k + (n - S k))%nat by lia. apply psum_more.
    intros i Hi. rewrite lcoef_0 by lia. ring.
  Qed.

  (** Three-term recurrence of the coefficients, and of the polynomials. *)
  Lemma lcoef_rec : forall n p,
    num (S (S n)) * lcoef (S (S n)) p + num (S n) * lcoef n p =
    num (2 * S n + 1) * lcoef (S n) p - (match p with 0%nat => 0 | S q => lcoef (S n) q end) :> T.
  Proof.
    intros n p. apply (cancel _ _ (num (fact p))); [apply num_ne, fact_neq_0|].
    transitivity (pow (- (1)) p * num (S (S n) * binom (S (S n)) p + S n * binom n p)).
    { rewrite num_add, !num_mul.
      transitivity (num (S (S n)) * (lcoef (S (S n)) p * num (fact p)) + num (S n) * (lcoef n p * num (fact p))); [ring|].
      rewrite !lcoef_fact. ring. }
    rewrite binom_rec3, num_add, (num_mul (2 * S n + 1)).
    transitivity (num (2 * S n + 1) * (lcoef (S n) p * num (fact p)) -
                  (match p with 0%nat => 0 | S q => lcoef (S n) q end) * num (fact p)); [|ring].
    rewrite lcoef_fact. destruct p as [|q].
    - simpl Nat.sub. rewrite num_mul. simpl (num 0). ring.
    - replace (S q - 1)%nat with q by lia. rewrite num_mul. change (fact (S q)) with (S q * fact q)%nat.
      rewrite (num_mul (S q)). simpl pow.
      transitivity (num (2 * S n + 1) * (- (1) * pow (- (1)) q * num (binom (S n) (S q))) - num (S q) * (lcoef (S n) q * num (fact q))); [|ring].
      rewrite lcoef_fact. ring.
  Qed.
  Lemma laguerre_rec : forall n (x : T),
    num (S (S n)) * laguerre (S (S n)) x = (num (2 * S n + 1) - x) * laguerre (S n) x - num (S n) * laguerre n x.
  Proof.
    intros n x. set (N := (S (S n) + 1)%nat).
    rewrite <- (laguerre_more (S (S n)) N), <- (laguerre_more n N) by lia.
    assert (E : num (S (S n)) * psum (fun p => lcoef (S (S n)) p * pow x p) N + num (S n) * psum (fun p => lcoef n p * pow x p) N =
      num (2 * S n + 1) * psum (fun p => lcoef (S n) p * pow x p) N - x * psum (fun p => lcoef (S n) p * pow x p) (S (S n))).
    { rewrite <- !psum_mul, <- psum_add.
      rewrite (psum_ext _ (fun p => num (2 * S n + 1) * (lcoef (S n) p * pow x p) +
        - (1) * ((match p with 0%nat => 0 | S q => lcoef (S n) q end) * pow x p))).
      2:{ intros p _. transitivity ((num (S (S n)) * lcoef (S (S n)) p + num (S n) * lcoef n p) * pow x p); [ring|].
          rewrite lcoef_rec. ring. }
      rewrite psum_add, (psum_mul (fun p => match p with 0%nat => 0 | S q => lcoef (S n) q end * pow x p)).
      replace N with (S (S (S n))) at 2 by lia. rewrite psum_shift.
      rewrite (psum_ext (fun i => lcoef (S n) i * pow x (S i)) (fun i => x * (lcoef (S n) i * pow x i)))
        by (intros; simpl; ring).
      ring. }
    rewrite !(laguerre_more (S n)) in E by lia.
    transitivity (num (S (S n)) * psum (fun p => lcoef (S (S n)) p * pow x p) N + num (S n) * psum (fun p => lcoef n p * pow x p) N
       - num (S n) * psum (fun p => lcoef n p * pow x p) N); [ring|]. rewrite E. ring.
  Qed.
  Lemma div_1 : forall a : T, a / (1 + 0) = a.
  Proof.
    intros a. assert (H : 1 + 0 <> 0 :> T) by exact (f_char HF 0).
    transitivity (a / (1 + 0) * (1 + 0)); [ring|]. now apply div_cancel.
  Qed.
  Lemma laguerre_0 : forall x : T, laguerre 0 x = 1.
  Proof. intros. unfold laguerre, lcoef. simpl. rewrite div_1. ring. Qed.
  Lemma laguerre_1 : forall x : T, laguerre 1 x = 1 - x.
  Proof. intros. unfold laguerre, lcoef. simpl. rewrite !div_1. ring. Qed.

  (** ** Vectors. *)
  Lemma vget_pos : forall (c : list T) i d, (i < length c)%nat -> vget c (Z.of_nat i) = Ok (nth i c d).
  Proof.
    intros c i d H. unfold vget. destruct (Z.ltb_spec (Z.of_nat i) 0); [lia|].
    destruct (Z.ltb_spec (Z.of_nat i) 0); [lia|]. rewrite Nat2Z.id.
    destruct (nth_error c i) eqn:E; [|apply nth_error_None in E; lia].
    erewrite nth_error_nth by eassumption. reflexivity.
  Qed.
  Lemma vget_neg : forall (c : list T) i d, (0 < i <= length c)%nat -> vget c (- Z.of_nat i) = Ok (nth (length c - i) c d).
  Proof.
    intros c i d H. unfold vget. destruct (Z.ltb_spec (- Z.of_nat i) 0); [|lia].
    destruct (Z.ltb_spec (- Z.of_nat i + Z.of_nat (length c)) 0); [lia|].
    replace (Z.to_nat (- Z.of_nat i + Z.of_nat (length c))) with (length c - i)%nat by lia.
    destruct (nth_error c (length c - i)) eqn:E; [|apply nth_error_None in E; lia].
    erewrite nth_error_nth by eassumption. reflexivity.
  Qed.
  Lemma vset_pos : forall (c : list T) i v, (i < length c)%nat ->
    exists c', vset c (Z.of_nat i) v = Ok c' /\ length c' = length c /\
      forall j, nth j c' 0 = if Nat.eqb j i then v else nth j c 0.
  Proof.
    intros c i v H. unfold vset. destruct (Z.ltb_spec (Z.of_nat i) 0); [lia|].
    destruct (Z.ltb_spec (Z.of_nat i) 0); [lia|]. destruct (Z.leb_spec (Z.of_nat (length c)) (Z.of_nat i)); [lia|].
    simpl orb. rewrite Nat2Z.id. eexists. split; [reflexivity|]. split.
    - rewrite app_length, firstn_length. cbn [length]. rewrite skipn_length. lia.
    - intros j. destruct (Nat.eqb_spec j i) as [->|Hj].
      + rewrite app_nth2 by (rewrite firstn_length; lia). rewrite firstn_length, Nat.min_l, Nat.sub_diag by lia. reflexivity.
      + destruct (Nat.lt_ge_cases j i).
        * rewrite app_nth1 by (rewrite firstn_length; lia).
          rewrite <- (firstn_skipn i c) at 2. rewrite app_nth1; auto. rewrite firstn_length; lia.
        * rewrite app_nth2 by (rewrite firstn_length; lia). rewrite firstn_length, Nat.min_l by lia.
          rewrite <- (firstn_skipn (S i) c) at 2. rewrite app_nth2 by (rewrite firstn_length; lia).
          rewrite firstn_length, Nat.min_l by lia. replace (j - i)%nat with (S (j - S i)) by lia. reflexivity.
  Qed.
  Lemma vop_map : forall (x : list T) (f g : T -> T) op,
    vop op (map f x) (map g x) = Ok (map (fun t => op (f t) (g t)) x).
  Proof.
    intros. unfold vop. rewrite !map_length, Nat.eqb_refl. f_equal. induction x; simpl; congruence.
  Qed.
  Lemma vop_map_id : forall (x : list T) (f : T -> T) op, vop op (map f x) x = Ok (map (fun t => op (f t) t) x).
  Proof. intros. rewrite <- (map_id x) at 2. apply (vop_map x f (fun t => t)). Qed.

  (** One step of the evaluation keeps the value of the series: with [m]
      terms left, it is the sum of the first [m-2] terms and c0*L_(m-2) + c1*L_(m-1). *)
  Lemma value_loop : forall (x c : list T) k i (g0 g1 : T -> T),
    length c = (k + i - 1)%nat -> (3 <= i)%nat ->
    (forall t, series c t = psum (fun k => nth k c 0 * laguerre k t) k + g0 t * laguerre k t + g1 t * laguerre (S k) t) ->
    exists f0 f1, forM (seq i k) (value_step x c) (map g0 x, map g1 x, S (S k)) = Ok (map f0 x, map f1 x, 2%nat) /\
      forall t, series c t = f0 t * laguerre 0 t + f1 t * laguerre 1 t.
  Proof.
    intros x c. induction k as [|k IH]; intros i g0 g1 HL Hi HS.
    - exists g0, g1. split; [reflexivity|]. intros t. rewrite HS. simpl psum. ring.
    - simpl seq. cbn [forM]. unfold value_step at 1. rewrite (vget_neg c i 0) by lia.
      replace (length c - i)%nat with k by lia. cbn [bind].
      unfold vfill, vscal. rewrite !map_map, vop_map_id. cbn [bind]. rewrite vop_map. cbn [bind]. rewrite map_map, vop_map. cbn [bind].
      replace (S (S (S k)) - 1)%nat with (S (S k)) by lia.
      apply IH; [lia|lia|]. intros t. rewrite HS. simpl psum. change (@onat O) with (@num O).
      replace (S (S k) - 1)%nat with (S k) by lia. replace (2 * S (S k) - 1)%nat with (2 * S k + 1)%nat by lia.
      assert (Hn : num (S (S k)) <> 0 :> T) by apply (f_char HF).
      apply (cancel _ _ (num (S (S k)))); auto.
      set (a := nth k c 0). set (P := psum _ _).
      set (u := g1 t * num (S k) / num (S (S k))). set (w := (num (2 * S k + 1) - t) * g1 t / num (S (S k))).
      assert (Hu : u * num (S (S k)) = g1 t * num (S k)) by (apply div_cancel; auto).
      assert (Hw : w * num (S (S k)) = (num (2 * S k + 1) - t) * g1 t) by (apply div_cancel; auto).
      transitivity ((P + a * laguerre k t + g0 t * laguerre (S k) t) * num (S (S k)) + g1 t * (num (S (S k)) * laguerre (S (S k)) t)); [ring|].
      rewrite laguerre_rec.
      transitivity (P * num (S (S k)) + (a * num (S (S k)) - u * num (S (S k))) * laguerre k t +
                    (g0 t * num (S (S k)) + w * num (S (S k))) * laguerre (S k) t); [rewrite Hu, Hw; ring|]. fold u w. ring.
  Qed.

  Lemma value_ok : forall x c : list T, c <> [] -> value x c = Ok (map (series c) x).
  Proof.
    intros x c Hc. unfold value.
    assert (G : forall f0 f1 : T -> T, (forall t, series c t = f0 t * laguerre 0 t + f1 t * laguerre 1 t) ->
      (result <- vop osub (vfill x 1) x;; result0 <- vop omul result (map f1 x);; vop oadd result0 (map f0 x)) = Ok (map (series c) x)).
    { intros f0 f1 H. unfold vfill. rewrite vop_map_id. cbn [bind]. rewrite vop_map. cbn [bind]. rewrite vop_map. f_equal.
      apply map_ext. intros t. rewrite H, laguerre_0, laguerre_1. ring. }
    destruct c as [|a [|b c]]; [congruence| |].
    - cbn -[series vop]. apply (G (fun _ => a) (fun _ => 0)). intros t. unfold series. cbn [length psum nth]. ring.
    - destruct c as [|d c].
      + cbn -[series vop]. apply (G (fun _ => a) (fun _ => b)). intros t. unfold series. cbn [length psum nth]. ring.
      + set (c' := a :: b :: d :: c) in *. change (length c') with (S (S (S (length c)))).
        cbv iota. pose proof (vget_neg c' 2 0) as E2. pose proof (vget_neg c' 1 0) as E1.
        change (- Z.of_nat 2)%Z with (-2)%Z in E2. change (- Z.of_nat 1)%Z with (-1)%Z in E1.
        assert (Hl : length c' = S (S (S (length c)))) by reflexivity. rewrite Hl in E1, E2.
        rewrite E2, E1 by lia. cbn [bind].
        replace (S (S (S (length c))) - 2)%nat with (S (length c)) by lia.
        replace (S (S (S (length c))) - 1)%nat with (S (S (length c))) by lia.
        destruct (value_loop x c' (S (length c)) 3 (fun _ => nth (S (length c)) c' 0) (fun _ => nth (S (S (length c))) c' 0)) as (f0 & f1 & F1 & F2).
        * rewrite Hl. lia.
        * lia.
        * intros t. unfold series. rewrite Hl. cbn [psum]. ring.
        * unfold vfill. rewrite F1. cbn [bind fst snd]. apply G. auto.
  Qed.

  (** ** Derivative. *)
  (** Sum of the elements from [j] on. *)
  Definition tail (c : list T) (j : nat) : T := psum (fun i => nth (j + i) c 0) (length c - j).
  Lemma tail_step : forall c j, (j < length c)%nat -> tail c j = nth j c 0 + tail c (S j).
  Proof.
    intros c j H. unfold tail. replace (length c - j)%nat with (S (length c - S j)) by lia. rewrite psum_shift, Nat.add_0_r.
    f_equal. apply psum_ext. intros. f_equal. lia.
  Qed.
  Lemma der_step_ok : forall n scale c, length c = S n -> (1 <= n)%nat ->
    exists d, der_step n scale c = Ok d /\ length d = n /\
      forall j, (j < n)%nat -> nth j d 0 = - (scale * tail c (S j)).
  Proof.
    intros n scale c HL Hn. unfold der_step. set (c1 := vscal omul c scale).
    assert (L1 : length c1 = S n) by (unfold c1, vscal; rewrite map_length; auto).
    assert (T1 : forall j, tail c1 j = scale * tail c j).
    { intros j. unfold tail. unfold c1 at 2, vscal. rewrite map_length, <- psum_mul. apply psum_ext. intros i Hi.
      unfold c1, vscal. rewrite (nth_indep _ 0 (0 * scale)) by (rewrite map_length; lia). rewrite (map_nth (fun v : T => v * scale)). ring. }
    assert (G : forall k d e, (k <= n)%nat -> length d = n -> length e = S n ->
      (forall j, (k <= j < n)%nat -> nth j d 0 = - tail c1 (S j)) -> (forall j, (j < k)%nat -> nth j e 0 = nth j c1 0) ->
      (forall j, (k <= j)%nat -> (1 <= j)%nat -> nth j e 0 = tail c1 j) ->
      exists d' e', forM (rev (seq 1 k)) (fun j s =>
           cj <- vget (snd s) (Z.of_nat j) ;;
           der <- vset (fst s) (Z.of_nat j - 1) (oopp cj) ;;
           p <- vget (snd s) (Z.of_nat j - 1) ;;
           c <- vset (snd s) (Z.of_nat j - 1) (oadd p cj) ;;
           Ok (der, c)) (d, e) = Ok (d', e') /\ length d' = n /\ length e' = S n /\
        (forall j, (j < n)%nat -> nth j d' 0 = - tail c1 (S j)) /\ nth 1 e' 0 = tail c1 1).
    { induction k as [|k IH]; intros d e Hk Ld Le Hd He He2.
      - exists d, e. simpl. repeat split; auto. intros j Hj. apply Hd. lia.
      - rewrite seq_S, rev_app_distr. simpl rev. cbn [app forM].
        change (1 + k)%nat with (S k). cbn [fst snd]. rewrite (vget_pos e (S k) 0) by lia. cbn [bind].
        replace (Z.of_nat (S k) - 1)%Z with (Z.of_nat k) by lia.
        destruct (vset_pos d k (- nth (S k) e 0)) as (d1 & E1 & E2 & E3); [lia|]. rewrite E1. cbn [bind].
        rewrite (vget_pos e k 0) by lia. cbn [bind].
        destruct (vset_pos e k (nth k e 0 + nth (S k) e 0)) as (e1 & F1 & F2 & F3); [lia|]. rewrite F1. cbn [bind].
        assert (Hs : nth (S k) e 0 = tail c1 (S k)) by (apply He2; lia).
        apply IH; try lia.
        + intros j Hj. rewrite E3. destruct (Nat.eqb_spec j k) as [->|]; [now rewrite Hs|]. apply Hd. lia.
        + intros j Hj. rewrite F3. destruct (Nat.eqb_spec j k); [lia|]. apply He. lia.
        + intros j Hj H1. rewrite F3. destruct (Nat.eqb_spec j k) as [->|].
          * rewrite Hs, (He k), (tail_step c1 k) by lia. reflexivity.
          * apply He2; lia. }
    destruct (G n (repeat 0 n) c1) as (d' & e' & E & Ld & Le & Hd & He); auto.
    - apply repeat_length.
    - intros; lia.
    - intros j Hj _. destruct (Nat.lt_ge_cases j (S n)).
      + assert (j = n) by lia. subst j. rewrite (tail_step c1 n) by lia. unfold tail. replace (length c1 - S n)%nat with 0%nat by lia. simpl. ring.
      + rewrite nth_overflow by lia. unfold tail. replace (length c1 - j)%nat with 0%nat by lia. reflexivity.
    - rewrite E. cbn [bind fst snd]. pose proof (vget_pos e' 1 0) as W. change (Z.of_nat 1) with 1%Z in W. rewrite W by lia. cbn [bind].
      destruct (vset_pos d' 0 (- nth 1 e' 0)) as (d2 & F1 & F2 & F3); [lia|]. change (Z.of_nat 0) with 0%Z in F1.
      exists d2. split; [exact F1|]. split; [lia|]. intros j Hj. rewrite F3, <- T1.
      destruct (Nat.eqb_spec j 0) as [->|]; [now rewrite He|auto].
  Qed.

  Lemma hockey : forall p k, psum (fun j => num (binom j p)) k = num (binom k (S p)) :> T.
  Proof.
    induction k; [reflexivity|]. simpl psum. rewrite IHk. change (binom (S k) (S p)) with (binom k p + binom k (S p))%nat.
    rewrite num_add. ring.
  Qed.
  Lemma lcoef_hockey : forall p k, psum (fun j => lcoef j p) k = - (num (S p) * lcoef k (S p)) :> T.
  Proof.
    intros p k. apply (cancel _ _ (num (fact p))); [apply num_ne, fact_neq_0|].
    transitivity (num (fact p) * psum (fun j => lcoef j p) k); [ring|]. rewrite <- psum_mul.
    rewrite (psum_ext _ (fun j => pow (- (1)) p * num (binom j p))).
    2:{ intros i _. rewrite <- lcoef_fact. ring. }
    rewrite psum_mul, hockey.
    transitivity (- (lcoef k (S p) * num (fact (S p)))).
    - rewrite lcoef_fact. simpl pow. ring.
    - change (fact (S p)) with (S p * fact p)%nat. rewrite num_mul. ring.
  Qed.
  (** Exchange of the two sums over j < k < n. *)
  Lemma tri_swap : forall (a b : nat -> T) n,
    psum (fun j => psum (fun i => a (S j + i)%nat) (n - S j) * b j) n = psum (fun k => a k * psum b k) n.
  Proof.
    induction n as [|n IH]; [reflexivity|].
    transitivity (psum (fun j => psum (fun i => a (S j + i)%nat) (S n - S j) * b j) n + 0 * b n).
    { change (psum (fun j => psum (fun i => a (S j + i)%nat) (S n - S j) * b j) (S n)) with
        (psum (fun j => psum (fun i => a (S j + i)%nat) (S n - S j) * b j) n + psum (fun i => a (S n + i)%nat) (S n - S n) * b n).
      rewrite Nat.sub_diag. reflexivity. }
    change (psum (fun k => a k * psum b k) (S n)) with (psum (fun k => a k * psum b k) n + a n * psum b n). rewrite <- IH.
    rewrite (psum_ext _ (fun j => psum (fun i => a (S j + i)%nat) (n - S j) * b j + a n * b j)).
    - rewrite psum_add, (psum_mul b (a n)). ring.
    - intros j Hj. replace (S n - S j)%nat with (S (n - S j)) by lia. cbn [psum]. replace (S j + (n - S j))%nat with n by lia. ring.
  Qed.
  Lemma der_step_coef : forall n scale c d, length c = S n -> length d = n ->
    (forall j, (j < n)%nat -> nth j d 0 = - (scale * tail c (S j))) ->
    forall p, scoef d p = scale * dcoef (scoef c) p.
  Proof.
    intros n scale c d Lc Ld Hd p. unfold scoef, dcoef. rewrite Lc, Ld.
    transitivity (- scale * psum (fun k => nth k c 0 * psum (fun j => lcoef j p) k) (S n)).
    - rewrite <- tri_swap.
      change (psum (fun j => psum (fun i => nth (S j + i) c 0) (S n - S j) * lcoef j p) (S n)) with
        (psum (fun j => psum (fun i => nth (S j + i) c 0) (S n - S j) * lcoef j p) n + psum (fun i => nth (S n + i) c 0) (S n - S n) * lcoef n p).
      rewrite Nat.sub_diag. cbn [psum].
      rewrite (psum_ext (fun j => psum _ _ * lcoef j p) (fun j => tail c (S j) * lcoef j p)).
      + transitivity (- scale * psum (fun j => tail c (S j) * lcoef j p) n); [|ring].
        rewrite <- psum_mul. apply psum_ext. intros j Hj. rewrite Hd by auto. ring.
      + intros j Hj. unfold tail. rewrite Lc. reflexivity.
    - rewrite (psum_ext _ (fun k => - num (S p) * (nth k c 0 * lcoef k (S p)))).
      + rewrite psum_mul. ring.
      + intros k _. rewrite lcoef_hockey. ring.
  Qed.
  Lemma dcoef_scale : forall m (f : nat -> T) a p, Nat.iter m dcoef (fun q => a * f q) p = a * Nat.iter m dcoef f p.
  Proof. induction m; intros; simpl; auto. unfold dcoef at 1 3. rewrite IHm. ring. Qed.
  Lemma dcoef_ext : forall m (f g : nat -> T) p, (forall q, f q = g q) -> Nat.iter m dcoef f p = Nat.iter m dcoef g p.
  Proof. induction m; intros; simpl; auto. unfold dcoef. rewrite (IHm f g); auto. Qed.
  Lemma iter_comm : forall A (f : A -> A) m a, Nat.iter m f (f a) = f (Nat.iter m f a).
  Proof. induction m; intros; simpl; congruence. Qed.

  Lemma der_loop_ok : forall m n scale c, length c = n -> (m < n)%nat ->
    exists d, der_loop m n scale c = Ok d /\ length d = (n - m)%nat /\
      forall p, scoef d p = pow scale m * Nat.iter m dcoef (scoef c) p.
  Proof.
    induction m as [|m IH]; intros n scale c HL Hm.
    - exists c. repeat split; [lia|]. intros. simpl. ring.
    - cbn [der_loop]. destruct (der_step_ok (n - 1) scale c) as (d & E & Ld & Hd); [lia|lia|]. rewrite E. cbn [bind].
      destruct (IH (n - 1)%nat scale d Ld) as (d' & E' & Ld' & Hd'); [lia|].
      exists d'. split; auto. split; [lia|]. intros p. rewrite Hd'.
      rewrite (dcoef_ext m _ (fun q => scale * dcoef (scoef c) q)).
      + rewrite dcoef_scale. simpl Nat.iter. rewrite <- (iter_comm _ dcoef). simpl pow. ring.
      + apply (der_step_coef (n - 1)); auto; lia.
  Qed.
  Lemma scoef_zero : forall n p, scoef (repeat 0 n) p = 0 :> T.
  Proof. intros. apply psum_0. intros i _. rewrite nth_repeat. ring. Qed.
  Lemma scoef_high : forall (c : list T) p, (length c <= p)%nat -> scoef c p = 0.
  Proof. intros. apply psum_0. intros i Hi. rewrite lcoef_0 by lia. ring. Qed.
  Lemma dcoef_high : forall m (f : nat -> T) p, (forall q, (p + m <= q)%nat -> f q = 0) -> Nat.iter m dcoef f p = 0.
  Proof.
    induction m; intros f p H; simpl. - apply H; lia.
    - unfold dcoef. rewrite IHm; [ring|]. intros q Hq. apply H. lia.
  Qed.
  Lemma derivative_ok : forall (c : list T) m scale, c <> [] ->
    exists d, derivative c m scale = Ok d /\
      length d = (if Nat.eqb m 0 then length c else if Nat.leb (length c) m then length c - 1 else length c - m)%nat /\
      forall p, scoef d p = pow scale m * Nat.iter m dcoef (scoef c) p.
  Proof.
    intros c m scale Hc. unfold derivative. destruct (Nat.eqb_spec m 0) as [->|Hm].
    - exists c. repeat split. intros. simpl. ring.
    - destruct (Nat.leb_spec (length c) m).
      + destruct c as [|a c]; [congruence|]. simpl length in *. exists (repeat 0 (length c)). split; auto.
        split; [rewrite repeat_length; lia|]. intros p. rewrite scoef_zero.
        rewrite dcoef_high; [ring|]. intros q Hq. apply scoef_high. simpl. lia.
      + destruct (der_loop_ok m (length c) scale c) as (d & E & Ld & Hd); auto. exists d. auto.
  Qed.
  (** The value of a series is the value of the polynomial with its coefficients. *)
  Lemma series_poly : forall (c : list T) x, series c x = psum (fun p => scoef c p * pow x p) (length c).
  Proof.
    intros c x. unfold series.
    rewrite (psum_ext _ (fun k => psum (fun p => nth k c 0 * (lcoef k p * pow x p)) (length c))).
    2:{ intros k Hk. rewrite psum_mul, laguerre_more; auto. }
    rewrite psum_swap. apply psum_ext. intros p _. unfold scoef.
    transitivity (pow x p * psum (fun k => nth k c 0 * lcoef k p) (length c)); [|ring].
    rewrite <- psum_mul. apply psum_ext. intros; ring.
  Qed.
End Field.

(** ** C45.  [value]: every point of [x] gets the series' value. *)
Theorem C45_value_partial :
  forall (O : Ops) (HF : is_field0 O) (x c : list (car O)),
  c <> [] -> value x c = Ok (map (series c) x).
Proof. intros. now apply value_ok. Qed.
Print Assumptions C45_value_partial.

(** [derivative(c,m,scale)]: the coefficients are those of the m-th formal
    derivative of the polynomial sum_k c_k L_k, times scale^m. *)
Theorem C45_derivative_partial :
  forall (O : Ops) (HF : is_field0 O) (c : list (car O)) m scale,
  c <> [] ->
  exists d, derivative c m scale = Ok d /\
    (forall p, scoef d p = omul (pow scale m) (Nat.iter m dcoef (scoef c) p)) /\
    forall x, series d x = psum (fun p => omul (scoef d p) (pow x p)) (length d).
Proof.
  intros O HF c m scale Hc. destruct (derivative_ok HF c m scale Hc) as (d & E & _ & H).
  exists d. split; auto. split; auto. intros. now apply series_poly.
Qed.
Print Assumptions C45_derivative_partial.

(** The derivative of a constant series is an empty vector; evaluating it reads
    outside its memory (value and derivative do not compose for degree 0), and
    so does evaluating an empty series in general; differentiating an empty
    series asks for 2^64-1 elements. *)
Theorem C45_constant_refuted :
  derivative (O := QcOps) [Q2Qc 5] 1 1%Qc = Ok [] /\
  value (O := QcOps) [0%Qc] [] = UB /\ derivative (O := QcOps) [] 1 1%Qc = Throw.
Proof. repeat split. Qed.
Print Assumptions C45_constant_refuted.

(** The rationals are such a field. *)
Lemma QcOps_field0 : is_field0 QcOps.
Proof.
  split.
  - apply QcOps_ring.
  - intros a b Hb. simpl in *. unfold Qcdiv. rewrite <- Qcmult_assoc, (Qcmult_comm (/ b)), Qcmult_inv_r; auto. apply Qcmult_1_r.
  - intros n. assert (G : forall k, (0 <= num (O := QcOps) k)%Qc).
    { induction k; [apply Qcle_refl|]. simpl. change 0%Qc with (0 + 0)%Qc. apply Qcplus_le_compat; auto. discriminate. }
    intros H. assert (0 < num (O := QcOps) (S n))%Qc.
    { simpl. apply Qclt_le_trans with (1 + 0)%Qc; [reflexivity|]. apply Qcplus_le_compat; auto. apply Qcle_refl. }
    rewrite H in H0. discriminate.
  - intros a b H. simpl in *. destruct (Qc_eq_dec a 0%Qc); auto. right.
    destruct (Qc_eq_dec b 0%Qc); auto. destruct (Qcmult_integral a b); auto. contradiction.
Qed.

(** 1 + 2*L_1 + 3*L_2 at 2: 1 + 2*(-1) + 3*(-1) = -4; its derivative is
    -5*L_0 - 3*L_1, which is -2 at 2. *)
Example C45_case :
  value (O := QcOps) [Q2Qc 2] [Q2Qc 1; Q2Qc 2; Q2Qc 3] = Ok [Q2Qc (-4)] /\
  derivative (O := QcOps) [Q2Qc 1; Q2Qc 2; Q2Qc 3] 1 1%Qc = Ok [Q2Qc (-5); Q2Qc (-3)] /\
  value (O := QcOps) [Q2Qc 2] [Q2Qc (-5); Q2Qc (-3)] = Ok [Q2Qc (-2)] /\
  series (O := QcOps) [Q2Qc 1; Q2Qc 2; Q2Qc 3] (Q2Qc 2) = Q2Qc (-4).
Proof.
  assert (G1 : forall a b : Qc, (a == b)%Q -> Ok [a] = Ok [b]) by (intros a b H; now rewrite (Qc_is_canon a b H)).
  assert (G2 : forall a b a' b' : Qc, (a == a')%Q -> (b == b')%Q -> Ok [a; b] = Ok [a'; b'])
    by (intros a b a' b' H H'; now rewrite (Qc_is_canon a a' H), (Qc_is_canon b b' H')).
  split; [|split; [|split]].
  - rewrite (value_ok QcOps_field0) by discriminate. apply G1. vm_compute. reflexivity.
  - apply G2; vm_compute; reflexivity.
  - rewrite (value_ok QcOps_field0) by discriminate. apply G1. vm_compute. reflexivity.
  - apply Qc_is_canon. vm_compute. reflexivity.
Qed.
