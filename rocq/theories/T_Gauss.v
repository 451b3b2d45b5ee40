(** * T_Gauss: Gauss-Laguerre quadrature is exact (C123). *)
From Coq Require Import Reals Lra List ZArith Lia Bool Ring.
From Verif Require Import Base Heap M_Addr L_Addr S_Blas M_Einsum S_Einsum M_Laguerre S_Laguerre T_Laguerre M_Infer L_Infer T_Infer M_Blas M_Lapack S_Lapack L_Elt T_Lapack.
From Verif Require Import S_Laguerre T_Laguerre T_Infer.
From Verif Require Import M_Gauss S_Gauss L_Gauss.
Import ListNotations.
Open Scope Z_scope.

Lemma mapM_ok : forall A B (f : A -> res B) (g : A -> B) l, (forall a, In a l -> f a = Ok (g a)) -> mapM f l = Ok (map g l).
Proof.
  induction l as [|a l IH]; intros H; cbn; [reflexivity|]. rewrite H by now left. cbn. rewrite IH; [reflexivity|]. intros; apply H; now right.
Qed.
Lemma zrange_seq : forall A (f : Z -> A) n, map f (zrange (Z.of_nat n)) = map (fun i => f (Z.of_nat i)) (seq 0 n).
Proof. intros. unfold zrange. rewrite Nat2Z.id, map_map. reflexivity. Qed.

Lemma inb_2 : forall idx n m, inb idx [n; m] -> exists i j, idx = [i; j] /\ 0 <= i < n /\ 0 <= j < m.
Proof. intros idx n m H. inversion H as [|i ? l ? H1 H2]; subst. inversion H2 as [|j ? l' ? H3 H4]; subst. inversion H4; subst. eauto 6. Qed.
Lemma inb_1 : forall idx n, inb idx [n] -> exists i, idx = [i] /\ 0 <= i < n.
Proof. intros idx n H. inversion H as [|i ? l ? H1 H2]; subst. inversion H2; subst. eauto. Qed.

Section Field.
  Context {O : Ops} (HF : is_field0 O).
  Notation T := (car O).
  Let HR : is_ring O := f_ring HF.
  Add Ring Tring4 : (ir_rt O HR).

  Lemma zsum_psum : forall n (f : Z -> T), zsum (Z.of_nat n) f = psum (fun i => f (Z.of_nat i)) n.
  Proof.
    intros n f. unfold zsum, zrange. rewrite Nat2Z.id. induction n as [|n IH]; [reflexivity|].
    rewrite seq_S, map_app. cbn [psum]. rewrite <- IH. unfold lsum. rewrite fold_right_app. cbn [map fold_right Nat.add].
    generalize (map Z.of_nat (seq 0 n)). induction l as [|a l IHl]; cbn [fold_right]; [ring|]. rewrite IHl. ring.
  Qed.
  Lemma fold_psum : forall n (g : nat -> T), fold_left oadd (map g (seq 0 n)) o0 = psum g n.
  Proof.
    induction n as [|n IH]; intros g; [reflexivity|]. rewrite seq_S, map_app, fold_left_app, IH. reflexivity.
  Qed.
  Lemma tri_rec : forall i j, 0 <= i -> 0 <= j -> tri i j = recurrence i j :> T.
  Proof.
    intros i j Hi Hj. unfold tri, recurrence. rewrite !(onat_num).
    destruct (i =? j).
    - replace (2 * Z.to_nat i + 1)%nat with (Z.to_nat i + Z.to_nat i + 1)%nat by lia. rewrite !(num_add HF). simpl (num 1). ring.
    - destruct (j =? i + 1); [rewrite onat_num; ring|]. destruct (i =? j + 1); [rewrite ?onat_num; ring|reflexivity].
  Qed.
  Lemma rec_sym : forall i j, recurrence i j = recurrence j i :> T.
  Proof.
    intros i j. unfold recurrence. rewrite (Z.eqb_sym j i). destruct (Z.eqb_spec i j) as [->|]; [reflexivity|].
    destruct (Z.eqb_spec j (i + 1)), (Z.eqb_spec i (j + 1)); subst; auto; lia.
  Qed.

  (** ** The series used *)
  Definition last1 (n : nat) : list T := repeat o0 n ++ [o1].
  Lemma last1_len : forall n, length (last1 n) = S n.
  Proof. intros. unfold last1. rewrite app_length, repeat_length. simpl. lia. Qed.
  Lemma last1_nth : forall n k, nth k (last1 n) o0 = if Nat.eqb k n then o1 else o0.
  Proof.
    intros n k. unfold last1. destruct (Nat.eqb_spec k n) as [->|N].
    - rewrite app_nth2; rewrite repeat_length; [|lia]. now rewrite Nat.sub_diag.
    - destruct (Nat.lt_ge_cases k n).
      + rewrite app_nth1 by (rewrite repeat_length; lia). apply nth_repeat.
      + rewrite nth_overflow; auto. rewrite app_length, repeat_length. simpl. lia.
  Qed.
  Lemma last1_series : forall n x, series (last1 n) x = laguerre n x.
  Proof.
    intros n x. unfold series. rewrite last1_len. cbn [psum]. rewrite (psum_0 HF).
    - rewrite last1_nth, Nat.eqb_refl. ring.
    - intros i Hi. rewrite last1_nth, (proj2 (Nat.eqb_neq _ _)) by lia. ring.
  Qed.
  Lemma set_last : forall n, vset (repeat (o0 : T) (S n)) (-1) o1 = Ok (last1 n).
  Proof.
    intros n. unfold vset. rewrite repeat_length. change (-1 <? 0) with true. cbv iota.
    replace (-1 + Z.of_nat (S n)) with (Z.of_nat n) by lia.
    rewrite (proj2 (Z.ltb_ge _ _)), (proj2 (Z.leb_gt _ _)) by lia. cbn [orb]. rewrite Nat2Z.id. unfold last1.
    replace (S n) with (n + 1)%nat at 1 by lia. rewrite repeat_app, firstn_app, repeat_length, Nat.sub_diag, firstn_O, app_nil_r.
    rewrite firstn_all2 by (rewrite repeat_length; lia). rewrite skipn_all2 by (rewrite repeat_length; lia). reflexivity.
  Qed.
  Lemma tail_last : forall n, (1 <= n)%nat -> Z.of_nat n <= 4096 -> tail_view (last1 n) = Ok (last1 (n - 1)).
  Proof.
    intros n Hn Hb. unfold tail_view, view_infer. rewrite last1_len. cbn [ddims].
    rewrite (size_model_correct [Z.of_nat (S n)]) by (try (repeat constructor; lia); simpl; lia).
    simpl zprod. rewrite Z.mul_1_r, inferred_exact by lia. cbn [bind].
    replace (- (- (Z.of_nat (S n) - 1) / 1)) with (Z.of_nat n) by (rewrite Z.div_1_r; lia).
    unfold view_ctor. cbn [ddims length]. unfold count_m1. cbn [filter length].
    replace (Z.of_nat n =? -1) with false by (symmetry; apply Z.eqb_neq; lia). cbn [length Nat.ltb Nat.leb Nat.eqb andb bind].
    cbn [tdim ddims nth]. unfold tdim. cbn [ddims nth].
    rewrite (mapM_ok _ _ _ (fun i => nth (Z.to_nat (i + 1)) (last1 n) o0)).
    - rewrite zrange_seq. f_equal. apply nth_ext with (d := o0) (d' := o0).
      + rewrite map_length, seq_length, last1_len. lia.
      + intros k Hk. rewrite map_length, seq_length in Hk.
        rewrite (nth_indep _ o0 ((fun i => nth (Z.to_nat (Z.of_nat i + 1)) (last1 n) o0) 0%nat)) by (rewrite map_length, seq_length; lia).
        rewrite (map_nth (fun i => nth (Z.to_nat (Z.of_nat i + 1)) (last1 n) o0)), seq_nth by lia. rewrite !last1_nth.
        destruct (Nat.eqb_spec k (n - 1)), (Nat.eqb_spec (Z.to_nat (Z.of_nat (0 + k) + 1)) n); auto; lia.
    - intros i Hi. apply zrange_in in Hi. unfold addr. cbn [dbase dstrides dotp].
      match goal with |- (if ?z <? 0 then _ else _) = _ => replace z with (Z.of_nat (Z.to_nat (i + 1))) by lia end.
      rewrite (proj2 (Z.ltb_ge _ _)) by lia. apply vget_pos. rewrite last1_len. lia.
  Qed.
  Lemma der_last : forall n, (1 <= n)%nat -> exists d, derivative (last1 n) 1 o1 = Ok d /\ d <> [] /\
    forall x, series d x = oopp (psum (fun k => laguerre k x) n).
  Proof.
    intros n Hn. unfold derivative. rewrite last1_len. change (Nat.eqb 1 0) with false. cbv iota.
    rewrite (proj2 (Nat.leb_gt _ _)) by lia. cbn [der_loop]. replace (S n - 1)%nat with n by lia.
    destruct (der_step_ok HF n o1 (last1 n) (last1_len n) Hn) as (d & E & L & H). rewrite E. cbn [bind].
    exists d. split; [reflexivity|]. split; [intros ->; simpl in L; lia|]. intros x. unfold series. rewrite L.
    transitivity (omul (oopp o1) (psum (fun k => laguerre k x) n)); [|ring]. rewrite <- (psum_mul HF). apply psum_ext. intros k Hk.
    rewrite H by auto. assert (TL : tail (last1 n) (S k) = o1).
    { unfold tail. rewrite last1_len. replace (S n - S k)%nat with (S (n - S k)) by lia. cbn [psum]. rewrite (psum_0 HF).
      - replace (S k + (n - S k))%nat with n by lia. rewrite last1_nth, Nat.eqb_refl. ring.
      - intros i Hi. rewrite last1_nth, (proj2 (Nat.eqb_neq _ _)) by lia. reflexivity. }
    rewrite TL. ring.
  Qed.

  (** ** The matrix *)
  Lemma companion_last : forall n base (h : heap T), (1 <= n <= 4096)%nat -> let m := Z.of_nat n in
    exists h', companion base (last1 n) h = Ok (tensor_ctor base [m; m], h') /\
      (forall i j, 0 <= i < m -> 0 <= j < m -> h' (addr (tensor_ctor base [m; m]) [i; j]) = Some (tri i j)) /\
      (forall z, ~ base <= z < base + m * m -> h' z = h z).
  Proof.
    intros n base h Hn m. destruct (Nat.eq_dec n 1) as [->|N].
    - unfold m. cbn [Z.of_nat Pos.of_succ_nat]. change (Z.of_nat 1) with 1. unfold companion.
      cbn [last1 repeat app length Nat.ltb Nat.leb Nat.eqb]. unfold vget. cbn [Z.ltb Z.compare Z.to_nat nth_error bind Pos.to_nat Pos.iter_op].
      change (nth_error [o0; o1] (Z.to_nat 0)) with (Some (@o0 O)). change (nth_error [o0; o1] (Z.to_nat 1)) with (Some (@o1 O)). cbn [bind].
      unfold tset. rewrite subscript_inb by (repeat constructor; lia).
      assert (A : addr (tensor_ctor base [1; 1]) [0; 0] = base) by (unfold addr; simpl; lia). rewrite A.
      rewrite wr_some with (w := o0).
      2:{ unfold alloc_buffer. rewrite (proj2 (Z.leb_le _ _)), (proj2 (Z.ltb_lt _ _)) by lia. reflexivity. }
      cbn [bind]. eexists. split; [reflexivity|]. split.
      + intros i j Hi Hj. replace i with 0 by lia. replace j with 0 by lia. rewrite A, upd_same. f_equal.
        rewrite (div_eq HF o0 o1 o0) by (try apply (one_ne HF); ring). unfold tri. simpl. ring.
      + intros z Hz. rewrite upd_other by lia. unfold alloc_buffer.
        destruct (Z.leb_spec base z), (Z.ltb_spec z (base + 1)); auto; lia.
    - pose proof (companion_matrix base (last1 n) h) as C. rewrite last1_len in C. specialize (C ltac:(lia)). cbv zeta in C.
      replace (Z.of_nat (S n) - 1) with m in C by lia. exact C.
  Qed.

  Lemma vop_id_map : forall (x : list T) (f : T -> T) op, vop op x (map f x) = Ok (map (fun t => op t (f t)) x).
  Proof. intros x f op. pose proof (vop_map x (fun t => t) f op) as H. now rewrite map_id in H. Qed.
  Lemma sub_0 : forall a : T, osub a o0 = a. Proof. intros; ring. Qed.
  Lemma mul_0 : forall a : T, omul o0 a = o0. Proof. intros; ring. Qed.
  Lemma mul_1 : forall a : T, omul a o1 = a. Proof. intros; ring. Qed.
  Lemma mul_10 : forall a : T, omul a (oadd o1 o0) = a. Proof. intros; ring. Qed.
  Lemma mul_c : forall a b : T, omul a b = omul b a. Proof. intros; ring. Qed.
  Lemma mul_swap : forall a b c : T, omul a (omul b c) = omul b (omul a c). Proof. intros; ring. Qed.
  Lemma opp_ne : forall a : T, a <> o0 -> oopp a <> o0.
  Proof. intros a Ha H. apply Ha. transitivity (oopp (oopp a)); [ring|]. rewrite H. ring. Qed.
  Lemma weight_eq : forall a b m1 m2 n w : T, m1 <> o0 -> m2 <> o0 -> a <> o0 -> b <> o0 -> omul w (omul n (omul a b)) = o1 ->
    odiv o1 (omul (odiv a m1) (odiv (oopp b) m2)) = omul (oopp (omul n (omul m1 m2))) w.
  Proof.
    intros a b m1 m2 n w H1 H2 Ha Hb E.
    assert (D1 := f_div HF a m1 H1). assert (D2 := f_div HF (oopp b) m2 H2).
    set (p := odiv a m1) in *. set (q := odiv (oopp b) m2) in *.
    apply (div_eq HF).
    - intros Z. destruct (f_int HF _ _ Z) as [Y|Y].
      + apply Ha. rewrite <- D1, Y. ring.
      + apply (opp_ne b Hb). rewrite <- D2, Y. ring.
    - transitivity (omul w (omul n (omul (omul p m1) (oopp (omul q m2))))); [|ring]. rewrite D1, D2, <- E. ring.
  Qed.
End Field.

(** For every degree from 1 to 4096: the nodes are distinct roots of the
    Laguerre polynomial, in ascending order, the rule gives the integral of
    every polynomial of degree below twice the number of nodes, and nothing but
    the new tensors is written. *)
Theorem C123_quadrature_partial :
  forall (O : Ops) (HF : is_field0 O) (lt : car O -> car O -> bool) (L : lapack) (maxabs : list (car O) -> car O)
    base degree (h : heap (car O)),
  (1 <= degree <= 4096)%nat -> let n := Z.of_nat degree in
  (forall M, agree n n M (upper recurrence) -> syev_contract lt L n M /\ fst (fst (x_syev L n M)) = 0) ->
  (forall v, Exists (fun x => x <> o0) v -> maxabs v <> o0) ->
  exists x w h', gauss_laguerre L maxabs base degree h = Ok (x, w, h') /\ length x = degree /\ length w = degree /\
    (forall p, (length p <= 2 * degree)%nat -> quadrature x w (poly p) = integral p) /\
    (forall t, In t x -> laguerre degree t = o0) /\ NoDup x /\
    (forall k, (S k < degree)%nat -> lt (nth (S k) x o0) (nth k x o0) = false) /\
    (forall z, ~ base <= z < base + n * n + n -> h' z = h z).
Proof.
  intros O HF lt L maxabs base degree h Hd n HC HM. assert (HR := f_ring HF).
  unfold gauss_laguerre. rewrite set_last. cbn [bind]. fold n.
  destruct (companion_last HF degree base h Hd) as (h1 & E1 & H1 & F1). fold n in E1, H1, F1. rewrite E1. cbn [bind].
  set (A := tensor_ctor base [n; n]) in *. set (X := tensor_ctor (base + n * n) [n]).
  set (h2 := alloc_buffer o0 (base + n * n) n h1).
  assert (AA : forall i j, addr A [i; j] = base + i * n + j) by (intros; unfold A, addr, row_major_strides; simpl; lia).
  assert (AX : forall i, addr X [i] = base + n * n + i) by (intros; unfold X, addr, row_major_strides; simpl; lia).
  set (a := fun idx : list Z => match idx with [i; j] => tri i j | _ => o0 end : car O).
  assert (HA : holds h2 A a).
  { intros idx Hi. change (ddims A) with [n; n] in Hi. apply inb_2 in Hi as (i & j & -> & Hi & Hj).
    unfold h2. rewrite alloc_buffer_other; [apply H1; lia|]. rewrite AA. assert (i * n <= (n - 1) * n) by (apply Z.mul_le_mono_nonneg_r; lia). lia. }
  destruct (C58_syev_partial O HR lt L A X n n a h2) as (h3 & v & w & E3 & HV & HW & (HO1 & HO2) & HE & HL & F3).
  - lia.
  - split; [reflexivity|]. split; [|lia]. unfold A, row_major_strides. cbn. now rewrite Z.mul_1_l.
  - split; [reflexivity|]. split; [reflexivity|lia].
  - exact HA.
  - intros idx Hi. change (ddims X) with [n] in Hi. apply inb_1 in Hi as (i & -> & Hi). exists o0. unfold h2. apply alloc_buffer_cell. rewrite AX. lia.
  - intros i j Hi Hj. change (ddims A) with [n; n] in Hi. change (ddims X) with [n] in Hj.
    apply inb_2 in Hi as (i' & j' & -> & Hi' & Hj'). apply inb_1 in Hj as (k & -> & Hk).
    rewrite AA, AX. assert (i' * n <= (n - 1) * n) by (apply Z.mul_le_mono_nonneg_r; lia). lia.
  - intros M HM'. apply HC. intros i j Hi Hj. rewrite HM' by auto. unfold upper. destruct (i <=? j); auto.
    unfold trn, mx, a. rewrite (tri_rec HF), rec_sym by lia. reflexivity.
  - rewrite E3. cbn [bind].
    set (xs := fun i : nat => w [Z.of_nat i]).
    rewrite (mapM_ok _ _ _ (fun i => w [i])).
    2:{ intros i Hi. apply zrange_in in Hi. unfold rd. rewrite (HW [i]) by (repeat constructor; lia). reflexivity. }
    unfold n at 1. rewrite zrange_seq. change (map (fun i : nat => w [Z.of_nat i]) (seq 0 degree)) with (map xs (seq 0 degree)).
    cbn [bind]. set (x := map xs (seq 0 degree)).
    set (V := fun i k : nat => v [Z.of_nat i; Z.of_nat k]).
    assert (E' : forall i k, (i < degree)%nat -> (k < degree)%nat ->
      psum (fun j => omul (tri (Z.of_nat k) (Z.of_nat j)) (V i j)) degree = omul (xs i) (V i k)).
    { intros i k Hi Hk. assert (X1 := HE (Z.of_nat i) ltac:(lia) (Z.of_nat k) ltac:(lia)). unfold n in X1. rewrite (zsum_psum HF) in X1.
      unfold xs, V. rewrite <- X1. apply psum_ext. intros j Hj. f_equal. unfold from_lower, mx, a.
      destruct (Z.of_nat j <=? Z.of_nat k); auto. rewrite !(tri_rec HF) by lia. apply rec_sym. }
    assert (RW : forall i j, (i < degree)%nat -> (j < degree)%nat -> psum (fun l => omul (V i l) (V j l)) degree = if Nat.eqb i j then o1 else o0).
    { intros i j Hi Hj. assert (X1 := HO1 (Z.of_nat i) (Z.of_nat j) ltac:(lia) ltac:(lia)). unfold mmul, n in X1. rewrite (zsum_psum HF) in X1.
      unfold V. unfold trn, mx, ident in X1. rewrite X1. destruct (Nat.eqb_spec i j), (Z.eqb_spec (Z.of_nat i) (Z.of_nat j)); auto; lia. }
    assert (CL : forall j k, (j < degree)%nat -> (k < degree)%nat -> psum (fun i => omul (V i j) (V i k)) degree = if Nat.eqb j k then o1 else o0).
    { intros i j Hi Hj. assert (X1 := HO2 (Z.of_nat i) (Z.of_nat j) ltac:(lia) ltac:(lia)). unfold mmul, n in X1. rewrite (zsum_psum HF) in X1.
      unfold V. unfold trn, mx, ident in X1. rewrite X1. destruct (Nat.eqb_spec i j), (Z.eqb_spec (Z.of_nat i) (Z.of_nat j)); auto; lia. }
    assert (Hd1 : (1 <= degree)%nat) by lia.
    assert (Root : forall i, (i < degree)%nat -> laguerre degree (xs i) = o0) by (intros; apply (ev_root HF degree Hd1 V xs); auto).
    assert (Ne : forall i, (i < degree)%nat -> laguerre (degree - 1) (xs i) <> o0 /\ psum (fun k => laguerre k (xs i)) degree <> o0)
      by (intros; apply (val_ne HF degree Hd1 V xs); auto).
    assert (Inx : forall t, In t x -> exists i, (i < degree)%nat /\ t = xs i).
    { intros t Ht. apply in_map_iff in Ht as (i & <- & Hi). apply in_seq in Hi. exists i. split; [lia|auto]. }
    rewrite (value_ok HF) by (intros Q; apply (f_equal (@length _)) in Q; rewrite last1_len in Q; discriminate). cbn [bind].
    destruct (der_last HF degree Hd1) as (dc & ED & NE & SD). rewrite ED. cbn [bind].
    rewrite (value_ok HF) by auto. cbn [bind]. rewrite vop_map. cbn [bind].
    rewrite vop_id_map. cbn [bind].
    rewrite (map_ext_in _ (fun t => t) x), map_id.
    2:{ intros t Ht. destruct (Inx t Ht) as (i & Hi & ->). rewrite (last1_series HF), (Root i Hi), SD.
        rewrite (div_eq HF o0 _ o0).
        - apply (sub_0 HF).
        - apply (opp_ne HF). apply (Ne i Hi).
        - symmetry. apply (mul_0 HF). }
    rewrite tail_last by lia. cbn [bind].
    rewrite (value_ok HF) by (intros Q; apply (f_equal (@length _)) in Q; rewrite last1_len in Q; discriminate). cbn [bind].
    set (fm := map (series (last1 (degree - 1))) x). set (df := map (series dc) x).
    set (M1 := maxabs fm). set (M2 := maxabs df).
    assert (N1 : M1 <> o0).
    { apply HM. apply Exists_exists. exists (series (last1 (degree - 1)) (xs 0%nat)). split.
      - apply in_map, in_map, in_seq. lia.
      - rewrite (last1_series HF). apply Ne. lia. }
    assert (N2 : M2 <> o0).
    { apply HM. apply Exists_exists. exists (series dc (xs 0%nat)). split.
      - apply in_map, in_map, in_seq. lia.
      - rewrite SD. apply (opp_ne HF), Ne. lia. }
    unfold vscal. unfold fm, df. rewrite !map_map, vop_map. cbn [bind]. rewrite !map_map. unfold x. rewrite !map_map.
    set (g := fun i => odiv o1 (omul (odiv (series (last1 (degree - 1)) (xs i)) M1) (odiv (series dc (xs i)) M2))).
    change (map (fun i => odiv o1 (omul (odiv (series (last1 (degree - 1)) (xs i)) M1) (odiv (series dc (xs i)) M2))) (seq 0 degree))
      with (map g (seq 0 degree)).
    rewrite fold_psum.
    set (K := oopp (omul (num degree) (omul M1 M2))).
    assert (NK : K <> o0) by (apply (opp_ne HF), (mul_ne HF); [apply (num_ne HF); lia|apply (mul_ne HF); auto]).
    assert (G : forall i, (i < degree)%nat -> g i = omul K (wt V i)).
    { intros i Hi. unfold g. rewrite (last1_series HF), SD. destruct (Ne i Hi) as (Na & Nb).
      apply (weight_eq HF); auto. apply (wt_eq HF degree Hd1 V xs); auto. }
    assert (SG : psum g degree = K).
    { rewrite (psum_ext _ (fun i => omul K (wt V i))) by auto. rewrite (psum_mul HF).
      assert (Q := quad_moment HF degree Hd1 V xs E' RW CL 0 ltac:(lia)). simpl in Q.
      rewrite (psum_ext (wt V) (fun i => omul (wt V i) o1)), Q by (intros; symmetry; apply (mul_1 HF)). apply (mul_10 HF). }
    rewrite SG.
    match goal with |- context [Ok (?q, ?r, h3)] => set (xl := q); set (wl := r) end.
    assert (WL : forall i, (i < degree)%nat -> nth i wl o0 = wt V i).
    { intros i Hi. unfold wl. rewrite (nth_indep _ o0 (odiv (g 0%nat) K)) by (rewrite map_length, seq_length; lia).
      rewrite (map_nth (fun i => odiv (g i) K)), seq_nth by lia. cbn [Nat.add]. rewrite G by auto.
      apply (div_eq HF); auto. apply (mul_c HF). }
    assert (XL : forall i, (i < degree)%nat -> nth i xl o0 = xs i).
    { intros i Hi. unfold xl. rewrite (nth_indep _ o0 (xs 0%nat)) by (rewrite map_length, seq_length; lia).
      rewrite map_nth, seq_nth by lia. reflexivity. }
    exists xl, wl, h3. split; [reflexivity|]. split; [unfold xl; now rewrite map_length, seq_length|].
    split; [unfold wl; now rewrite map_length, seq_length|]. split; [|split; [|split; [|split]]].
    + intros p Hp. unfold quadrature. replace (length xl) with degree by (unfold xl; now rewrite map_length, seq_length).
      rewrite (psum_ext _ (fun i => psum (fun k => omul (nth k p o0) (omul (wt V i) (pow (xs i) k))) (length p))).
      2:{ intros i Hi. rewrite WL, XL by auto. unfold poly. rewrite <- (psum_mul HF). apply psum_ext. intros. apply (mul_swap HF). }
      rewrite (psum_swap HF). unfold integral. apply psum_ext. intros k Hk. rewrite (psum_mul HF). f_equal.
      apply (quad_moment HF degree Hd1 V xs E' RW CL). lia.
    + intros t Ht. destruct (Inx t Ht) as (i & Hi & ->). apply Root. auto.
    + unfold xl. apply NoDup_nth with (d := o0). rewrite map_length, seq_length. intros i j Hi Hj. fold xl. rewrite !XL by auto.
      apply (ev_distinct HF degree Hd1 V xs); auto.
    + intros k Hk. rewrite !XL by lia. unfold xs. rewrite Nat2Z.inj_succ. apply HL. lia.
    + intros z Hz. rewrite F3.
      * unfold h2. rewrite alloc_buffer_other by lia. apply F1. lia.
      * intros (idx & Hi & ->). change (ddims A) with [n; n] in Hi. apply inb_2 in Hi as (i & j & -> & Hi & Hj). rewrite AA in Hz. assert (i * n <= (n - 1) * n) by (apply Z.mul_le_mono_nonneg_r; lia). assert (0 <= i * n) by (apply Z.mul_nonneg_nonneg; lia). lia.
      * intros (idx & Hi & ->). change (ddims X) with [n] in Hi. apply inb_1 in Hi as (i & -> & Hi). rewrite AX in Hz. lia.
Qed.

(** Degree 0 is refused. *)
Theorem C123_degree_0 : forall (O : Ops) (L : lapack) maxabs base (h : heap (car O)), gauss_laguerre L maxabs base 0 h = Throw.
Proof. reflexivity. Qed.
(** ** A case: the two-point rule over the real numbers *)
Definition ROps : Ops := mkOps R 0%R 1%R Rplus Rmult Rminus Ropp Rdiv (fun x y => if Req_EM_T x y then true else false).
Lemma ROps_field0 : is_field0 ROps.
Proof.
  split.
  - split; [exact RTheory|]. intros x y. cbn. destruct (Req_EM_T x y); split; congruence.
  - intros a b Hb. cbn in *. field. exact Hb.
  - intros n. assert (H : forall k, @num ROps k = INR k). { induction k as [|k IH]; [reflexivity|]. rewrite S_INR. cbn [num]. rewrite IH. cbn. lra. }
    rewrite H. apply not_0_INR. discriminate.
  - intros a b H. cbn in *. now apply Rmult_integral.
Qed.
Definition two_lt (x y : R) : bool := if Rlt_dec x y then true else false.
Definition two_max (v : list R) : R := fold_right (fun x m => Rmax (Rabs x) m) 0%R v.
Definition two_syev : lapack (O := ROps) :=
  let s := sqrt 2 in
  mkLapack (O := ROps) (fun _ _ A => (0, A, [])) (fun _ A _ => (0, A)) (fun _ _ A B => (0, A, B))
    (fun _ _ => (0, (fun i k => if k =? 0 then (if i =? 0 then sqrt ((2 + s) / 4) else sqrt ((2 + s) / 4) * (s - 1))%R
                                else (if i =? 0 then sqrt ((2 - s) / 4) else sqrt ((2 - s) / 4) * (- 1 - s))%R),
                    fun k => if k =? 0 then (2 - s)%R else (2 + s)%R))
    (fun _ _ A => (0, A, (fun _ => 0%R), A, A)) (fun _ _ A => (0, A, (fun _ => 0%R), A, A, (fun _ => 0%R)))
    (fun _ _ A => (0, A, (fun _ => 0%R))) (fun _ _ _ A _ => (0, A)) (fun _ A => (0, A, (fun _ => 0%R), (fun _ => 0%R), A))
    (fun _ _ A _ _ => (0, A, 0%R)) (fun _ A => (0, A, (fun _ => 0%R), A, A)).

Ltac toR := match goal with |- ?x = ?y => change (@eq R x y) end.
Example C123_case :
  (forall M, agree (O := ROps) 2 2 M (upper (recurrence (O := ROps))) -> syev_contract (O := ROps) two_lt two_syev 2 M /\ fst (fst (x_syev two_syev 2 M)) = 0) /\
  (forall v : list R, Exists (fun x => x <> 0%R) v -> two_max v <> 0%R) /\
  exists x w h', gauss_laguerre (O := ROps) two_syev two_max 0 2 (fun _ => None) = Ok (x, w, h') /\
    quadrature (O := ROps) x w (fun t => t * t * t)%R = 6%R.
Proof.
  assert (S2 : (sqrt 2 * sqrt 2 = 2)%R) by (apply sqrt_sqrt; lra).
  assert (S0 : (0 <= sqrt 2)%R) by apply sqrt_pos. assert (S1 : (sqrt 2 < 2)%R) by nra.
  assert (C1 : forall M, agree (O := ROps) 2 2 M (upper (recurrence (O := ROps))) -> syev_contract (O := ROps) two_lt two_syev 2 M /\ fst (fst (x_syev two_syev 2 M)) = 0).
  { intros M HM. split; [|reflexivity]. unfold syev_contract. cbn [x_syev two_syev].
    split; [lia|]. intros _.
    assert (M00 : M 0 0 = 1%R) by (transitivity (1 + 0)%R; [apply (HM 0 0); lia|toR; lra]).
    assert (M01 : M 0 1 = (-1)%R) by (transitivity (- (1 + 0))%R; [apply (HM 0 1); lia|toR; lra]).
    assert (M11 : M 1 1 = 3%R) by (transitivity (1 + (1 + (1 + 0)))%R; [apply (HM 1 1); lia|toR; lra]).
    set (s := sqrt 2) in *.
    assert (A2 : (sqrt ((2 + s) / 4) * sqrt ((2 + s) / 4) = (2 + s) / 4)%R) by (apply sqrt_sqrt; lra).
    assert (B2 : (sqrt ((2 - s) / 4) * sqrt ((2 - s) / 4) = (2 - s) / 4)%R) by (apply sqrt_sqrt; lra).
    set (a := sqrt ((2 + s) / 4)) in *. set (b := sqrt ((2 - s) / 4)) in *.
    assert (A3 : (a * a * s = (2 + s) / 4 * s)%R) by (rewrite A2; reflexivity).
    assert (A4 : (a * a * s * s = (2 + s) / 4 * 2)%R) by (rewrite Rmult_assoc, S2, A2; reflexivity).
    assert (B3 : (b * b * s = (2 - s) / 4 * s)%R) by (rewrite B2; reflexivity).
    assert (B4 : (b * b * s * s = (2 - s) / 4 * 2)%R) by (rewrite Rmult_assoc, S2, B2; reflexivity).
    assert (AB : (a * b * s * s = a * b * 2)%R) by (rewrite Rmult_assoc, S2; reflexivity).
    assert (AS : (a * s * s = a * 2)%R) by (rewrite Rmult_assoc, S2; reflexivity).
    assert (BS : (b * s * s = b * 2)%R) by (rewrite Rmult_assoc, S2; reflexivity).
    clearbody a b. assert (S3 : (s * s = 2)%R) by exact S2. clearbody s.
    assert (TWO : forall i, 0 <= i < 2 -> i = 0 \/ i = 1) by (intros; lia).
    split; [split; intros i j Hi Hj|split].
    - destruct (TWO i Hi) as [-> | ->], (TWO j Hj) as [-> | ->]; unfold mmul, trn, ident; unfold zsum; change (zrange 2) with [0; 1]; unfold lsum; cbn; toR; lra.
    - destruct (TWO i Hi) as [-> | ->], (TWO j Hj) as [-> | ->]; unfold mmul, trn, ident; unfold zsum; change (zrange 2) with [0; 1]; unfold lsum; cbn; toR; lra.
    - intros i k Hi Hk. destruct (TWO i Hi) as [-> | ->], (TWO k Hk) as [-> | ->]; unfold mmul, from_upper; unfold zsum; change (zrange 2) with [0; 1]; unfold lsum; cbn; rewrite ?M00, ?M01, ?M11; toR; lra.
    - intros k Hk. replace k with 0 by lia. change (two_lt (2 + s) (2 - s) = false). unfold two_lt. destruct (Rlt_dec (2 + s) (2 - s)); [lra|reflexivity]. }
  assert (C2 : forall v : list R, Exists (fun x => x <> 0%R) v -> two_max v <> 0%R).
  { assert (P : forall v, (0 <= two_max v)%R).
    { induction v as [|x v IH]; cbn; [lra|]. eapply Rle_trans; [exact IH|]. apply Rmax_r. }
    induction 1 as [x v H|x v H IH]; cbn.
    - pose proof (Rmax_l (Rabs x) (two_max v)). pose proof (Rabs_pos_lt x H). fold (two_max v). lra.
    - fold (two_max v). pose proof (Rmax_r (Rabs x) (two_max v)). pose proof (P v). lra. }
  split; [exact C1|]. split; [exact C2|].
  destruct (C123_quadrature_partial ROps ROps_field0 two_lt two_syev two_max 0 2 (fun _ => None)) as (x & w & h' & E & _ & _ & Q & _); [lia|exact C1|exact C2|].
  exists x, w, h'. split; [exact E|].
  assert (Q' := Q [0%R; 0%R; 0%R; 1%R] ltac:(cbn; lia)).
  transitivity (integral (O := ROps) [0%R; 0%R; 0%R; 1%R]).
  - rewrite <- Q'. unfold quadrature. apply psum_ext. intros i _. f_equal. unfold poly. cbn. toR. lra.
  - unfold integral. cbn. toR. lra.
Qed.
Print Assumptions C123_quadrature_partial.
Print Assumptions C123_degree_0.
