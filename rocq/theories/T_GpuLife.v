(** * T_GpuLife: sessions on the GPU (C127). *)
From Coq Require Import List Bool Arith Lia.
From Verif Require Import M_GpuLife S_GpuLife.
Import ListNotations.

Lemma put_end : forall A (x y : A) l r, put (length l) x (l ++ y :: r) = l ++ x :: r.
Proof. induction l as [|a l IH]; intros; cbn; [reflexivity|]. now rewrite IH. Qed.
Lemma put_length : forall A (x : A) l i, length (put i x l) = length l.
Proof. induction l as [|a l IH]; intros [|i]; cbn; auto. Qed.
Lemma put_nth : forall A (x : A) l i j, i < length l -> nth_error (put i x l) j = if Nat.eqb j i then Some x else nth_error l j.
Proof. induction l as [|a l IH]; intros [|i] [|j] H; cbn in *; try lia; auto. rewrite IH by lia. reflexivity. Qed.
Lemma seq_snoc : forall b k, seq b (S k) = seq b k ++ [b + k].
Proof. intros. rewrite <- Nat.add_1_r, seq_app. reflexivity. Qed.
Lemma put_filled : forall b k m, put k (Some (b + k)) (map Some (seq b k) ++ repeat None (S m)) = map Some (seq b (S k)) ++ repeat None m.
Proof.
  intros. assert (L : length (map (@Some nat) (seq b k)) = k) by now rewrite map_length, seq_length.
  rewrite <- L at 1. cbn [repeat]. rewrite put_end. rewrite seq_snoc, map_app, <- app_assoc. reflexivity.
Qed.

Section NoErrors.
  Variable fail : nat -> bool.
  Hypothesis HF : forall k, fail k = false.

  Lemma hip_ok : forall s, hip fail s = (Ret tt, mkGs (live s) (next s) (S (calls s)) (bound s) (pool s) (streams s) (blas s) (solver s) (skip s) (locked s)).
  Proof. intros. unfold hip. now rewrite HF. Qed.
  Lemma create_ok : forall s, create fail s = (Ret (next s), mkGs (next s :: live s) (S (next s)) (S (calls s)) (bound s) (pool s) (streams s) (blas s) (solver s) (skip s) (locked s)).
  Proof. intros. unfold create, andthen. now rewrite hip_ok. Qed.
  Lemma bind_ok : forall i st s, bind_stream fail i st s = (Ret tt, mkGs (live s) (next s) (S (calls s)) ((i, st) :: bound s) (pool s) (streams s) (blas s) (solver s) (skip s) (locked s)).
  Proof. intros. unfold bind_stream, andthen. now rewrite hip_ok. Qed.

  Lemma streams_loop : forall b m k s, streams s = Some (map Some (seq b k) ++ repeat None m) -> next s = b + k ->
    each (fun i => c <- create fail ;; v <- get streams ;; set_streams (option_map (put i (Some c)) v)) (seq k m) s =
    (Ret tt, mkGs (rev (seq (b + k) m) ++ live s) (b + k + m) (calls s + m) (bound s) (pool s) (Some (map Some (seq b (k + m)))) (blas s) (solver s) (skip s) (locked s)).
  Proof.
    intros b. induction m as [|m IH]; intros k s Hv Hn.
    - cbn. rewrite app_nil_r in Hv. rewrite !Nat.add_0_r. destruct s; cbn in *. unfold ret. now subst.
    - cbn [seq each]. unfold andthen at 1. unfold andthen at 1. rewrite create_ok. unfold andthen at 1. unfold get at 1. unfold set_streams at 1. cbn [streams live next calls bound pool blas solver skip locked].
      rewrite Hv, Hn. cbn [option_map]. rewrite put_filled. rewrite IH by (cbn [streams next]; auto; lia).
      cbn [streams live next calls bound pool blas solver skip locked]. f_equal. f_equal; try lia.
      + replace (b + S k) with (S (b + k)) by lia. cbn [seq rev]. now rewrite <- app_assoc.
      + f_equal. f_equal. f_equal. lia.
  Qed.
  Lemma blas_loop : forall ss b m k s, streams s = Some (map Some ss) -> k + m <= length ss ->
    blas s = Some (map Some (seq b k) ++ repeat None m) -> next s = b + k ->
    each (fun i => c <- create fail ;; v <- get blas ;; set_blas (option_map (put i (Some c)) v) ;;; q <- get streams ;; st <- at_ q i ;; bind_stream fail c st) (seq k m) s =
    (Ret tt, mkGs (rev (seq (b + k) m) ++ live s) (b + k + m) (calls s + 2 * m) (rev (map (fun i => (b + i, nth_error ss i)) (seq k m)) ++ bound s)
      (pool s) (streams s) (Some (map Some (seq b (k + m)))) (solver s) (skip s) (locked s)).
  Proof.
    intros ss b. induction m as [|m IH]; intros k s Hs Hl Hv Hn.
    - cbn. rewrite app_nil_r in Hv. rewrite !Nat.add_0_r. destruct s; cbn in *. unfold ret. now subst.
    - cbn [seq each]. unfold andthen at 1. unfold andthen at 1. rewrite create_ok. unfold andthen at 1. unfold get at 1. unfold andthen at 1. unfold set_blas at 1.
      unfold andthen at 1. unfold get at 1. unfold andthen at 1. unfold at_ at 1. cbn [streams live next calls bound pool blas solver skip locked].
      rewrite Hs. rewrite nth_error_map. destruct (nth_error ss k) as [x|] eqn:Ex; [|apply nth_error_None in Ex; lia]. cbn [option_map]. rewrite bind_ok.
      cbn [streams live next calls bound pool blas solver skip locked]. rewrite Hv, Hn. cbn [option_map]. rewrite put_filled.
      rewrite IH by (cbn [streams blas next]; auto; lia).
      cbn [streams live next calls bound pool blas solver skip locked]. f_equal. f_equal; try lia.
      + replace (b + S k) with (S (b + k)) by lia. cbn [seq rev]. now rewrite <- app_assoc.
      + cbn [map rev]. rewrite <- app_assoc. cbn [app]. now rewrite Ex.
      + f_equal. f_equal. f_equal. lia.
  Qed.
  Lemma solver_loop : forall ss b m k s, streams s = Some (map Some ss) -> k + m <= length ss ->
    solver s = Some (map Some (seq b k) ++ repeat None m) -> next s = b + k ->
    each (fun i => c <- create fail ;; v <- get solver ;; set_solver (option_map (put i (Some c)) v) ;;; q <- get streams ;; st <- at_ q i ;; bind_stream fail c st) (seq k m) s =
    (Ret tt, mkGs (rev (seq (b + k) m) ++ live s) (b + k + m) (calls s + 2 * m) (rev (map (fun i => (b + i, nth_error ss i)) (seq k m)) ++ bound s)
      (pool s) (streams s) (blas s) (Some (map Some (seq b (k + m)))) (skip s) (locked s)).
  Proof.
    intros ss b. induction m as [|m IH]; intros k s Hs Hl Hv Hn.
    - cbn. rewrite app_nil_r in Hv. rewrite !Nat.add_0_r. destruct s; cbn in *. unfold ret. now subst.
    - cbn [seq each]. unfold andthen at 1. unfold andthen at 1. rewrite create_ok. unfold andthen at 1. unfold get at 1. unfold andthen at 1. unfold set_solver at 1.
      unfold andthen at 1. unfold get at 1. unfold andthen at 1. unfold at_ at 1. cbn [streams live next calls bound pool blas solver skip locked].
      rewrite Hs. rewrite nth_error_map. destruct (nth_error ss k) as [x|] eqn:Ex; [|apply nth_error_None in Ex; lia]. cbn [option_map]. rewrite bind_ok.
      cbn [streams live next calls bound pool blas solver skip locked]. rewrite Hv, Hn. cbn [option_map]. rewrite put_filled.
      rewrite IH by (cbn [streams solver next]; auto; lia).
      cbn [streams live next calls bound pool blas solver skip locked]. f_equal. f_equal; try lia.
      + replace (b + S k) with (S (b + k)) by lia. cbn [seq rev]. now rewrite <- app_assoc.
      + cbn [map rev]. rewrite <- app_assoc. cbn [app]. now rewrite Ex.
      + f_equal. f_equal. f_equal. lia.
  Qed.

  Lemma find_key : forall b (g : nat -> option nat) m k t rest, k <= t < k + m ->
    find (fun q => Nat.eqb (fst q) (b + t)) (rev (map (fun i => (b + i, g i)) (seq k m)) ++ rest) = Some (b + t, g t).
  Proof.
    intros b g. induction m as [|m IH]; intros k t rest H; [lia|]. rewrite seq_snoc, map_app, rev_app_distr. cbn [map rev app find fst].
    destruct (Nat.eqb_spec (b + (k + m)) (b + t)); [do 2 f_equal; [lia|f_equal; lia]|]. apply IH. lia.
  Qed.
  Lemma find_none : forall b (g : nat -> option nat) m y rest, (forall i, i < m -> b + i <> y) ->
    find (fun q => Nat.eqb (fst q) y) (rev (map (fun i => (b + i, g i)) (seq 0 m)) ++ rest) = find (fun q => Nat.eqb (fst q) y) rest.
  Proof.
    intros b g. induction m as [|m IH]; intros y rest H; [reflexivity|]. rewrite seq_snoc, map_app, rev_app_distr. cbn [map rev app find fst Nat.add].
    destruct (Nat.eqb_spec (b + m) y) as [E|_]; [exfalso; apply (H m); auto; lia|]. apply IH. intros; apply H; lia.
  Qed.
  Lemma nth_seq : forall b n t x, nth_error (seq b n) t = Some x -> t < n /\ x = b + t.
  Proof.
    intros b n t x H. assert (L : t < n) by (rewrite <- (seq_length n b); apply nth_error_Some; congruence). split; auto.
    apply (nth_error_nth _ _ 0) in H. rewrite seq_nth in H by auto. auto.
  Qed.

  Lemma initialize_ok : forall n s, nothing_left s ->
    exists s', initialize fail n s = (Ret tt, s') /\ equipped n s' /\ skip s' = match skip s with None => Some (repeat false n) | Some v => Some v end.
  Proof.
    intros n [lv nx cl bd po st bl so sk lo] (H1 & H2 & H3 & H4 & H5). cbn in H1, H2, H3, H4, H5. subst.
    unfold initialize. unfold andthen at 1. rewrite hip_ok. unfold andthen at 1. rewrite hip_ok. unfold andthen at 1. rewrite create_ok. unfold andthen at 1. unfold set_pool at 1.
    unfold andthen at 1. unfold get at 1. cbn [streams live next calls bound pool blas solver skip locked].
    unfold andthen at 1. unfold andthen at 1. unfold set_streams at 1. cbn [streams live next calls bound pool blas solver skip locked].
    rewrite (streams_loop (S nx) n 0) by (cbn [streams next]; auto). cbn [streams live next calls bound pool blas solver skip locked].
    unfold andthen at 1. unfold get at 1. cbn [streams live next calls bound pool blas solver skip locked].
    unfold andthen at 1. unfold andthen at 1. unfold set_blas at 1. cbn [streams live next calls bound pool blas solver skip locked].
    rewrite (blas_loop (seq (S nx) n) (S nx + 0 + n) n 0) by (cbn [streams blas next]; auto; rewrite ?seq_length; lia). cbn [streams live next calls bound pool blas solver skip locked].
    unfold andthen at 1. unfold get at 1. cbn [streams live next calls bound pool blas solver skip locked].
    unfold andthen at 1. unfold andthen at 1. unfold set_solver at 1. cbn [streams live next calls bound pool blas solver skip locked].
    rewrite (solver_loop (seq (S nx) n) (S nx + 0 + n + 0 + n) n 0) by (cbn [streams solver next]; auto; rewrite ?seq_length; lia). cbn [streams live next calls bound pool blas solver skip locked].
    unfold andthen at 1. unfold get at 1. cbn [streams live next calls bound pool blas solver skip locked]. rewrite !Nat.add_0_l, !Nat.add_0_r.
    match goal with |- context [mkGs ?a ?b ?c ?d ?e ?f ?g ?hh sk false] =>
      assert (EQ : forall sk', equipped n (mkGs a b c d e f g hh sk' false)) end.
    { intros sk'. exists nx, (seq (S nx) n), (seq (S nx + n) n), (seq (S nx + n + n) n). cbn [streams live next calls bound pool blas solver skip locked].
      assert (SQ : nx :: seq (S nx) n ++ seq (S nx + n) n ++ seq (S nx + n + n) n = seq nx (S (n + (n + n)))).
      { cbn [seq]. f_equal. rewrite !seq_app. reflexivity. }
      repeat split; auto; try (now rewrite seq_length).
      - rewrite SQ. apply seq_NoDup.
      - intros Hi. rewrite !in_app_iff in Hi. cbn [In]. rewrite !in_app_iff. rewrite <- !in_rev in Hi. cbn [In] in Hi. tauto.
      - intros Hi. rewrite !in_app_iff. cbn [In] in *. rewrite !in_app_iff in Hi. rewrite <- !in_rev. tauto.
      - apply nth_seq in H0 as (T & ->). apply nth_seq in H as (_ & ->). rewrite find_none by lia. rewrite find_key by lia.
        do 2 f_equal. rewrite (nth_error_nth' _ 0) by (rewrite seq_length; auto). now rewrite seq_nth.
      - apply nth_seq in H1 as (T & ->). apply nth_seq in H as (_ & ->). rewrite find_key by lia.
        do 2 f_equal. rewrite (nth_error_nth' _ 0) by (rewrite seq_length; auto). now rewrite seq_nth. }
    destruct sk as [v|]; eexists; (split; [reflexivity|]); (split; [apply EQ|reflexivity]).
  Qed.

  Lemma destroy_all : forall l s, NoDup l -> incl l (live s) -> exists lv c,
    each (destroy fail) (map Some l) s = (Ret tt, mkGs lv (next s) c (bound s) (pool s) (streams s) (blas s) (solver s) (skip s) (locked s)) /\
    (forall i, In i lv <-> In i (live s) /\ ~ In i l).
  Proof.
    induction l as [|x l IH]; intros s HN HI.
    - exists (live s), (calls s). split; [destruct s; reflexivity|]. intros i. cbn. tauto.
    - inversion HN; subst. cbn [map each]. unfold andthen at 1. unfold destroy at 1.
      assert (E : existsb (Nat.eqb x) (live s) = true) by (apply existsb_exists; exists x; split; [apply HI; now left|apply Nat.eqb_refl]). rewrite E.
      unfold andthen at 1. rewrite hip_ok. cbn [streams live next calls bound pool blas solver skip locked].
      match goal with |- context [each _ _ ?s1] => destruct (IH s1) as (lv & c & E2 & L) end; auto.
      { cbn [live]. intros i Hi. apply filter_In. split; [apply HI; now right|]. destruct (Nat.eqb_spec x i); subst; auto. }
      exists lv, c. rewrite E2. cbn [streams live next calls bound pool blas solver skip locked]. split; [reflexivity|].
      intros i. rewrite L. cbn [live In]. rewrite filter_In. destruct (Nat.eqb_spec x i); subst; cbn; intuition congruence.
  Qed.
  Lemma finalize_ok : forall n s, equipped n s -> exists s', finalize fail s = (Ret tt, s') /\ nothing_left s' /\ skip s' = skip s.
  Proof.
    intros n s (p & ss & bs & vs & Hp & Hs & Hb & Hv & L1 & L2 & L3 & ND & LV & LK & _).
    assert (NB : NoDup (ss ++ bs ++ vs) /\ ~ In p (ss ++ bs ++ vs)) by (inversion ND; auto). destruct NB as (NB & Np).
    assert (SP : forall (a b : list nat), NoDup (a ++ b) -> NoDup a /\ NoDup b /\ (forall i, In i a -> ~ In i b)).
    { induction a as [|x a IH]; intros b H; cbn in *; [repeat split; auto; constructor|]. inversion H; subst. destruct (IH b) as (A1 & A2 & A3); auto.
      rewrite in_app_iff in *. repeat split; auto; [constructor; tauto|]. intros i [<-|Hi]; [tauto|auto]. }
    destruct (SP _ _ NB) as (Nss & Nbv & D1). destruct (SP _ _ Nbv) as (Nbs & Nvs & D2).
    assert (LI : forall i, In i (live s) <-> i = p \/ In i ss \/ In i bs \/ In i vs).
    { intros i. rewrite LV. cbn [In]. rewrite !in_app_iff. intuition congruence. }
    unfold finalize. unfold andthen at 1. unfold get at 1. rewrite Hb. unfold andthen at 1. unfold andthen at 1.
    destruct (destroy_all bs s Nbs) as (lv1 & c1 & E1 & M1). { intros i Hi. apply LI. tauto. } rewrite E1. unfold set_blas at 1. cbn [streams live next calls bound pool blas solver skip locked].
    unfold andthen at 1. unfold get at 1. cbn [streams live next calls bound pool blas solver skip locked]. rewrite Hv. unfold andthen at 1. unfold andthen at 1.
    match goal with |- context [each _ (map Some vs) ?s1] => destruct (destroy_all vs s1 Nvs) as (lv2 & c2 & E2 & M2) end.
    { cbn [live]. intros i Hi. apply M1. split; [apply LI; tauto|]. intros X. apply (D2 i); auto. }
    rewrite E2. unfold set_solver at 1. cbn [streams live next calls bound pool blas solver skip locked] in *.
    unfold andthen at 1. unfold get at 1. cbn [streams live next calls bound pool blas solver skip locked]. rewrite Hs. unfold andthen at 1. unfold andthen at 1.
    match goal with |- context [each _ (map Some ss) ?s1] => destruct (destroy_all ss s1 Nss) as (lv3 & c3 & E3 & M3) end.
    { cbn [live]. intros i Hi. apply M2. rewrite M1. assert (X := D1 i Hi). rewrite in_app_iff in X. rewrite LI. tauto. }
    rewrite E3. unfold set_streams at 1. cbn [streams live next calls bound pool blas solver skip locked] in *.
    unfold andthen at 1. unfold get at 1. cbn [streams live next calls bound pool blas solver skip locked]. rewrite Hp.
    assert (LP : forall i, In i lv3 <-> i = p).
    { intros i. rewrite M3, M2, M1, LI. split; [tauto|]. intros ->. rewrite !in_app_iff in Np. tauto. }
    unfold destroy. cbn [live]. assert (E : existsb (Nat.eqb p) lv3 = true) by (apply existsb_exists; exists p; split; [now apply LP|apply Nat.eqb_refl]). rewrite E.
    unfold andthen at 1. rewrite hip_ok. cbn [streams live next calls bound pool blas solver skip locked]. eexists. split; [reflexivity|]. split; [|reflexivity].
    repeat split; cbn [streams live next calls bound pool blas solver skip locked]; auto.
    destruct (filter (fun j => negb (Nat.eqb p j)) lv3) as [|x l] eqn:Ef; auto. exfalso.
    assert (X : In x (filter (fun j => negb (Nat.eqb p j)) lv3)) by (rewrite Ef; now left). apply filter_In in X as (X1 & X2). apply LP in X1. subst. now rewrite Nat.eqb_refl in X2.
  Qed.

  Definition flags (v : list bool) (pend : nat -> bool) : Prop := forall t b, nth_error v t = Some b -> b = pend t.
  Lemma equipped_same : forall n s s', equipped n s -> live s' = live s -> bound s' = bound s -> pool s' = pool s -> streams s' = streams s ->
    blas s' = blas s -> solver s' = solver s -> locked s' = locked s -> equipped n s'.
  Proof. intros n s s' H E1 E2 E3 E4 E5 E6 E7. unfold equipped in *. rewrite E1, E2, E3, E4, E5, E6, E7. exact H. Qed.
  Lemma run_uses : forall n os s v pend, equipped n s -> skip s = Some v -> flags v pend -> n <= length v -> uses n os ->
    exists s' v', g_run fail os s = (Ret (skipped pend os), s') /\ equipped n s' /\ skip s' = Some v' /\ flags v' (pending pend os) /\ length v' = length v.
  Proof.
    intros n. induction os as [|o os IH]; intros s v pend HE HS HP HL HU; [exists s, v; repeat split; auto|]. inversion HU as [|? ? Ho HU']; subst.
    destruct o as [m| |t|t m]; try contradiction; cbn [g_run g_op skipped pending].
    - assert (Lt : t < length v) by lia. unfold andthen at 1. unfold andthen at 1. unfold skip_next_wait. unfold andthen at 1. unfold get at 1. rewrite HS. unfold andthen at 1. unfold at_ at 1.
      destruct (nth_error v t) as [b|] eqn:Eb; [|apply nth_error_None in Eb; lia]. unfold set_skip at 1. cbn [option_map]. unfold ret at 1.
      unfold andthen at 1.
      match goal with |- context [g_run fail os ?s1] => destruct (IH s1 (put t true v) (fun u => Nat.eqb u t || pend u)) as (s' & v' & E & A & B & C & D) end; [eapply equipped_same; [exact HE|reflexivity..]|reflexivity| | |exact HU'|].
      + intros u c Hc. rewrite put_nth in Hc by auto. destruct (Nat.eqb u t); [cbn; congruence|]. cbn. now apply HP.
      + rewrite put_length. lia.
      + rewrite E. exists s', v'. split; [reflexivity|]. rewrite put_length in D. auto.
    - assert (Lt : t < length v) by lia. destruct (nth_error v t) as [b|] eqn:Eb; [|apply nth_error_None in Eb; lia]. assert (Hb := HP _ _ Eb).
      unfold andthen at 1. unfold andthen at 1. unfold stream_wait. unfold andthen at 1. unfold get at 1. rewrite HS.
      assert (EB : (if m then at_ (Some v) t else ret false) s = (Ret (m && pend t), s)).
      { destruct m; [|reflexivity]. unfold at_. rewrite Eb. cbn. now rewrite Hb. }
      unfold andthen at 1. rewrite EB. destruct (m && pend t) eqn:Emp.
      + unfold andthen at 1. unfold set_skip at 1. cbn [option_map]. unfold ret at 1 2. unfold andthen at 1.
        match goal with |- context [g_run fail os ?s1] => destruct (IH s1 (put t false v) (fun u => negb (Nat.eqb u t) && pend u)) as (s' & v' & E & A & B & C & D) end; [eapply equipped_same; [exact HE|reflexivity..]|reflexivity| | |exact HU'|].
        * intros u c Hc. rewrite put_nth in Hc by auto. destruct (Nat.eqb u t); [cbn; congruence|]. cbn. now apply HP.
        * rewrite put_length. lia.
        * rewrite E. exists s', v'. split; [reflexivity|]. rewrite put_length in D. auto.
      + assert (HE0 := HE). destruct HE0 as (p & ss & bs & vs & Hp & Hs & Hbl & Hv & L1 & L2 & L3 & ND & LV & LK & BD).
        unfold andthen at 1. unfold get_stream. unfold andthen at 1. unfold lock at 1. unfold andthen at 1. unfold get at 1. rewrite LK. unfold set_locked at 1.
        unfold andthen at 1. unfold get at 1. cbn [streams live next calls bound pool blas solver skip locked]. rewrite Hs. unfold andthen at 1. unfold set_locked at 1. unfold at_ at 1.
        rewrite nth_error_map. destruct (nth_error ss t) as [x|] eqn:Ex; [|apply nth_error_None in Ex; lia]. cbn [option_map].
        unfold andthen at 1. unfold wait_for. unfold andthen at 1. rewrite hip_ok. unfold andthen at 1. unfold lock at 1. unfold andthen at 1. unfold get at 1.
        cbn [streams live next calls bound pool blas solver skip locked]. unfold set_locked at 1. unfold andthen at 1. rewrite hip_ok. unfold andthen at 1. unfold set_locked at 1.
        unfold andthen at 1. rewrite hip_ok. rewrite hip_ok. unfold ret at 1 2. unfold andthen at 1. cbn [streams live next calls bound pool blas solver skip locked].
        match goal with |- context [g_run fail os ?s1] => destruct (IH s1 v pend) as (s' & v' & E & A & B & C & D) end; [eapply (equipped_same n s); [exact HE|cbn; auto..]|exact HS|exact HP|exact HL|exact HU'|].
        rewrite E. exists s', v'. repeat split; auto.
  Qed.
  Lemma g_run_app : forall a b s x s', g_run fail a s = (Ret x, s') ->
    g_run fail (a ++ b) s = match g_run fail b s' with (Ret y, s'') => (Ret (x ++ y), s'') | r => r end.
  Proof.
    induction a as [|o a IH]; intros b s x s' H.
    - cbn in H. inversion H; subst. cbn [app]. destruct (g_run fail b s') as [[]?]; reflexivity.
    - cbn [app g_run] in *. unfold andthen in H at 1. unfold andthen at 1. destruct (g_op fail o s) as [[y| | |] s1]; try discriminate.
      unfold andthen in H at 1. unfold andthen at 1. destruct (g_run fail a s1) as [[z| | |] s2] eqn:E; try discriminate. cbn in H. inversion H; subst.
      rewrite (IH b s1 z s' E). destruct (g_run fail b s') as [[w| | |] s3]; try reflexivity. unfold ret. now rewrite app_assoc.
  Qed.
End NoErrors.

(** C127.  initialize gives every thread a stream and handles of its own that use
    it; finalize releases everything. *)
Theorem C127_initialize : forall fail n s, (forall k, fail k = false) -> nothing_left s ->
  exists s', initialize fail n s = (Ret tt, s') /\ equipped n s'.
Proof. intros fail n s HF H. destruct (initialize_ok fail HF n s H) as (s' & E & Q & _). eauto. Qed.
Theorem C127_finalize : forall fail n s, (forall k, fail k = false) -> equipped n s ->
  exists s', finalize fail s = (Ret tt, s') /\ nothing_left s'.
Proof. intros fail n s HF H. destruct (finalize_ok fail HF n s H) as (s' & E & Q & _). eauto. Qed.

(** C127.  Any number of sessions, none with more threads than the first, each
    using up its requests to skip a wait: nothing throws, exactly the waits that
    were to be skipped are, and nothing is left. *)
Theorem C127_sessions_partial : forall fail first rest, (forall k, fail k = false) ->
  Forall (fun s => fst s <= fst first /\ uses (fst s) (snd s) /\ (forall t, pending nobody (snd s) t = false)) (first :: rest) ->
  exists s', g_run fail (concat (map program (first :: rest))) start = (Ret (concat (map (fun s => skipped nobody (snd s)) (first :: rest))), s') /\ nothing_left s'.
Proof.
  intros fail first rest HF. set (n0 := fst first).
  assert (ONE : forall n os s v, nothing_left s -> n <= n0 -> uses n os -> (forall t, pending nobody os t = false) ->
    match skip s with None => Some (repeat false n) | Some w => Some w end = Some v -> flags v nobody -> n <= length v ->
    exists s' v', g_run fail (program (n, os)) s = (Ret (skipped nobody os), s') /\ nothing_left s' /\ skip s' = Some v' /\ flags v' nobody /\ length v' = length v).
  { intros n os s v HN Hn HU HP Hv Hfl Hl. unfold program. cbn [fst snd g_run g_op]. destruct (initialize_ok fail HF n s HN) as (s1 & E1 & Q1 & K1). rewrite Hv in K1.
    unfold andthen at 1. unfold andthen at 1. rewrite E1. unfold ret at 1. unfold andthen at 1.
    destruct (run_uses fail HF n os s1 v nobody Q1 K1 Hfl Hl HU) as (s2 & v2 & E2 & Q2 & K2 & F2 & L2).
    rewrite (g_run_app fail _ _ _ _ _ E2). cbn [g_run g_op]. destruct (finalize_ok fail HF n s2 Q2) as (s3 & E3 & Q3 & K3).
    unfold andthen at 1. unfold andthen at 1. rewrite E3. cbn. rewrite app_nil_r. exists s3, v2. split; [reflexivity|]. split; auto. split; [congruence|]. split; auto.
    intros t b Hb. rewrite (F2 t b Hb). apply HP. }
  assert (ALL : forall l s v, nothing_left s -> skip s = Some v -> flags v nobody -> length v = n0 ->
    Forall (fun s => fst s <= n0 /\ uses (fst s) (snd s) /\ (forall t, pending nobody (snd s) t = false)) l ->
    exists s', g_run fail (concat (map program l)) s = (Ret (concat (map (fun s => skipped nobody (snd s)) l)), s') /\ nothing_left s').
  { induction l as [|[n os] l IH]; intros s v HN HS Hfl HL HA; [exists s; split; auto; reflexivity|]. inversion HA as [|? ? (A1 & A2 & A3) HA']; subst. cbn [fst snd] in *.
    destruct (ONE n os s v HN A1 A2 A3) as (s1 & v1 & E & Q & K & F & L1); auto; [now rewrite HS|lia|].
    cbn [map concat]. rewrite (g_run_app fail _ _ _ _ _ E). destruct (IH s1 v1) as (s' & E' & Q'); auto; [lia|]. rewrite E'. exists s'. split; auto. }
  intros HA. inversion HA as [|? ? (A1 & A2 & A3) HA']; subst.
  assert (HFL : flags (repeat false n0) nobody) by (intros t b Hb; apply nth_error_In, repeat_spec in Hb; exact Hb).
  destruct (ONE n0 (snd first) start (repeat false n0)) as (s1 & v1 & E & Q & K & F & L1); auto; [repeat split|now rewrite repeat_length|].
  replace (n0, snd first) with first in E by (unfold n0; now destruct first).
  cbn [map concat]. rewrite (g_run_app fail _ _ _ _ _ E). rewrite repeat_length in L1. destruct (ALL rest s1 v1) as (s' & E' & Q'); auto. rewrite E'. eauto.
Qed.

(** C127 fails when a request to skip is left at the end of a session: it skips a
    wait in the next one, although finalize and initialize came between. *)
Theorem C127_skip_refuted : forall fail n m t, (forall k, fail k = false) -> t < n ->
  exists s', g_run fail [GInit n; GSkip t; GFinal; GInit m; GWait t true] start = (Ret [true], s') /\ skipped nobody [GWait t true] = [false].
Proof.
  intros fail n m t HF Ht. destruct (initialize_ok fail HF n start) as (s1 & E1 & Q1 & K1); [repeat split|]. cbn [skip start] in K1.
  cbn [g_run g_op]. unfold andthen at 1. unfold andthen at 1. rewrite E1. unfold ret at 1. unfold andthen at 1.
  unfold andthen at 1. unfold andthen at 1. unfold skip_next_wait. unfold andthen at 1. unfold get at 1. rewrite K1. unfold andthen at 1. unfold at_ at 1.
  destruct (nth_error (repeat false n) t) as [b|] eqn:Eb; [|apply nth_error_None in Eb; rewrite repeat_length in Eb; lia]. unfold set_skip at 1. cbn [option_map]. unfold ret at 1. unfold andthen at 1.
  unfold andthen at 1. unfold andthen at 1.
  match goal with |- context [finalize fail ?s] => destruct (finalize_ok fail HF n s) as (s2 & E2 & Q2 & K2) end; [eapply equipped_same; [exact Q1|reflexivity..]|].
  rewrite E2. cbn [skip] in K2. unfold ret at 1. unfold andthen at 1. unfold andthen at 1. unfold andthen at 1.
  destruct (initialize_ok fail HF m s2 Q2) as (s3 & E3 & Q3 & K3). rewrite K2 in K3. rewrite E3. unfold ret at 1. unfold andthen at 1.
  unfold andthen at 1. unfold andthen at 1. unfold stream_wait. unfold andthen at 1. unfold get at 1. rewrite K3. unfold andthen at 1. unfold at_ at 1.
  rewrite put_nth by now rewrite repeat_length. rewrite Nat.eqb_refl. cbn. eexists. split; reflexivity.
Qed.
(** C127 fails for a session with more threads than the first: the waits of the
    additional threads throw. *)
Theorem C127_threads_refuted : forall fail n m t, (forall k, fail k = false) -> n <= t < m ->
  exists s', g_run fail [GInit n; GFinal; GInit m; GWait t true] start = (Exn, s').
Proof.
  intros fail n m t HF Ht. destruct (initialize_ok fail HF n start) as (s1 & E1 & Q1 & K1); [repeat split|]. cbn [skip start] in K1.
  cbn [g_run g_op]. unfold andthen at 1. unfold andthen at 1. rewrite E1. unfold ret at 1. unfold andthen at 1. unfold andthen at 1. unfold andthen at 1.
  destruct (finalize_ok fail HF n s1 Q1) as (s2 & E2 & Q2 & K2). rewrite E2. unfold ret at 1. unfold andthen at 1. unfold andthen at 1. unfold andthen at 1.
  destruct (initialize_ok fail HF m s2 Q2) as (s3 & E3 & Q3 & K3). rewrite K2, K1 in K3. rewrite E3. unfold ret at 1. unfold andthen at 1.
  unfold andthen at 1. unfold andthen at 1. unfold stream_wait. unfold andthen at 1. unfold get at 1. rewrite K3. unfold andthen at 1. unfold at_ at 1.
  assert (E : nth_error (repeat false n) t = None) by (apply nth_error_None; rewrite repeat_length; lia). rewrite E. eexists. reflexivity.
Qed.
(** C127 fails for a second initialize (the first pool is lost), for a second
    finalize (the pool is destroyed twice) and for finalize alone. *)
Theorem C127_twice_refuted :
  (exists s, g_run (fun _ => false) [GInit 2; GInit 2; GFinal] start = (Ret [], s) /\ live s = [0]) /\
  (exists s, g_run (fun _ => false) [GInit 2; GFinal; GFinal] start = (Und, s)) /\
  (forall fail, g_run fail [GFinal] start = (Exn, start)).
Proof. split; [eexists; split; [vm_compute; reflexivity|reflexivity]|]. split; [eexists; vm_compute; reflexivity|reflexivity]. Qed.
(** C127 fails when the second stream cannot be created: the first initialize
    throws, the next one returns, but thread 1 has the null stream and so have
    its handles. *)
Theorem C127_error_refuted :
  let fail k := Nat.eqb k 4 in
  exists s s', initialize fail 2 start = (Exn, s) /\ initialize fail 2 s = (Ret tt, s') /\
    streams s' = Some [Some 1; None] /\ blas s' = Some [Some 3; Some 4] /\ find (fun q => Nat.eqb (fst q) 4) (bound s') = Some (4, None) /\ ~ equipped 2 s'.
Proof.
  cbv zeta. eexists _, _. split; [vm_compute; reflexivity|]. split; [vm_compute; reflexivity|]. repeat split.
  intros (p & ss & bs & vs & _ & Hs & _). cbn in Hs. destruct ss as [|a [|b ss]]; discriminate.
Qed.
(** C127 fails when recording an event fails once: the exception leaves the mutex
    locked, and from then on every thread that asks for its stream, so every wait
    that is not skipped, never returns. *)
Theorem C127_lock_refuted : forall fail n s t, equipped n s -> t < n -> fail (calls s) = false -> fail (S (calls s)) = true ->
  exists s', stream_wait fail t false s = (Exn, s') /\ (forall u, get_stream u s' = (Stuck, s')) /\ (forall u, stream_wait fail u false s' = (Stuck, s')).
Proof.
  intros fail n s t (p & ss & bs & vs & Hp & Hs & Hbl & Hv & L1 & L2 & L3 & ND & LV & LK & BD) Ht F0 F1.
  assert (G : forall s', locked s' = true -> forall u, get_stream u s' = (Stuck, s')).
  { intros s' Hl u. unfold get_stream, andthen, lock, andthen, get. now rewrite Hl. }
  unfold stream_wait at 1. unfold andthen at 1. unfold get at 1. unfold andthen at 1. unfold ret at 1. unfold andthen at 1.
  unfold get_stream at 1. unfold andthen at 1. unfold lock at 1. unfold andthen at 1. unfold get at 1. rewrite LK. unfold set_locked at 1.
  unfold andthen at 1. unfold get at 1. cbn [streams live next calls bound pool blas solver skip locked]. rewrite Hs. unfold andthen at 1. unfold set_locked at 1. unfold at_ at 1.
  rewrite nth_error_map. destruct (nth_error ss t) as [x|] eqn:Ex; [|apply nth_error_None in Ex; lia]. cbn [option_map].
  unfold andthen at 1. unfold wait_for. unfold andthen at 1. unfold hip at 1. cbn [streams live next calls bound pool blas solver skip locked]. rewrite F0.
  unfold andthen at 1. unfold lock at 1. unfold andthen at 1. unfold get at 1. cbn [streams live next calls bound pool blas solver skip locked]. unfold set_locked at 1.
  unfold andthen at 1. unfold hip at 1. cbn [streams live next calls bound pool blas solver skip locked]. rewrite F1.
  eexists. split; [reflexivity|]. split; [now apply G|]. intros u. unfold stream_wait, andthen, get, ret. rewrite G; reflexivity.
Qed.

(** Case: a session with two threads, then one with one thread. *)
Example C127_case :
  let first := (2, [GSkip 1; GWait 0 true; GWait 1 false; GWait 1 true; GWait 1 true]) in
  let rest := [(1, [GWait 0 true])] in
  Forall (fun s => fst s <= fst first /\ uses (fst s) (snd s) /\ (forall t, pending nobody (snd s) t = false)) (first :: rest) /\
  exists s', g_run (fun _ => false) (concat (map program (first :: rest))) start = (Ret [false; false; true; false; false], s') /\ live s' = [] /\ next s' = 11.
Proof.
  cbv zeta. split.
  - repeat constructor; intros t; cbn; unfold nobody; rewrite ?orb_false_r; auto. destruct (Nat.eqb t 1); reflexivity.
  - eexists. split; [vm_compute; reflexivity|]. split; reflexivity.
Qed.
Print Assumptions C127_initialize.
Print Assumptions C127_finalize.
Print Assumptions C127_sessions_partial.
Print Assumptions C127_skip_refuted.
Print Assumptions C127_threads_refuted.
Print Assumptions C127_lock_refuted.
Print Assumptions C127_twice_refuted.
Print Assumptions C127_error_refuted.
