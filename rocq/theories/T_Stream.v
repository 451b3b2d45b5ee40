(** * T_Stream: waiting for the streams of the GPU (C122). *)
From Coq Require Import List Arith Lia Bool.
From Verif Require Import M_Stream S_Stream.
Import ListNotations.

(** ** Lists *)
(** [sub l m]: l is part of m, in the same order. *)
Inductive sub {A} : list A -> list A -> Prop :=
| sub_nil : forall m, sub [] m
| sub_skip : forall y l m, sub l m -> sub l (y :: m)
| sub_take : forall y l m, sub l m -> sub (y :: l) (y :: m).
Lemma sub_app_r : forall A (l m r : list A), sub l m -> sub l (m ++ r).
Proof. intros A l m r H. induction H; cbn; [apply sub_nil|apply sub_skip; auto|apply sub_take; auto]. Qed.
Lemma sub_one : forall A (x : A) m, sub [x] (m ++ [x]).
Proof. induction m as [|y m IH]; cbn; [apply sub_take, sub_nil|apply sub_skip; auto]. Qed.
Lemma sub_snoc : forall A (l m : list A) x, sub l m -> sub (l ++ [x]) (m ++ [x]).
Proof. intros A l m x H. induction H; cbn; [apply sub_one|apply sub_skip; auto|apply sub_take; auto]. Qed.
Lemma sub_in : forall A (l m : list A) x, sub l m -> In x l -> In x m.
Proof. intros A l m x H. induction H; cbn; [tauto|auto|intros [E|E]; auto]. Qed.
Lemma sub_split1 : forall A (l m : list A) y r, sub l m -> l = y :: r -> exists q1 q2, m = q1 ++ y :: q2 /\ sub r q2.
Proof.
  intros A l m y r H. revert y r. induction H; intros y' r' E.
  - discriminate.
  - destruct (IHsub _ _ E) as (q1 & q2 & -> & Hs). exists (y :: q1), q2. auto.
  - injection E as <- <-. exists [], m. auto.
Qed.
Lemma sub_split : forall A (a r m : list A) y, sub (a ++ y :: r) m -> exists q1 q2, m = q1 ++ y :: q2 /\ sub r q2.
Proof.
  induction a as [|z a IH]; intros r m y H.
  - apply (sub_split1 _ _ _ _ _ H eq_refl).
  - cbn in H. destruct (sub_split1 _ _ _ _ _ H eq_refl) as (q1 & q2 & -> & Hs).
    destruct (IH _ _ _ Hs) as (q3 & q4 & -> & H4). exists (q1 ++ z :: q3), q4. rewrite <- app_assoc. auto.
Qed.
Lemma firstn_more : forall A k (l m : list A) x, List.length l <= k -> In x l -> In x (firstn k (l ++ m)).
Proof. intros A k l m x Hk Hx. rewrite firstn_app. apply in_or_app. left. rewrite firstn_all2; auto. Qed.

Lemma fset_same : forall A (f : nat -> A) i x, fset f i x i = x.
Proof. intros. unfold fset. now rewrite Nat.eqb_refl. Qed.
Lemma fset_other : forall A (f : nat -> A) i j x, j <> i -> fset f i x j = f j.
Proof. intros. unfold fset. destruct (Nat.eqb_spec j i); congruence. Qed.

Lemma g_run_app : forall a b g, g_run (a ++ b) g = match g_run a g with Some g' => g_run b g' | None => None end.
Proof. induction a as [|e a IH]; intros b g; cbn; [auto|]. destruct (g_step e g); auto. Qed.

(** ** What every step keeps *)
Definition grows (g g' : gstate) : Prop :=
  g_n g' = g_n g /\
  forall s, (exists r, q_all (g_queue g' s) = q_all (g_queue g s) ++ r) /\ q_done (g_queue g s) <= q_done (g_queue g' s).
Lemma grows_refl : forall g, grows g g.
Proof. intros g. split; auto. intros s. split; [exists []; now rewrite app_nil_r|lia]. Qed.
Lemma grows_trans : forall a b c, grows a b -> grows b c -> grows a c.
Proof.
  intros a b c (N1 & H1) (N2 & H2). split; [congruence|]. intros s.
  destruct (H1 s) as ((r1 & E1) & L1). destruct (H2 s) as ((r2 & E2) & L2). split; [|lia].
  exists (r1 ++ r2). rewrite E2, E1, app_assoc. auto.
Qed.
Lemma grows_enqueue : forall s x g, grows g (enqueue s x g).
Proof.
  intros s x g. split; [reflexivity|]. intros s'. cbn. destruct (Nat.eq_dec s' s) as [->|N].
  - rewrite fset_same. cbn. split; [eauto|lia].
  - rewrite fset_other by auto. split; [exists []; now rewrite app_nil_r|lia].
Qed.
Lemma grows_same : forall g g0, g_n g0 = g_n g -> g_queue g0 = g_queue g -> grows g g0.
Proof. intros g g0 H1 H2. split; auto. rewrite H2. intros s. split; [exists []; now rewrite app_nil_r|lia]. Qed.
Lemma step_grows : forall e g g', g_step e g = Some g' -> grows g g'.
Proof.
  intros e g g' H. destruct e; cbn [g_step] in H; cbv zeta in H.
  1-3: destruct (free t g); [|discriminate]; injection H as <-; apply grows_enqueue.
  - destruct (free t g && (k <? g_n g)); [|discriminate]. injection H as <-. now apply grows_same.
  - destruct (free t g); [|discriminate]. injection H as <-. now apply grows_same.
  - destruct (free t g); [|discriminate]. destruct (may_skip && g_skip g t); injection H as <-; now apply grows_same.
  - destruct (free t g); [|discriminate]. injection H as <-. now apply grows_same.
  - destruct (g_wait g t) as [w|]; [|discriminate]. destruct (arrived g w); [|discriminate]. injection H as <-. now apply grows_same.
  - destruct (Nat.ltb_spec (q_done (g_queue g s)) (List.length (q_all (g_queue g s)))); [|discriminate].
    injection H as <-. split; [reflexivity|]. intros s'. cbn. destruct (Nat.eq_dec s' s) as [->|N].
    + rewrite fset_same. cbn. split; [exists []; now rewrite app_nil_r|lia].
    + rewrite fset_other by auto. split; [exists []; now rewrite app_nil_r|lia].
Qed.
Lemma run_grows : forall es g g', g_run es g = Some g' -> grows g g'.
Proof.
  induction es as [|e es IH]; intros g g' H; cbn in H; [injection H as <-; apply grows_refl|].
  destruct (g_step e g) as [g1|] eqn:E; [|discriminate]. eapply grows_trans; [eapply step_grows; eauto|eauto].
Qed.

(** A blocked thread stays blocked until it returns from the wait. *)
Lemma step_wait : forall e g g' t w, g_step e g = Some g' -> g_wait g t = Some w -> e <> Waited t -> g_wait g' t = Some w.
Proof.
  intros e g g' t w H Hw Ne.
  assert (FR : forall u, free u g = true -> u <> t).
  { intros u Hu ->. unfold free in Hu. rewrite Hw, andb_false_r in Hu. discriminate. }
  destruct e; cbn [g_step] in H; cbv zeta in H.
  1-3: destruct (free t0 g); [|discriminate]; injection H as <-; exact Hw.
  - destruct (free t0 g && (k <? g_n g)); [|discriminate]. injection H as <-. exact Hw.
  - destruct (free t0 g); [|discriminate]. injection H as <-. exact Hw.
  - destruct (free t0 g) eqn:F; [|discriminate]. destruct (may_skip && g_skip g t0); injection H as <-; [exact Hw|].
    cbn. rewrite fset_other; [exact Hw|]. intros E. apply (FR _ F). auto.
  - destruct (free t0 g) eqn:F; [|discriminate]. injection H as <-. cbn. rewrite fset_other; [exact Hw|]. intros E. apply (FR _ F). auto.
  - destruct (g_wait g t0) as [w0|]; [|discriminate]. destruct (arrived g w0); [|discriminate]. injection H as <-. cbn.
    rewrite fset_other; [exact Hw|]. intros ->. congruence.
  - destruct (Nat.ltb _ _); [|discriminate]. injection H as <-. exact Hw.
Qed.
Lemma run_wait : forall es g g' t w, g_run es g = Some g' -> g_wait g t = Some w -> ~ In (Waited t) es -> g_wait g' t = Some w.
Proof.
  induction es as [|e es IH]; intros g g' t w H Hw Hn; cbn in H; [congruence|].
  destruct (g_step e g) as [g1|] eqn:E; [|discriminate]. apply (IH g1 g' t w H); [|cbn in Hn; tauto].
  apply (step_wait e g g1 t w E Hw). intros ->. apply Hn. now left.
Qed.

(** ** Invariant *)
Record ginv (n : nat) (es : list gev) (g : gstate) : Prop := {
  gi_n : g_n g = n;
  gi_skip : forall t, g_skip g t = skip_due t es;
  gi_tick : forall t w s k, g_wait g t = Some w -> In (s, k) w -> k <= List.length (q_all (g_queue g s));
  gi_done : forall s, q_done (g_queue g s) <= List.length (q_all (g_queue g s));
  gi_all : forall s x, In x (q_all (g_queue g s)) -> In x (all_queued es);
  gi_uniq : NoDup (all_queued es) -> (forall s, NoDup (q_all (g_queue g s))) /\
    (forall s s' x, In x (q_all (g_queue g s)) -> In x (q_all (g_queue g s')) -> s = s');
  gi_own : own_streams es -> forall t, g_blas g t = g_stream g t /\ g_solver g t = g_stream g t /\
    sub (queued_since t es) (q_all (g_queue g (g_stream g t)))
}.

Lemma since_snoc : forall t es e, queued_since t (es ++ [e]) = if changes t e then [] else queued_since t es ++ queues t e.
Proof. intros. unfold queued_since. rewrite fold_left_app. reflexivity. Qed.
Lemma due_snoc : forall t es e, skip_due t (es ++ [e]) =
  match e with
  | Skip t' => if Nat.eqb t' t then true else skip_due t es
  | Wait t' true => if Nat.eqb t' t then false else skip_due t es
  | _ => skip_due t es
  end.
Proof. intros. unfold skip_due. rewrite fold_left_app. reflexivity. Qed.
Lemma all_snoc : forall es e, all_queued (es ++ [e]) = all_queued es ++ all_queued [e].
Proof. intros. unfold all_queued. rewrite flat_map_app. reflexivity. Qed.
Lemma own_snoc : forall es e, own_streams (es ++ [e]) -> own_streams es.
Proof. intros es e H t s k Hin. apply (H t s k). apply in_or_app. auto. Qed.
Lemma NoDup_app_l : forall A (l m : list A), NoDup (l ++ m) -> NoDup l.
Proof. induction l as [|a l IH]; intros m H; [constructor|]. inversion H; subst. constructor; [|eapply IH; eauto]. intros Hin. apply H2. apply in_or_app. auto. Qed.
Lemma NoDup_snoc : forall A (l : list A) x, NoDup (l ++ [x]) -> ~ In x l.
Proof.
  intros A l x H. apply NoDup_remove_2 in H. now rewrite app_nil_r in H.
Qed.
Lemma NoDup_snoc_i : forall A (l : list A) x, NoDup l -> ~ In x l -> NoDup (l ++ [x]).
Proof.
  induction l as [|a l IH]; intros x H Hx; cbn; [repeat constructor; auto|]. inversion H; subst. constructor.
  - intros Hin. apply in_app_or in Hin as [Hin|[->|[]]]; [auto|]. apply Hx. now left.
  - apply IH; auto. intros Hin. apply Hx. now right.
Qed.

(** Queueing: thread t puts x on stream s, its stream if threads change only
    their own. *)
Lemma inv_enqueue : forall n es g e t s x,
  ginv n es g -> (forall u, queues u e = if Nat.eqb t u then [x] else []) -> (forall u, changes u e = false) ->
  all_queued [e] = [x] -> (forall u, skip_due u (es ++ [e]) = skip_due u es) ->
  (own_streams es -> s = g_stream g t) -> ginv n (es ++ [e]) (enqueue s x g).
Proof.
  intros n es g e t s x I Hq Hc Ha Hs Hst. destruct I as [I1 I2 I3 I4 I5 I6 I7].
  assert (QA : forall s', q_all (g_queue (enqueue s x g) s') = if Nat.eqb s' s then q_all (g_queue g s) ++ [x] else q_all (g_queue g s')).
  { intros s'. cbn. unfold fset. destruct (Nat.eqb_spec s' s); auto. }
  split; cbn [g_n g_skip g_wait enqueue].
  - exact I1.
  - intros u. rewrite Hs. auto.
  - intros u w s' k Hw Hin. specialize (I3 u w s' k Hw Hin). fold (enqueue s x g). rewrite QA.
    destruct (Nat.eqb_spec s' s) as [->|]; [rewrite app_length; lia|auto].
  - intros s'. fold (enqueue s x g). rewrite QA. cbn. unfold fset. destruct (Nat.eqb_spec s' s) as [->|]; [|auto].
    rewrite app_length. cbn. specialize (I4 s). lia.
  - intros s' y. fold (enqueue s x g). rewrite QA, all_snoc, Ha. intros Hin. apply in_or_app.
    destruct (Nat.eqb_spec s' s) as [->|]; [|left; eauto]. apply in_app_or in Hin as [Hin|Hin]; [left; eauto|right; auto].
  - rewrite all_snoc, Ha. intros ND. assert (Hx := NoDup_snoc _ _ _ ND). apply NoDup_app_l in ND. destruct (I6 ND) as (U1 & U2).
    fold (enqueue s x g). split.
    + intros s'. rewrite QA. destruct (Nat.eqb_spec s' s) as [->|]; [|auto]. apply NoDup_snoc_i; [auto|].
      intros Hin. apply Hx. eauto.
    + intros s1 s2 y. rewrite !QA. intros H1 H2.
      destruct (Nat.eqb_spec s1 s) as [->|N1], (Nat.eqb_spec s2 s) as [->|N2]; auto.
      * apply in_app_or in H1 as [H1|[->|[]]]; [eauto|]. exfalso. eauto.
      * apply in_app_or in H2 as [H2|[->|[]]]; [eauto|]. exfalso. eauto.
      * eauto.
  - intros Own u. apply own_snoc in Own. destruct (I7 Own u) as (B1 & B2 & B3). split; [exact B1|]. split; [exact B2|].
    rewrite since_snoc, Hc, Hq. fold (enqueue s x g). rewrite QA. cbn [enqueue g_stream].
    destruct (Nat.eqb_spec t u) as [->|Nu].
    + rewrite (Hst Own), Nat.eqb_refl. apply sub_snoc. auto.
    + rewrite app_nil_r. destruct (Nat.eqb_spec (g_stream g u) s) as [E|]; [|auto]. apply sub_app_r. rewrite <- E. auto.
Qed.

(** Steps that queue nothing. *)
Lemma inv_quiet : forall n es g e g',
  ginv n es g -> all_queued [e] = [] -> (forall u, queues u e = []) ->
  g_n g' = g_n g -> (forall s, q_all (g_queue g' s) = q_all (g_queue g s)) ->
  (forall s, q_done (g_queue g' s) <= List.length (q_all (g_queue g s))) ->
  (forall u, g_skip g' u = skip_due u (es ++ [e])) ->
  (forall t w s k, g_wait g' t = Some w -> In (s, k) w -> g_wait g t = Some w \/ k = List.length (q_all (g_queue g s))) ->
  (own_streams (es ++ [e]) -> forall u, g_blas g' u = g_stream g' u /\ g_solver g' u = g_stream g' u /\
     (changes u e = true \/ g_stream g' u = g_stream g u)) ->
  ginv n (es ++ [e]) g'.
Proof.
  intros n es g e g' I Ha Hq Hn Hqa Hqd Hs Hw Ho. destruct I as [I1 I2 I3 I4 I5 I6 I7]. split.
  - congruence.
  - exact Hs.
  - intros t w s k H Hin. rewrite Hqa. destruct (Hw t w s k H Hin) as [H'| ->]; [eauto|lia].
  - intros s. rewrite Hqa. auto.
  - intros s x. rewrite Hqa, all_snoc, Ha, app_nil_r. eauto.
  - rewrite all_snoc, Ha, app_nil_r. intros ND. destruct (I6 ND) as (U1 & U2). split.
    + intros s. rewrite Hqa. auto.
    + intros s s' x. rewrite !Hqa. eauto.
  - intros Own u. destruct (Ho Own u) as (B1 & B2 & B3). apply own_snoc in Own. destruct (I7 Own u) as (C1 & C2 & C3).
    split; [exact B1|]. split; [exact B2|]. rewrite since_snoc, Hq, app_nil_r, Hqa.
    destruct (changes u e) eqn:E; [constructor|]. destruct B3 as [B3|B3]; [discriminate|]. rewrite B3. auto.
Qed.

Lemma step_inv : forall n es g e g', ginv n es g -> g_step e g = Some g' -> ginv n (es ++ [e]) g'.
Proof.
  intros n es g e g' I H. assert (I' := I). destruct I' as [I1 I2 I3 I4 I5 I6 I7]. destruct e; cbn [g_step] in H; cbv zeta in H.
  - destruct (free t g); [|discriminate]. injection H as <-. apply inv_enqueue with (t := t); auto. intros u. apply due_snoc.
  - destruct (free t g); [|discriminate]. injection H as <-. apply inv_enqueue with (t := t); auto.
    + intros u. apply due_snoc.
    + intros Own. apply I7; auto.
  - destruct (free t g); [|discriminate]. injection H as <-. apply inv_enqueue with (t := t); auto.
    + intros u. apply due_snoc.
    + intros Own. apply I7; auto.
  - destruct (free t g && (k <? g_n g)); [|discriminate]. injection H as <-.
    apply inv_quiet with (g := g); cbn; auto.
    + intros u. rewrite due_snoc. auto.
    + intros Own u. assert (k = t) by (apply (Own t s k); apply in_or_app; right; now left). subst k.
      apply own_snoc in Own. destruct (I7 Own u) as (C1 & C2 & _). unfold fset. rewrite (Nat.eqb_sym t u).
      destruct (Nat.eqb u t); auto.
  - destruct (free t g); [|discriminate]. injection H as <-. apply inv_quiet with (g := g); cbn; auto.
    + intros u. rewrite due_snoc. unfold fset. rewrite (Nat.eqb_sym u t). destruct (Nat.eqb t u); auto.
    + intros Own u. apply own_snoc in Own. destruct (I7 Own u) as (C1 & C2 & _). auto.
  - destruct (free t g) eqn:F; [|discriminate]. destruct (may_skip && g_skip g t) eqn:E; injection H as <-.
    + apply andb_true_iff in E as (-> & E). apply inv_quiet with (g := g); cbn; auto.
      * intros u. rewrite due_snoc. unfold fset. rewrite (Nat.eqb_sym u t). destruct (Nat.eqb t u); auto.
      * intros Own u. apply own_snoc in Own. destruct (I7 Own u) as (C1 & C2 & _). auto.
    + apply inv_quiet with (g := g); cbn; auto.
      * intros u. rewrite due_snoc. destruct may_skip; [|auto]. destruct (Nat.eqb_spec t u) as [<-|]; auto.
      * intros u w s k. unfold fset. destruct (Nat.eqb_spec u t) as [->|]; [|auto]. intros [= <-] [Hin|[]].
        unfold ticket in Hin. injection Hin as <- <-. auto.
      * intros Own u. apply own_snoc in Own. destruct (I7 Own u) as (C1 & C2 & _). auto.
  - destruct (free t g) eqn:F; [|discriminate]. injection H as <-. apply inv_quiet with (g := g); cbn; auto.
    + intros u. rewrite due_snoc. auto.
    + intros u w s k. unfold fset. destruct (Nat.eqb_spec u t) as [->|]; [|auto]. intros [= <-] Hin.
      apply in_map_iff in Hin as (i & Hi & _). unfold ticket in Hi. injection Hi as <- <-. auto.
    + intros Own u. apply own_snoc in Own. destruct (I7 Own u) as (C1 & C2 & _). auto.
  - destruct (g_wait g t) as [w|] eqn:W; [|discriminate]. destruct (arrived g w); [|discriminate]. injection H as <-.
    apply inv_quiet with (g := g); cbn; auto.
    + intros u. rewrite due_snoc. auto.
    + intros u w' s k. unfold fset. destruct (Nat.eqb_spec u t) as [->|]; [discriminate|auto].
    + intros Own u. apply own_snoc in Own. destruct (I7 Own u) as (C1 & C2 & _). auto.
  - destruct (Nat.ltb_spec (q_done (g_queue g s)) (List.length (q_all (g_queue g s)))); [|discriminate]. injection H as <-.
    apply inv_quiet with (g := g); cbn; auto.
    + intros s'. unfold fset. destruct (Nat.eqb_spec s' s) as [->|]; auto.
    + intros s'. unfold fset. destruct (Nat.eqb_spec s' s) as [->|]; cbn; [lia|auto].
    + intros u. rewrite due_snoc. auto.
    + intros Own u. apply own_snoc in Own. destruct (I7 Own u) as (C1 & C2 & _). auto.
Qed.

Lemma start_inv : forall n, ginv n [] (g_start n).
Proof.
  intros n. split; cbn.
  - reflexivity.
  - reflexivity.
  - discriminate.
  - auto.
  - intros s x [].
  - intros _. split; [intros; constructor|intros s s' x []].
  - intros _ t. split; [reflexivity|]. split; [reflexivity|constructor].
Qed.
Lemma run_inv : forall n es g, g_run es (g_start n) = Some g -> ginv n es g.
Proof.
  intros n. apply (rev_ind (fun es => forall g, g_run es (g_start n) = Some g -> ginv n es g)).
  - intros g [= <-]. apply start_inv.
  - intros e es IH g H. rewrite g_run_app in H. destruct (g_run es (g_start n)) as [g1|] eqn:E; [|discriminate].
    cbn in H. destruct (g_step e g1) as [g2|] eqn:S; [|discriminate]. injection H as <-. eapply step_inv; eauto.
Qed.

(** ** Theorems *)
Lemma arrived_in : forall g w s k, arrived g w = true -> In (s, k) w -> k <= q_done (g_queue g s).
Proof.
  intros g w s k H Hin. unfold arrived in H. rewrite forallb_forall in H. specialize (H _ Hin). cbn in H.
  now apply Nat.leb_le in H.
Qed.
Lemma ticket_finished : forall g1 g2 s x, grows g1 g2 -> List.length (q_all (g_queue g1 s)) <= q_done (g_queue g2 s) ->
  In x (q_all (g_queue g1 s)) -> finished g2 x.
Proof.
  intros g1 g2 s x (_ & G) H Hx. exists s. destruct (G s) as ((r & ->) & _). apply firstn_more; auto.
Qed.

(** When stream_wait returns, everything the thread queued before the call and
    since its stream was last changed is finished: kernels, BLAS and solver
    calls, whatever the other threads and the device do meanwhile. *)
Theorem C122_wait_partial : forall n before may_skip during t g,
  own_streams before -> may_skip = false \/ skip_due t before = false -> ~ In (Waited t) during ->
  g_run (before ++ Wait t may_skip :: during ++ [Waited t]) (g_start n) = Some g ->
  forall x, In x (queued_since t before) -> finished g x.
Proof.
  intros n before m during t g Own Hm Hd H x Hx.
  rewrite g_run_app in H. destruct (g_run before (g_start n)) as [g1|] eqn:E1; [|discriminate].
  assert (I := run_inv _ _ _ E1). cbn [g_run] in H.
  destruct (g_step (Wait t m) g1) as [g2|] eqn:E2; [|discriminate]. assert (G2 := step_grows _ _ _ E2).
  cbn [g_step] in E2. destruct (free t g1); [|discriminate].
  replace (m && g_skip g1 t) with false in E2.
  2:{ rewrite (gi_skip _ _ _ I). destruct Hm as [-> | ->]; [reflexivity|now rewrite andb_false_r]. }
  injection E2 as E2. rewrite g_run_app in H. destruct (g_run during g2) as [g3|] eqn:E3; [|discriminate].
  assert (W : g_wait g3 t = Some [ticket g1 (g_stream g1 t)]).
  { apply (run_wait during g2 g3 t _ E3); [|exact Hd]. rewrite <- E2. cbn. apply fset_same. }
  assert (G3 := run_grows _ _ _ E3). cbn in H. rewrite W in H.
  destruct (arrived g3 [ticket g1 (g_stream g1 t)]) eqn:A; [|discriminate]. injection H as <-.
  assert (Q := arrived_in _ _ _ _ A (or_introl eq_refl)).
  assert (F : finished g3 x).
  { apply (ticket_finished g1 g3 (g_stream g1 t) x); [eapply grows_trans; eauto|exact Q|].
    eapply sub_in; [|exact Hx]. apply (gi_own _ _ _ I Own t). }
  exact F.
Qed.

(** all_stream_wait: the same for the work of all threads. *)
Theorem C122_all_partial : forall n before during t g,
  own_streams before -> ~ In (Waited t) during ->
  g_run (before ++ WaitAll t :: during ++ [Waited t]) (g_start n) = Some g ->
  forall k x, k < n -> In x (queued_since k before) -> finished g x.
Proof.
  intros n before during t g Own Hd H k x Hk Hx.
  rewrite g_run_app in H. destruct (g_run before (g_start n)) as [g1|] eqn:E1; [|discriminate].
  assert (I := run_inv _ _ _ E1). cbn [g_run] in H.
  destruct (g_step (WaitAll t) g1) as [g2|] eqn:E2; [|discriminate]. assert (G2 := step_grows _ _ _ E2).
  cbn [g_step] in E2. destruct (free t g1); [|discriminate].
  injection E2 as E2. rewrite g_run_app in H. destruct (g_run during g2) as [g3|] eqn:E3; [|discriminate].
  set (w := map (fun i => ticket g1 (g_stream g1 i)) (seq 0 (g_n g1))) in *.
  assert (W : g_wait g3 t = Some w).
  { apply (run_wait during g2 g3 t _ E3); [|exact Hd]. rewrite <- E2. cbn. apply fset_same. }
  assert (G3 := run_grows _ _ _ E3). cbn in H. rewrite W in H.
  destruct (arrived g3 w) eqn:A; [|discriminate]. injection H as <-.
  assert (Q : List.length (q_all (g_queue g1 (g_stream g1 k))) <= q_done (g_queue g3 (g_stream g1 k))).
  { apply (arrived_in g3 w); auto. unfold w. apply in_map_iff. exists k. split; [reflexivity|].
    apply in_seq. rewrite (gi_n _ _ _ I). lia. }
  assert (F : finished g3 x).
  { apply (ticket_finished g1 g3 (g_stream g1 k) x); [eapply grows_trans; eauto|exact Q|].
    eapply sub_in; [|exact Hx]. apply (gi_own _ _ _ I Own k). }
  exact F.
Qed.

(** What a thread queued since its stream was last changed is finished in the
    order it was queued. *)
Theorem C122_order_partial : forall n es g t a x b y c,
  own_streams es -> NoDup (all_queued es) -> g_run es (g_start n) = Some g ->
  queued_since t es = a ++ x :: b ++ y :: c -> finished g y -> finished g x.
Proof.
  intros n es g t a x b y c Own ND H E (s & Hy).
  assert (I := run_inv _ _ _ H). destruct (gi_own _ _ _ I Own t) as (_ & _ & HS). rewrite E in HS.
  destruct (gi_uniq _ _ _ I ND) as (U1 & U2).
  destruct (sub_split _ _ _ _ _ HS) as (q1 & q2 & EQ & HS2).
  destruct (sub_split _ _ _ _ _ HS2) as (q3 & q4 & -> & _).
  assert (s = g_stream g t).
  { apply (U2 _ _ y).
    - rewrite <- (firstn_skipn (q_done (g_queue g s)) (q_all (g_queue g s))). apply in_or_app. auto.
    - rewrite EQ. apply in_or_app. right. right. apply in_or_app. right. now left. }
  subst s. exists (g_stream g t). specialize (U1 (g_stream g t)). rewrite EQ in *.
  set (k := q_done (g_queue g (g_stream g t))) in *.
  assert (Hk : List.length (q1 ++ x :: q3) < k).
  { apply Nat.nle_gt. intros L.
    replace (q1 ++ x :: q3 ++ y :: q4) with ((q1 ++ x :: q3) ++ y :: q4) in Hy, U1 by (rewrite <- app_assoc; reflexivity).
    rewrite firstn_app in Hy. replace (k - List.length (q1 ++ x :: q3)) with 0 in Hy by lia. rewrite firstn_O, app_nil_r in Hy.
    apply NoDup_remove_2 in U1. apply U1. apply in_or_app. left.
    rewrite <- (firstn_skipn k (q1 ++ x :: q3)). apply in_or_app. auto. }
  replace (q1 ++ x :: q3 ++ y :: q4) with ((q1 ++ x :: q3) ++ y :: q4) by (rewrite <- app_assoc; reflexivity).
  apply firstn_more; [lia|]. apply in_or_app. right. now left.
Qed.

(** A thread inside a wait can always get out: it needs only the device. *)
Lemma drain : forall k g s, q_done (g_queue g s) + k <= List.length (q_all (g_queue g s)) ->
  exists g', g_run (repeat (Device s) k) g = Some g' /\ g_wait g' = g_wait g /\
    (forall s', q_all (g_queue g' s') = q_all (g_queue g s')) /\ q_done (g_queue g' s) = q_done (g_queue g s) + k /\
    (forall s', s' <> s -> g_queue g' s' = g_queue g s').
Proof.
  induction k as [|k IH]; intros g s Hk.
  - exists g. cbn. repeat split; auto.
  - cbn [repeat g_run g_step]. destruct (Nat.ltb_spec (q_done (g_queue g s)) (List.length (q_all (g_queue g s)))); [|lia].
    edestruct (IH (mkG (g_n g) (g_stream g) (g_blas g) (g_solver g) (g_skip g) (g_wait g)
       (fset (g_queue g) s (mkQ (q_all (g_queue g s)) (S (q_done (g_queue g s))))))) as (g' & E & W & A & D & F).
    { cbn [g_queue]. rewrite fset_same. cbn. lia. }
    exists g'. split; [exact E|]. split; [exact W|]. split; [|split].
    + intros s'. rewrite A. cbn [g_queue]. unfold fset. destruct (Nat.eqb_spec s' s) as [->|]; auto.
    + rewrite D. cbn [g_queue]. rewrite fset_same. cbn. lia.
    + intros s' N. rewrite F by auto. cbn [g_queue]. now rewrite fset_other.
Qed.
Lemma drain_all : forall w g, (forall s k, In (s, k) w -> k <= List.length (q_all (g_queue g s))) ->
  (forall s, q_done (g_queue g s) <= List.length (q_all (g_queue g s))) ->
  exists ds g', Forall (fun e => exists s, e = Device s) ds /\ g_run ds g = Some g' /\ g_wait g' = g_wait g /\ arrived g' w = true /\
    (forall s, q_all (g_queue g' s) = q_all (g_queue g s)) /\ (forall s, q_done (g_queue g' s) <= List.length (q_all (g_queue g s))).
Proof.
  induction w as [|[s k] w IH]; intros g H HD.
  - exists [], g. repeat split; auto.
  - destruct (IH g) as (ds & g1 & F1 & E1 & W1 & A1 & Q1 & D1). { intros s' k' Hin. apply H. now right. } { exact HD. }
    assert (X := H s k (or_introl eq_refl)). assert (Y := D1 s).
    destruct (drain (k - q_done (g_queue g1 s)) g1 s) as (g2 & E2 & W2 & Q2 & D2 & O2). { rewrite Q1. lia. }
    exists (ds ++ repeat (Device s) (k - q_done (g_queue g1 s))), g2. split; [|split; [|split; [|split; [|split]]]].
    + apply Forall_app. split; [exact F1|]. apply Forall_forall. intros e He. apply repeat_spec in He. eauto.
    + rewrite g_run_app, E1. exact E2.
    + congruence.
    + unfold arrived in *. cbn [forallb fst snd]. apply andb_true_iff. split; [apply Nat.leb_le; lia|].
      rewrite forallb_forall in *. intros [s' k'] Hin. specialize (A1 _ Hin). cbn [fst snd] in *. apply Nat.leb_le in A1. apply Nat.leb_le.
      destruct (Nat.eq_dec s' s) as [->|N]; [lia|rewrite O2 by auto; lia].
    + intros s'. rewrite Q2. auto.
    + intros s'. destruct (Nat.eq_dec s' s) as [->|N]; [lia|rewrite O2 by auto; auto].
Qed.

Theorem C122_progress : forall n es g t, g_run es (g_start n) = Some g -> g_wait g t <> None ->
  exists ds g', Forall (fun e => exists s, e = Device s) ds /\ g_run (es ++ ds ++ [Waited t]) (g_start n) = Some g' /\ g_wait g' t = None.
Proof.
  intros n es g t H Hw. assert (I := run_inv _ _ _ H). destruct (g_wait g t) as [w|] eqn:W; [|congruence].
  destruct (drain_all w g) as (ds & g1 & F1 & E1 & W1 & A1 & _).
  { intros s k Hin. eapply (gi_tick _ _ _ I); eauto. } { apply (gi_done _ _ _ I). }
  eexists ds, _. split; [exact F1|]. rewrite !g_run_app, H, g_run_app, E1. cbn. rewrite W1, W, A1. split; [reflexivity|]. cbn. apply fset_same.
Qed.

(** skip_next_wait: exactly the next stream_wait(true) of that thread returns
    at once; stream_wait(false) is not affected and uses nothing up. *)
Theorem C122_skip : forall n es g t may_skip,
  g_run (es ++ [Wait t may_skip]) (g_start n) = Some g -> g_wait g t = None <-> may_skip && skip_due t es = true.
Proof.
  intros n es g t m H. rewrite g_run_app in H. destruct (g_run es (g_start n)) as [g1|] eqn:E1; [|discriminate].
  assert (I := run_inv _ _ _ E1). cbn [g_run g_step] in H. destruct (free t g1) eqn:F; [|discriminate]. rewrite (gi_skip _ _ _ I) in H.
  destruct (m && skip_due t es); injection H as <-; cbn.
  - split; auto. intros _. unfold free in F. destruct (g_wait g1 t); [rewrite andb_false_r in F; discriminate|auto].
  - rewrite fset_same. split; discriminate.
Qed.

(** One thread giving another a stream: the BLAS calls of the giver go to that
    stream, which its wait does not look at, and the BLAS calls of the receiver
    stay on its old one, so its work is no longer finished in order. *)
Theorem C122_other_thread_refuted :
  (exists n before during t g x, ~ In (Waited t) during /\ skip_due t before = false /\
     g_run (before ++ Wait t false :: during ++ [Waited t]) (g_start n) = Some g /\ In x (queued_since t before) /\ ~ finished g x) /\
  (exists n es g t x y, NoDup (all_queued es) /\ g_run es (g_start n) = Some g /\ queued_since t es = [x; y] /\
     finished g y /\ ~ finished g x).
Proof.
  split.
  - exists 2, [SetStream 0 7 1; Blas 0 5], [], 0. eexists. exists 5. split; [cbn; tauto|]. split; [reflexivity|].
    split; [vm_compute; reflexivity|]. split; [cbn; tauto|]. intros (s & Hs). cbn in Hs. unfold fset in Hs.
    destruct s as [|[|[|[|[|[|[|[|s]]]]]]]]; cbn in Hs; tauto.
  - exists 2, [SetStream 0 7 1; Blas 1 5; Launch 1 6; Device 7]. eexists. exists 1, 5, 6. split; [cbn; repeat constructor; cbn; intuition discriminate|].
    split; [vm_compute; reflexivity|]. split; [reflexivity|]. split; [exists 7; cbn; auto|]. intros (s & Hs). cbn in Hs.
    destruct s as [|[|[|[|[|[|[|[|s]]]]]]]]; cbn in Hs; intuition discriminate.
Qed.

(** A run: two threads, one moves to a stream of its own choosing. *)
Example C122_case :
  let before := [Launch 0 10; SetStream 1 9 1; Blas 1 20; Skip 0; Wait 0 true; Solver 0 11; Launch 1 21; Device 0] in
  let during := [Device 9; Blas 0 12; Device 0; Device 9] in
  own_streams before /\ NoDup (all_queued before) /\ queued_since 1 before = [20; 21] /\ queued_since 0 before = [10; 11] /\
  skip_due 0 before = false /\
  (exists g, g_run (before ++ Wait 1 false :: during ++ [Waited 1]) (g_start 2) = Some g) /\
  (exists g, g_run (before ++ WaitAll 0 :: [Device 9; Device 9; Device 0] ++ [Waited 0]) (g_start 2) = Some g) /\
  g_run (before ++ WaitAll 0 :: [Device 9; Device 9] ++ [Waited 0]) (g_start 2) = None.
Proof.
  cbn zeta. split. { intros t s k H. cbn in H. intuition congruence. }
  split. { cbn. repeat constructor; cbn; intuition discriminate. }
  repeat (split; [first [reflexivity | eexists; vm_compute; reflexivity]|]). vm_compute. reflexivity.
Qed.

Print Assumptions C122_wait_partial.
Print Assumptions C122_all_partial.
Print Assumptions C122_order_partial.
Print Assumptions C122_progress.
Print Assumptions C122_skip.
Print Assumptions C122_other_thread_refuted.
