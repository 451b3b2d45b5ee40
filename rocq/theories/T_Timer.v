(** * T_Timer: C37. *)
From Coq Require Import List ZArith Lia Bool String.
From Verif Require Import Base Heap M_Timer S_Timer.
Import ListNotations.
Open Scope Z_scope.

Definition t_step (e : tev) : tstate -> res tstate :=
  match e with
  | EPush th par name now => t_push th par name now
  | EPop th now => t_pop th now
  | EPopFor th d => t_pop_elapsed th d
  end.
Fixpoint t_run (hist : list tev) : res tstate :=
  match hist with [] => Ok t_init | e :: older => s <- t_run older ;; t_step e s end.

(** ** Lists *)
Lemma set_nth_length : forall A i (x : A) l, (i < List.length l)%nat -> List.length (set_nth i x l) = List.length l.
Proof. intros. unfold set_nth. rewrite app_length, firstn_length. cbn [List.length]. rewrite skipn_length. lia. Qed.
Lemma set_nth_same : forall A i (x : A) l, (i < List.length l)%nat -> nth_error (set_nth i x l) i = Some x.
Proof.
  intros. unfold set_nth. rewrite nth_error_app2; rewrite firstn_length, Nat.min_l by lia; [|lia]. now rewrite Nat.sub_diag.
Qed.
Lemma set_nth_other : forall A i j (x : A) l, (i < List.length l)%nat -> i <> j -> nth_error (set_nth i x l) j = nth_error l j.
Proof.
  intros A i j x l. revert i j. induction l as [|a l IH]; intros i j Hi N; [cbn in Hi; lia|].
  destruct i, j; try reflexivity; try lia. unfold set_nth in *. cbn. apply IH; [cbn in Hi; lia|lia].
Qed.
Lemma path_eqb_eq : forall p q, path_eqb p q = true <-> p = q.
Proof. intros p q. unfold path_eqb. destruct (list_eq_dec string_dec p q); split; congruence. Qed.
Lemma path_eqb_refl : forall p, path_eqb p p = true.
Proof. intros. now apply path_eqb_eq. Qed.

(** ** Invariant: [ix] gives the node of each used path. *)
Definition root_name : string := "Total Run Time".
Record tinv (s : tstate) (hist : list tev) (ix : list string -> option nat) : Prop := {
  ti_root : ix [] = Some 0%nat;
  ti_inj : forall p q i, ix p = Some i -> ix q = Some i -> p = q;
  ti_kid : forall p k, ix (k :: p) <> None <-> In k (kids hist p);
  ti_none : forall p, ix p = None -> kids hist p = [] /\ calls hist p = 0 /\ spent hist p = 0;
  ti_node : forall p i, ix p = Some i -> exists n, nth_error (ts_nodes s) i = Some n /\
     tn_name n = hd root_name p /\ tn_time n = spent hist p /\ tn_calls n = calls hist p /\
     tn_parent n = match p with [] => None | _ :: q => ix q end /\
     (forall k, child k n = ix (k :: p)) /\ tn_order n = kids hist p /\ (p <> [] -> tn_start n = since hist p);
  ti_start : forall n, nth_error (ts_nodes s) 0 = Some n -> tn_start n = 0;
  ti_cur : match opened hist with None => ts_cur s = None | Some p => ts_cur s = ix p /\ ix p <> None end
}.

Lemma tinv_lt : forall s hist ix p i, tinv s hist ix -> ix p = Some i -> (i < List.length (ts_nodes s))%nat.
Proof. intros s hist ix p i I E. destruct (ti_node _ _ _ I p i E) as (n & En & _). apply nth_error_Some. congruence. Qed.
Lemma tinv_kids_used : forall s hist ix p k, tinv s hist ix -> ix (k :: p) <> None -> ix p <> None.
Proof.
  intros s hist ix p k I H E. apply (ti_kid _ _ _ I) in H. destruct (ti_none _ _ _ I p E) as (K & _). rewrite K in H. destruct H.
Qed.
Lemma since_root : forall hist, since hist [] = 0.
Proof.
  induction hist as [|e r IH]; [auto|]. destruct e as [[|t] par nm now|[|t] now|[|t] d]; cbn [since]; auto.
  destruct (opened r); auto.
Qed.

Lemma cons_neq : forall (A : Type) (x : A) l, x :: l <> l.
Proof. intros A x l E. apply (f_equal (@List.length A)) in E. cbn in E. lia. Qed.

Lemma step_inv : forall e older s ix, tinv s older ix ->
  exists s' ix', t_step e s = Ok s' /\ tinv s' (e :: older) ix'.
Proof.
  intros e older s ix I.
  assert (Same : forall e', opened (e' :: older) = opened older ->
      (forall p, kids (e' :: older) p = kids older p) -> (forall p, calls (e' :: older) p = calls older p) ->
      (forall p, spent (e' :: older) p = spent older p) -> (forall p, since (e' :: older) p = since older p) ->
      tinv s (e' :: older) ix).
  { intros e' E1 E2 E3 E4 E5. destruct I. split; auto.
    - intros p k. rewrite E2. auto.
    - intros p Hp. rewrite E2, E3, E4. auto.
    - intros p i Hp. rewrite E2, E3, E4, E5. auto.
    - rewrite E1; auto. }
  assert (Pop : forall f e', t_step e' s = t_pop_with 0 f s ->
      (opened (e' :: older) = match opened older with Some (_ :: p) => Some p | _ => None end) ->
      (forall p, kids (e' :: older) p = kids older p) ->
      (forall p, calls (e' :: older) p = calls older p + (if is_open older p then 1 else 0)) ->
      (forall p, spent (e' :: older) p = spent older p + (if is_open older p then f (since older p) else 0)) ->
      (forall p, since (e' :: older) p = since older p) ->
      exists s' ix', t_step e' s = Ok s' /\ tinv s' (e' :: older) ix').
  { intros f e' E0 E1 E2 E3 E4 E5. rewrite E0. unfold t_pop_with. cbn [Nat.eqb].
    pose proof (ti_cur _ _ _ I) as Hc. unfold is_open in *. destruct (opened older) as [p|] eqn:Ho.
    - destruct Hc as (Hc & Hu). rewrite Hc. destruct (ix p) as [c|] eqn:Ep; [|congruence].
      destruct (ti_node _ _ _ I p c Ep) as (n & En & N1 & N2 & N3 & N4 & N5 & N6 & N7). rewrite En.
      pose proof (tinv_lt _ _ _ _ _ I Ep) as Lc.
      eexists. exists ix. split; [reflexivity|]. destruct I. split; cbn [ts_nodes ts_cur]; auto.
      + intros q k. rewrite E2. auto.
      + intros q Hq. rewrite E2, E3, E4. destruct (path_eqb p q) eqn:Q; [apply path_eqb_eq in Q; congruence|].
        destruct (ti_none0 q Hq) as (A & B & C). split; [auto|]. lia.
      + intros q i Hq. rewrite E2, E3, E4, E5. destruct (path_eqb p q) eqn:Q.
        * apply path_eqb_eq in Q. subst q. assert (i = c) by congruence. subst i.
          eexists. split; [now apply set_nth_same|]. cbn. split; [auto|]. split.
          { rewrite N2. f_equal. f_equal. destruct p as [|x p]; [|apply N7; discriminate].
            rewrite since_root. apply ti_start0. congruence. }
          split; [lia|]. split; [auto|]. split; [auto|]. split; auto.
        * destruct (ti_node0 q i Hq) as (m & Em & M). exists m. split.
          { rewrite set_nth_other; auto. intros ->. assert (p = q) by (eapply ti_inj0; eauto). subst q. rewrite path_eqb_refl in Q. discriminate. }
          destruct M as (M1 & M2 & M3 & M4). rewrite !Z.add_0_r. auto.
      + intros m Hm. destruct (Nat.eq_dec c 0) as [->|Nc].
        * rewrite set_nth_same in Hm by auto. injection Hm as <-. cbn. auto.
        * rewrite set_nth_other in Hm by auto. auto.
      + rewrite E1, N4. destruct p as [|x q]; [auto|]. split; [auto|].
        assert (U : ix (x :: q) <> None) by congruence. apply ti_kid0 in U.
        intros E. destruct (ti_none0 q E) as (K & _). rewrite K in U. destruct U.
    - rewrite Hc. exists s, ix. split; [auto|]. destruct I. split; auto.
      + intros q k. rewrite E2. auto.
      + intros q Hq. rewrite E2, E3, E4, !Z.add_0_r. auto.
      + intros q i Hq. rewrite E2, E3, E4, E5, !Z.add_0_r. auto.
      + rewrite E1. auto. }
  destruct e as [[|t] par nm now|[|t] now|[|t] d].
  - cbn [t_step]. unfold t_push. cbn [Nat.eqb]. change (region_name par nm) with (opens par nm). set (k := opens par nm).
    pose proof (ti_cur _ _ _ I) as Hc.
    assert (Hop : opened (EPush 0 par nm now :: older) = match opened older with Some p => Some (k :: p) | None => None end) by reflexivity.
    assert (Hki : forall p, kids (EPush 0 par nm now :: older) p =
      if is_open older p then if in_dec string_dec k (kids older p) then kids older p else kids older p ++ [k] else kids older p) by reflexivity.
    assert (Hsi : forall p, since (EPush 0 par nm now :: older) p = match opened older with
      | Some q => if path_eqb (k :: q) p then now else since older p | None => since older p end) by reflexivity.
    assert (Hca : forall p, calls (EPush 0 par nm now :: older) p = calls older p) by reflexivity.
    assert (Hsp : forall p, spent (EPush 0 par nm now :: older) p = spent older p) by reflexivity.
    unfold is_open in Hki. destruct (opened older) as [p|] eqn:Ho.
    + destruct Hc as (Hc & Hu). rewrite Hc. destruct (ix p) as [c|] eqn:Ep; [|congruence].
      destruct (ti_node _ _ _ I p c Ep) as (n & En & N1 & N2 & N3 & N4 & N5 & N6 & N7). rewrite En.
      pose proof (tinv_lt _ _ _ _ _ I Ep) as Lc. rewrite N5.
      destruct (ix (k :: p)) as [i|] eqn:Ek.
      * (* known region *)
        destruct (ti_node _ _ _ I _ _ Ek) as (m & Em & M1 & M2 & M3 & M4 & M5 & M6 & M7). rewrite Em.
        pose proof (tinv_lt _ _ _ _ _ I Ek) as Li.
        assert (Hin : In k (kids older p)) by (apply (ti_kid _ _ _ I); congruence).
        assert (Hk2 : forall q, kids (EPush 0 par nm now :: older) q = kids older q).
        { intros q. rewrite Hki. destruct (path_eqb p q) eqn:Q; [|auto]. apply path_eqb_eq in Q. subst q.
          destruct (in_dec string_dec k (kids older p)); [auto|contradiction]. }
        eexists. exists ix. split; [reflexivity|]. destruct I. split; cbn [ts_nodes ts_cur]; auto.
        -- intros q k'. rewrite Hk2. auto.
        -- intros q Hq. rewrite Hk2, Hca, Hsp. auto.
        -- intros q j Hq. rewrite Hk2, Hca, Hsp, Hsi. destruct (path_eqb (k :: p) q) eqn:Q.
           ++ apply path_eqb_eq in Q. subst q. assert (j = i) by congruence. subst j.
              eexists. split; [now apply set_nth_same|]. cbn. split; [auto|]. split; [auto|]. split; [auto|]. split; [auto|].
              split; [auto|]. split; [auto|]. auto.
           ++ destruct (ti_node0 q j Hq) as (m2 & Em2 & M). exists m2. split; [|auto].
              rewrite set_nth_other; auto. intros ->. assert (k :: p = q) by (eapply ti_inj0; eauto). subst q. rewrite path_eqb_refl in Q. discriminate.
        -- intros m2 Hm2. rewrite set_nth_other in Hm2; auto. intros ->. assert (k :: p = []) by (eapply ti_inj0; eauto). discriminate.
        -- rewrite Hop. split; [auto|congruence].
      * (* new region *)
        assert (Hnin : ~ In k (kids older p)) by (rewrite <- (ti_kid _ _ _ I); congruence).
        set (i := List.length (ts_nodes s)).
        set (nd' := mkTn _ _ _ _ ((k, i) :: tn_children n) _ _). set (new := mkTn k 0 0 (Some c) [] [] 0).
        assert (Li : nth_error (set_nth c nd' (ts_nodes s) ++ [new]) i = Some new).
        { rewrite nth_error_app2; rewrite set_nth_length by auto; fold i; [|lia]. now rewrite Nat.sub_diag. }
        rewrite Li. set (nodes := set_nth c nd' (ts_nodes s) ++ [new]) in *.
        assert (Ll : List.length nodes = S i).
        { unfold nodes. rewrite app_length, set_nth_length by auto. cbn. unfold i. lia. }
        assert (Lc2 : nth_error nodes c = Some nd').
        { unfold nodes. rewrite nth_error_app1 by (rewrite set_nth_length; auto). now apply set_nth_same. }
        assert (Lo : forall j, (j < i)%nat -> j <> c -> nth_error nodes j = nth_error (ts_nodes s) j).
        { intros j Hj Nj. unfold nodes. rewrite nth_error_app1 by (rewrite set_nth_length; auto). rewrite set_nth_other; auto. }
        set (ix' := fun q => if path_eqb (k :: p) q then Some i else ix q).
        assert (Xn : ix' (k :: p) = Some i) by (unfold ix'; now rewrite path_eqb_refl).
        assert (Xo : forall q, q <> k :: p -> ix' q = ix q).
        { intros q Hq. unfold ix'. destruct (path_eqb (k :: p) q) eqn:Q; [|auto]. apply path_eqb_eq in Q. congruence. }
        assert (Xlt : forall q j, ix q = Some j -> (j < i)%nat) by (intros q j Hq; exact (tinv_lt _ _ _ _ _ I Hq)).
        assert (Nodes : forall j, j <> i -> nth_error (set_nth i (mkTn (tn_name new) (tn_time new) (tn_calls new) (tn_parent new)
            (tn_children new) (tn_order new) now) nodes) j = nth_error nodes j).
        { intros j Hj. apply set_nth_other; [rewrite Ll; lia|auto]. }
        assert (Kk : kids older (k :: p) = []) by (apply (ti_none _ _ _ I); auto).
        assert (Kp : kids (EPush 0 par nm now :: older) p = kids older p ++ [k]).
        { rewrite Hki, path_eqb_refl. destruct (in_dec string_dec k (kids older p)); [contradiction|auto]. }
        assert (Ko : forall q, q <> p -> kids (EPush 0 par nm now :: older) q = kids older q).
        { intros q Hq. rewrite Hki. destruct (path_eqb p q) eqn:Q; [|auto]. apply path_eqb_eq in Q. congruence. }
        eexists. exists ix'. split; [reflexivity|]. split; cbn [ts_nodes ts_cur].
        -- rewrite Xo by discriminate. apply (ti_root _ _ _ I).
        -- intros q r j Hq Hr. destruct (list_eq_dec string_dec q (k :: p)) as [Q|Q], (list_eq_dec string_dec r (k :: p)) as [R|R].
           ++ congruence.
           ++ subst q. rewrite Xn in Hq. rewrite Xo in Hr by auto. apply Xlt in Hr. injection Hq as <-. lia.
           ++ subst r. rewrite Xn in Hr. rewrite Xo in Hq by auto. apply Xlt in Hq. injection Hr as <-. lia.
           ++ rewrite Xo in Hq, Hr by auto. eapply (ti_inj _ _ _ I); eauto.
        -- intros q k'. destruct (list_eq_dec string_dec q p) as [->|Q].
           ++ rewrite Kp, in_app_iff. destruct (string_dec k' k) as [->|W].
              ** rewrite Xn. split; [intros _; right; now left|discriminate].
              ** rewrite Xo by congruence. rewrite (ti_kid _ _ _ I). split; [auto|]. intros [H|[H|[]]]; [auto|congruence].
           ++ rewrite Ko by auto. rewrite Xo by congruence. apply (ti_kid _ _ _ I).
        -- intros q Hq. destruct (list_eq_dec string_dec q (k :: p)) as [->|Q]; [congruence|].
           rewrite Xo in Hq by auto. rewrite Hca, Hsp. rewrite Ko by congruence. now apply (ti_none _ _ _ I).
        -- intros q j Hq. rewrite Hca, Hsp, Hsi. destruct (list_eq_dec string_dec q (k :: p)) as [->|Q].
           ++ rewrite Xn in Hq. injection Hq as <-. eexists. split; [apply set_nth_same; rewrite Ll; lia|]. unfold new. cbn [tn_name tn_time tn_calls tn_parent tn_order tn_start tn_children hd].
              destruct (ti_none _ _ _ I _ Ek) as (_ & Z1 & Z2). split; [auto|]. split; [auto|]. split; [auto|].
              split; [rewrite Xo by (intros E; symmetry in E; revert E; apply cons_neq); auto|].
              split; [|split].
              ** intros k'. rewrite Xo by apply cons_neq. destruct (ix (k' :: k :: p)) eqn:W; [|reflexivity].
                 exfalso. assert (U : ix (k' :: k :: p) <> None) by congruence. apply (ti_kid _ _ _ I) in U. rewrite Kk in U. destruct U.
              ** rewrite Ko; [auto|]. apply cons_neq.
              ** intros _. now rewrite path_eqb_refl.
           ++ rewrite Xo in Hq by auto. pose proof (Xlt _ _ Hq) as Lj. rewrite Nodes by lia.
              destruct (path_eqb (k :: p) q) eqn:Q2; [apply path_eqb_eq in Q2; congruence|].
              destruct (list_eq_dec string_dec q p) as [->|Q3].
              ** assert (j = c) by congruence. subst j. exists nd'. split; [auto|]. unfold nd'. cbn [tn_name tn_time tn_calls tn_parent tn_order tn_start tn_children].
                 split; [auto|]. split; [auto|]. split; [auto|]. split.
                 { rewrite N4. destruct p as [|x p']; [auto|]. symmetry. apply Xo. intros E.
                   apply (f_equal (@List.length string)) in E. cbn in E. lia. }
                 split; [|split; [rewrite Kp; now rewrite N6|auto]].
                 intros k'. unfold child. cbn. destruct (String.eqb_spec k k') as [<-|W].
                 { cbn. now rewrite Xn. }
                 { rewrite Xo by congruence. rewrite <- N5. reflexivity. }
              ** assert (j <> c).
                 { intros ->. apply Q3. eapply (ti_inj _ _ _ I); eauto. }
                 rewrite Lo by auto. destruct (ti_node _ _ _ I q j Hq) as (m & Em & M1 & M2 & M3 & M4 & M5 & M6 & M7).
                 exists m. split; [auto|]. split; [auto|]. split; [auto|]. split; [auto|]. split.
                 { rewrite M4. destruct q as [|x q']; [auto|]. symmetry. apply Xo. intros ->.
                   assert (U : ix (x :: k :: p) <> None) by congruence. apply (ti_kid _ _ _ I) in U. rewrite Kk in U. destruct U. }
                 split; [|split; [rewrite Ko by auto; auto|auto]].
                 intros k'. rewrite M5. symmetry. apply Xo. congruence.
        -- intros m Hm. assert (i <> 0%nat).
           { pose proof (Xlt _ _ (ti_root _ _ _ I)). lia. }
           rewrite Nodes in Hm by auto. destruct (Nat.eq_dec c 0) as [->|Nc].
           ++ rewrite Lc2 in Hm. injection Hm as <-. cbn. apply (ti_start _ _ _ I). auto.
           ++ rewrite Lo in Hm by lia. now apply (ti_start _ _ _ I).
        -- rewrite Hop. split; [auto|congruence].
    + rewrite Hc. exists s, ix. split; [auto|]. destruct I. split; auto.
      * intros q k'. rewrite Hki. auto.
      * intros q Hq. rewrite Hki, Hca, Hsp. auto.
      * intros q i Hq. rewrite Hki, Hca, Hsp, Hsi. auto.
      * rewrite Hop. auto.
  - exists s, ix. split; [reflexivity|]. apply Same; auto.
  - eapply Pop; intros; try reflexivity.
  - exists s, ix. split; [reflexivity|]. apply Same; auto.
  - eapply Pop; intros; try reflexivity.
  - exists s, ix. split; [reflexivity|]. apply Same; auto.
Qed.

Lemma run_inv : forall hist, exists s ix, t_run hist = Ok s /\ tinv s hist ix.
Proof.
  induction hist as [|e r (s & ix & E & I)].
  - exists t_init, (fun p => match p with [] => Some 0%nat | _ => None end). split; [auto|]. split.
    + auto.
    + intros [|a p] [|b q] i; congruence.
    + intros p k. cbn. split; [congruence|intros []].
    + intros [|a p] H; [discriminate|]. auto.
    + intros [|a p] i H; [|discriminate]. injection H as <-. exists t_root. cbn. repeat split; auto.
    + cbn. intros n [= <-]. auto.
    + cbn. split; [auto|discriminate].
  - cbn [t_run]. rewrite E. cbn [bind]. destruct (step_inv e r s ix I) as (s' & ix' & E' & I'). eauto.
Qed.

(** The node reached from the root along a path (innermost region first). *)
Fixpoint at_path (s : tstate) (p : list string) : option nat :=
  match p with
  | [] => Some 0%nat
  | k :: q => match at_path s q with
              | Some i => match nth_error (ts_nodes s) i with Some n => child k n | None => None end
              | None => None
              end
  end.
Lemma at_path_ix : forall s hist ix, tinv s hist ix -> forall p, at_path s p = ix p.
Proof.
  intros s hist ix I. induction p as [|k q IH]; [symmetry; apply (ti_root _ _ _ I)|]. cbn. rewrite IH.
  destruct (ix q) as [i|] eqn:E.
  - destruct (ti_node _ _ _ I q i E) as (n & En & _ & _ & _ & _ & C & _). now rewrite En.
  - destruct (ix (k :: q)) eqn:E2; [|auto]. exfalso. eapply (tinv_kids_used _ _ _ q k I); congruence.
Qed.

Lemma opened_length : forall hist p, opened hist = Some p -> (List.length p <= List.length hist)%nat.
Proof.
  induction hist as [|e r IH]; intros p H.
  - injection H as <-. auto.
  - destruct e as [[|t] par nm now|[|t] now|[|t] d]; cbn in H;
      try (specialize (IH _ H); cbn; lia);
      destruct (opened r) as [q|]; try discriminate.
    + injection H as <-. specialize (IH q eq_refl). cbn. lia.
    + destruct q as [|x q]; [discriminate|]. injection H as <-. specialize (IH _ eq_refl). cbn in *. lia.
    + destruct q as [|x q]; [discriminate|]. injection H as <-. specialize (IH _ eq_refl). cbn in *. lia.
Qed.
Lemma kids_deep : forall hist p, (List.length hist <= List.length p)%nat -> kids hist p = [].
Proof.
  induction hist as [|e r IH]; intros p H; [auto|]. cbn in H.
  destruct e as [[|t] par nm now|[|t] now|[|t] d]; cbn [kids]; try (apply IH; lia).
  unfold is_open. destruct (opened r) as [q|] eqn:E; [|apply IH; lia].
  destruct (path_eqb q p) eqn:Q; [|apply IH; lia]. apply path_eqb_eq in Q. subst q.
  apply opened_length in E. lia.
Qed.
Lemma kids_nodup : forall hist p, NoDup (kids hist p).
Proof.
  induction hist as [|e r IH]; intros p; [constructor|].
  destruct e as [[|t] par nm now|[|t] now|[|t] d]; cbn [kids]; auto.
  destruct (is_open r p); auto. destruct (in_dec string_dec (opens par nm) (kids r p)) as [|N]; auto.
  rewrite <- (rev_involutive (kids r p ++ [opens par nm])). apply NoDup_rev.
  rewrite rev_app_distr. cbn. constructor; [now rewrite <- in_rev|]. apply NoDup_rev, IH.
Qed.

Lemma print_spec : forall s hist ix, tinv s hist ix -> forall n p i,
  ix p = Some i -> (List.length hist <= n + List.length p)%nat ->
  t_print (S n) (ts_nodes s) (List.length p) i =
  Some ((match p with [] => [] | k :: _ => [(List.length p, k, calls hist p, spent hist p)] end) ++ listing n hist p).
Proof.
  intros s hist ix I. induction n as [|n IH]; intros p i E H;
    destruct (ti_node _ _ _ I p i E) as (nd & En & N1 & N2 & N3 & N4 & N5 & N6 & N7).
  - cbn [t_print]. rewrite En, N6. rewrite kids_deep by lia. cbn [fold_left listing]. rewrite app_nil_r. f_equal.
    destruct p as [|k p].
    + rewrite (ti_root _ _ _ I) in E. injection E as <-. reflexivity.
    + destruct (Nat.eqb_spec i 0) as [->|Ni].
      * assert (k :: p = []) by (eapply (ti_inj _ _ _ I); eauto; apply (ti_root _ _ _ I)). discriminate.
      * rewrite N1, N2, N3. reflexivity.
  - remember (S n) as m eqn:Em. cbn [t_print]. rewrite En, N6. subst m.
    set (line := match p with [] => [] | k :: _ => _ end).
    replace (if Nat.eqb i 0 then [] else [(List.length p, tn_name nd, tn_calls nd, tn_time nd)]) with line.
    2:{ unfold line. destruct p as [|k p].
        - rewrite (ti_root _ _ _ I) in E. injection E as <-. reflexivity.
        - destruct (Nat.eqb_spec i 0) as [->|Ni].
          + assert (k :: p = []) by (eapply (ti_inj _ _ _ I); eauto; apply (ti_root _ _ _ I)). discriminate.
          + rewrite N1, N2, N3. reflexivity. }
    cbn [listing].
    assert (G : forall ks acc, (forall k, In k ks -> In k (kids hist p)) ->
      fold_left (fun acc name => match acc, child name nd with
            | Some a, Some i => match t_print (S n) (ts_nodes s) (S (List.length p)) i with Some b => Some (a ++ b) | None => None end
            | _, _ => None end) ks (Some acc) =
      Some (acc ++ flat_map (fun k => (S (List.length p), k, calls hist (k :: p), spent hist (k :: p)) :: listing n hist (k :: p)) ks)).
    { induction ks as [|k ks IHk]; intros acc Hks; cbn [fold_left flat_map]; [now rewrite app_nil_r|].
      rewrite N5. assert (U : ix (k :: p) <> None) by (apply (ti_kid _ _ _ I), Hks; now left).
      destruct (ix (k :: p)) as [j|] eqn:Ej; [|congruence].
      pose proof (IH (k :: p) j Ej ltac:(cbn; lia)) as P. cbn [List.length] in P. rewrite P.
      rewrite IHk by (intros; apply Hks; now right). now rewrite <- app_assoc. }
    now apply G.
Qed.

(** For every history of push, pop and pop(elapsed) by any threads, in any
    interleaving: the calls never fault; the current timer is the open path (none
    once the outermost was popped); every region ever opened, and no other, is a
    node of the tree with the right number of calls and time; children are listed
    once each in order of first use; and the report lists the tree. *)
Theorem C37_timers : forall hist, exists s, t_run hist = Ok s /\
  match opened hist with
  | Some p => exists i, ts_cur s = Some i /\ at_path s p = Some i
  | None => ts_cur s = None
  end /\
  (forall p k, at_path s (k :: p) <> None <-> In k (kids hist p)) /\
  (forall p i, at_path s p = Some i -> exists n, nth_error (ts_nodes s) i = Some n /\
     tn_calls n = calls hist p /\ tn_time n = spent hist p /\ tn_order n = kids hist p /\ NoDup (tn_order n)) /\
  (forall p q i, at_path s p = Some i -> at_path s q = Some i -> p = q) /\
  (forall fuel, (List.length hist < fuel)%nat -> t_report fuel s = Some (listing (pred fuel) hist [])).
Proof.
  intros hist. destruct (run_inv hist) as (s & ix & E & I). exists s. split; [auto|].
  pose proof (at_path_ix s hist ix I) as A. split; [|split; [|split; [|split]]].
  - pose proof (ti_cur _ _ _ I) as C. destruct (opened hist) as [p|]; [|auto]. destruct C as (C & U).
    destruct (ix p) as [i|] eqn:Ep; [|congruence]. exists i. rewrite A. auto.
  - intros p k. rewrite A. apply (ti_kid _ _ _ I).
  - intros p i H. rewrite A in H. destruct (ti_node _ _ _ I p i H) as (n & En & N1 & N2 & N3 & N4 & N5 & N6 & N7).
    exists n. rewrite N6. repeat split; auto. apply kids_nodup.
  - intros p q i H1 H2. rewrite A in H1, H2. eapply (ti_inj _ _ _ I); eauto.
  - intros [|n] H; [lia|]. unfold t_report. cbn [pred].
    exact (print_spec s hist ix I n [] 0%nat (ti_root _ _ _ I) ltac:(cbn; lia)).
Qed.
Print Assumptions C37_timers.

(** After a balanced sequence of calls the same path is open as before it. *)
Theorem C37_balanced : forall w, balanced w -> forall older p, opened older = Some p -> opened (w ++ older) = Some p.
Proof.
  intros w B. induction B as [|a b Ba IHa Bb IHb|e He|par nm t0 t1 w B IH|par nm t0 d w B IH]; intros older p H.
  - auto.
  - rewrite <- app_assoc. apply IHa, IHb, H.
  - destruct e as [[|t] par nm now|[|t] now|[|t] d]; cbn in *; tauto.
  - cbn [app opened]. rewrite <- app_assoc. rewrite (IH _ (opens par nm :: p)); [auto|]. cbn. now rewrite H.
  - cbn [app opened]. rewrite <- app_assoc. rewrite (IH _ (opens par nm :: p)); [auto|]. cbn. now rewrite H.
Qed.
Print Assumptions C37_balanced.

(** a { b {} } a { b {} c {} }; another thread's push is ignored; one pop too many at the end. *)
Example C37_case :
  let hist := [EPop 0 20; EPop 0 19; EPop 0 18; EPush 0 true "c" 17; EPush 3 true "x" 16; EPopFor 0 5; EPush 0 false "b" 14; EPush 0 false "a" 13;
               EPop 0 10; EPop 0 7; EPush 0 false "b" 4; EPush 0 false "a" 1]%string in
  opened hist = None /\ calls hist ["a"]%string = 2 /\ spent hist ["a"]%string = 15 /\ spent hist ["b"; "a"]%string = 8 /\
  kids hist ["a"]%string = ["b"; "c (master thread only)"]%string /\
  match t_run hist with
  | Ok s => ts_cur s = None /\ t_report 13 s =
      Some [(1%nat, "a", 2, 15); (2%nat, "b", 2, 8); (2%nat, "c (master thread only)", 1, 1)]%string
  | _ => False end.
Proof. vm_compute. repeat split. Qed.
