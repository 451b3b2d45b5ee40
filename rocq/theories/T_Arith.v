(** * T_Arith: lazy arithmetic expressions (C42). *)
From Coq Require Import List ZArith Lia Bool.
From Verif Require Import Base Heap M_Addr L_Addr L_Elt M_Arith S_Arith.
Import ListNotations.
Open Scope Z_scope.

Lemma Forall2_imp : forall A B (R R' : A -> B -> Prop) l m, (forall x y, R x y -> R' x y) -> Forall2 R l m -> Forall2 R' l m.
Proof. intros A B R R' l m H F. induction F; constructor; auto. Qed.

Section A.
  Context {O : Ops}.
  Notation T := (car O).

  (** [represents m o y e]: following [o] through the live tuples gives the tree [e]. *)
  Fixpoint represents (m : amem) (o : opnd) (y : aty) (e : aexp O) : Prop :=
    match y, e with
    | YScal, EScal x => o = OScal x
    | YTen, ETen d => o = OTen d
    | YBin op yl yr, EBin op' l r => op = op' /\ exists id a b, o = OTup id /\ (id < am_next m)%nat /\
        am_at m id = Some (TBin op a b) /\ represents m a yl l /\ represents m b yr r
    | YNeg yx, ENeg x => exists id a, o = OTup id /\ (id < am_next m)%nat /\ am_at m id = Some (TNeg a) /\ represents m a yx x
    | _, _ => False
    end.

  (** Same live tuples below [n]. *)
  Definition agree (n : nat) (m m' : amem (O := O)) : Prop := forall k, (k < n)%nat -> am_at m' k = am_at m k.

  Lemma represents_mono : forall y m m' o e, agree (am_next m) m m' -> (am_next m <= am_next m')%nat ->
    represents m o y e -> represents m' o y e.
  Proof.
    induction y; intros m m' o e Ha Hn H; destruct e; simpl in *; try contradiction; auto.
    - destruct H as (-> & id & a & b & -> & Hid & E & Hl & Hr). split; auto. exists id, a, b.
      repeat split; eauto. lia. rewrite Ha by auto. auto.
    - destruct H as (id & a & -> & Hid & E & Hx). exists id, a. repeat split; eauto. lia. rewrite Ha by auto. auto.
  Qed.

  Definition env_ok (m : amem) (names : list (nat * aty)) (env : list (aexp O)) : Prop :=
    Forall2 (fun ny e => represents m (OTup (fst ny)) (snd ny) e) names env.

  Lemma build_spec : forall e names env m, has_names env e -> env_ok m names env ->
    exists m' o y, build names e m = Ok (m', o, y) /\ agree (am_next m) m m' /\ (am_next m <= am_next m')%nat /\
      represents m' o y (expand env e).
  Proof.
    induction e as [x|d|n|op l IHl r IHr|x IHx]; intros names env m Hn He; simpl in Hn |- *.
    - exists m, (OScal x), YScal. repeat split; auto.
    - exists m, (OTen d), YTen. repeat split; auto.
    - assert (G : exists id y, nth_error names n = Some (id, y) /\ represents m (OTup id) y (nth n env (EVar n))).
      { clear - Hn He. revert n Hn. induction He as [|(id, y) e ns es H He IH]; intros [|n] Hn; simpl in *; try lia.
        - exists id, y. split; auto.
        - destruct (IH n ltac:(lia)) as (id' & y' & E & R). exists id', y'. split; auto.
          rewrite (nth_indep _ _ (EVar n)) by lia. auto. }
      destruct G as (id & y & E & R). rewrite E. exists m, (OTup id), y. repeat split; auto.
    - destruct Hn as (Hl & Hr). destruct (IHl names env m Hl He) as (m1 & ol & yl & E1 & A1 & N1 & R1). rewrite E1. simpl.
      assert (He1 : env_ok m1 names env).
      { eapply Forall2_imp; [|exact He]. intros [id y] e R. now apply (represents_mono _ m). }
      destruct (IHr names env m1 Hr He1) as (m2 & or & yr & E2 & A2 & N2 & R2). rewrite E2. simpl.
      eexists _, _, _. split; [reflexivity|]. simpl. split; [|split].
      + intros k Hk. simpl. destruct (Nat.eqb_spec k (am_next m2)); [lia|]. rewrite A2 by lia. apply A1. auto.
      + lia.
      + set (m3 := mkAm _ _). assert (A3 : agree (am_next m2) m2 m3).
        { intros k Hk. simpl. destruct (Nat.eqb_spec k (am_next m2)); [lia|auto]. }
        split; auto. exists (am_next m2), ol, or. split; auto. split; [simpl; lia|]. split.
        * simpl. now rewrite Nat.eqb_refl.
        * split; [|apply (represents_mono _ m2); auto; simpl; lia].
          apply (represents_mono _ m2); auto; [simpl; lia|]. apply (represents_mono _ m1); auto.
    - destruct (IHx names env m Hn He) as (m1 & ox & yx & E1 & A1 & N1 & R1). rewrite E1. simpl.
      eexists _, _, _. split; [reflexivity|]. simpl. split; [|split].
      + intros k Hk. simpl. destruct (Nat.eqb_spec k (am_next m1)); [lia|]. apply A1. auto.
      + lia.
      + set (m3 := mkAm _ _). assert (A3 : agree (am_next m1) m1 m3).
        { intros k Hk. simpl. destruct (Nat.eqb_spec k (am_next m1)); [lia|auto]. }
        exists (am_next m1), ox. split; auto. split; [simpl; lia|]. split.
        * simpl. now rewrite Nat.eqb_refl.
        * apply (represents_mono _ m1); auto. simpl; lia.
  Qed.

  (** Evaluation agrees with the value of the tree. *)
  Lemma compute_value : forall y m o e h idx v, represents m o y e -> value h idx e v -> compute y m o h idx = Ok v.
  Proof.
    induction y; intros m o e h idx v R V; destruct e; simpl in R; try contradiction; simpl.
    - subst o. inversion V; subst. reflexivity.
    - subst o. inversion V; subst. unfold tget. rewrite subscript_inb by auto. now apply rd_some.
    - destruct R as (-> & id & a & b & -> & _ & E & Hl & Hr). rewrite E.
      inversion V; subst; rewrite (IHy1 m a e1 h idx a0), (IHy2 m b e2 h idx b0) by auto; reflexivity.
    - destruct R as (id & a & -> & _ & E & Hx). rewrite E. inversion V; subst. rewrite (IHy m a e h idx a0) by auto. reflexivity.
  Qed.

  (** The value at [idx] only depends on the elements at [idx]. *)
  Lemma value_local : forall (e : aexp O) (h h' : heap T) idx v, (forall d, occurs d e -> h' (addr d idx) = h (addr d idx)) ->
    value h idx e v -> value h' idx e v.
  Proof.
    intros e h h' idx v H V. induction V; simpl in H; try (constructor; auto; fail).
    constructor; auto. unfold elem in *. rewrite H; auto.
  Qed.

  Lemma assign_spec : forall D y m o e (h : heap T) (f : list Z -> T), represents m o y e -> inj D ->
    (forall d, occurs d e -> fresh_or_same D d) ->
    (forall idx, inb idx (ddims D) -> elem h D idx <> None /\ value h idx e (f idx)) ->
    (forall idx d, inb idx (ddims D) -> occurs d e -> inb idx (ddims d)) ->
    exists h', arith_assign D y m o h = Ok h' /\ (forall idx, inb idx (ddims D) -> elem h' D idx = Some (f idx)) /\
      (forall a, ~ cell D a -> h' a = h a).
  Proof.
    intros D y m o e h f R HI HS HV Hin. unfold arith_assign.
    destruct (forM_cells (list Z) T (indices (ddims D)) (addr D) f
      (fun idx h => v <- compute y m o h idx ;; tset h D idx v) h) as (h' & E & A & B).
    - now apply addr_NoDup.
    - intros idx h' Hi Hsame. apply in_indices in Hi. destruct (HV idx Hi) as (Hc & V).
      rewrite (compute_value y m o e h' idx (f idx)); auto.
      + simpl. unfold tset. rewrite subscript_inb by auto. 
        unfold elem in Hc. destruct (h (addr D idx)) as [w|] eqn:Ew; [|congruence].
        apply wr_some with w. rewrite Hsame by auto. auto.
      + apply (value_local e h); auto. intros d Hd. apply Hsame.
        destruct (HS d Hd) as [Hdis|Hsm].
        * right. rewrite in_addrs. intros (j & Hj & Ej). apply (Hdis j idx Hj (Hin idx d Hi Hd)). auto.
        * left. auto.
    - exists h'. split; auto. split.
      + intros idx Hi. apply A. now apply in_indices.
      + intros a Ha. apply B. now rewrite in_addrs.
  Qed.

  Lemma value_occurs : forall (e : aexp O) (h : heap T) idx v d, value h idx e v -> occurs d e -> inb idx (ddims d).
  Proof.
    intros e h idx v d V. induction V; simpl; intros Hd; try contradiction; try (destruct Hd; auto; fail); subst; auto.
  Qed.
  Lemma value_fun : forall (e : aexp O) (h : heap T) idx v w, value h idx e v -> value h idx e w -> v = w.
  Proof.
    intros e h idx v w V. revert w. induction V; intros w W; inversion W; subst; auto; try congruence;
      try (f_equal; auto; fail).
  Qed.

  Lemma represents_kept : forall y m m' o e (keep : nat -> Prop), 
    (forall k, keep k -> am_at m' k = am_at m k) -> (am_next m <= am_next m')%nat ->
    (forall id, (id < am_next m)%nat -> keep id) ->
    represents m o y e -> represents m' o y e.
  Proof. intros y m m' o e keep H1 H2 H3 R. apply (represents_mono y m); auto. intros k Hk. auto. Qed.

  Lemma env_kept : forall m m' names env, agree (am_next m) m m' -> (am_next m <= am_next m')%nat ->
    env_ok m names env -> env_ok m' names env.
  Proof.
    intros m m' names env A N H. eapply Forall2_imp; [|exact H]. intros [id y] e R. now apply (represents_mono _ m).
  Qed.

  (** A flat named expression survives the end of its statement. *)
  Lemma let_spec : forall e names env m, flat_exp e -> has_names env e -> env_ok m names env ->
    exists m' id y, build names e m = Ok (m', OTup id, y) /\
      env_ok (end_statement (Some id) (am_next m) m') (names ++ [(id, y)]) (env ++ [expand env e]) /\
      (am_next m <= am_next m')%nat.
  Proof.
    intros e names env m Hf Hn He.
    assert (L : forall x, lasting x -> has_names env x -> exists o y, build names x m = Ok (m, o, y) /\ represents m o y (expand env x)).
    { intros x Hx Hxn. destruct (build_spec x names env m Hxn He) as (m1 & o & y & E & _ & _ & R).
      destruct x; try contradiction; simpl in E.
      - inversion E; subst. exists (OScal x), YScal. split; auto.
      - inversion E; subst. exists (OTen d), YTen. split; auto.
      - simpl. destruct (nth_error names n) as [(id, y')|]; [|discriminate]. inversion E; subst. exists (OTup id), y. split; auto. }
    assert (K : forall t y x, build names e m = Ok (fst (am_new m t), OTup (am_next m), y) ->
       (represents (end_statement (Some (am_next m)) (am_next m) (fst (am_new m t))) (OTup (am_next m)) y (expand env e)) -> x = expand env e ->
       exists m' id y, build names e m = Ok (m', OTup id, y) /\
      env_ok (end_statement (Some id) (am_next m) m') (names ++ [(id, y)]) (env ++ [x]) /\ (am_next m <= am_next m')%nat).
    { intros t y x E R ->. eexists _, _, _. split; [exact E|]. split; [|simpl; lia].
      apply Forall2_app; [|constructor; auto].
      apply (env_kept m); auto.
      - intros k Hk. simpl. destruct (Nat.ltb_spec k (am_next m)); [|lia]. destruct (Nat.eqb_spec k (am_next m)); [lia|auto].
      - simpl. lia. }
    assert (Sv : forall t k, (k < am_next m)%nat -> am_at (end_statement (Some (am_next m)) (am_next m) (fst (am_new m t))) k = am_at m k).
    { intros t k Hk. simpl. destruct (Nat.ltb_spec k (am_next m)); [|lia]. destruct (Nat.eqb_spec k (am_next m)); [lia|auto]. }
    assert (Nw : forall t, am_at (end_statement (Some (am_next m)) (am_next m) (fst (am_new m t))) (am_next m) = Some t).
    { intros t. simpl. destruct (Nat.ltb_spec (am_next m) (am_next m)); [lia|]. now rewrite !Nat.eqb_refl. }
    destruct e as [| | |op l r|x]; try contradiction.
    - destruct Hf as (Fl & Fr). destruct Hn as (Nl & Nr).
      destruct (L l Fl Nl) as (ol & yl & El & Rl). destruct (L r Fr Nr) as (or & yr & Er & Rr).
      apply (K (TBin op ol or) (YBin op yl yr)); auto.
      + simpl. rewrite El. simpl. rewrite Er. reflexivity.
      + cbn [expand represents]. split; auto. exists (am_next m), ol, or. split; auto. split; [simpl; lia|]. split; [apply Nw|].
        split; apply (represents_mono _ m); auto; try (simpl; lia); intros k Hk; apply Sv; auto.
    - destruct (L x Hf Hn) as (ox & yx & Ex & Rx).
      apply (K (TNeg ox) (YNeg yx)); auto.
      + simpl. rewrite Ex. reflexivity.
      + cbn [expand represents]. exists (am_next m), ox. split; auto. split; [simpl; lia|]. split; [apply Nw|].
        apply (represents_mono _ m); auto; try (simpl; lia); intros k Hk; apply Sv; auto.
  Qed.
End A.

Definition lets_flat {O : Ops} (p : list (astmt O)) : Prop :=
  Forall (fun s => match s with SLet e => flat_exp e | _ => True end) p.

(** C42.  A program of declarations of named expressions and of assignments of
    expressions of any depth (built from tensors, views, scalars and names with
    + - * / and unary minus): it does not fail and leaves the memory the
    expressions mean: at every index of the target the value of the expression
    there, nothing else changed.
    What is missing: a named expression may only be built from tensors, scalars
    and names ([C42_stored_refuted]); an operand may overlap the target only as
    the target itself ([C42_alias_refuted]); every operand must have the target's
    indices ([C42_shape_refuted]). *)
Theorem C42_program_partial : forall (O : Ops) (p : list (astmt O)) h h', lets_flat p -> meaning p [] h h' ->
  exists st, arith_run p h = Ok st /\ forall a, st_heap st a = h' a.
Proof.
  intros O p h h' HF HM. unfold arith_run.
  assert (G : forall (p : list (astmt O)) env (h0 h' : heap (car O)), meaning p env h0 h' -> lets_flat p ->
     forall m names (h : heap (car O)), env_ok m names env -> (forall a, h a = h0 a) ->
     exists st : ast (O := O), forM p arith_step (mkAst m names h) = Ok st /\ forall a, st_heap st a = h' a).
  { clear. intros p env h0 h' HM. induction HM as [env h0|e p env h0 h' Hn HM IH|D e p env h0 h1 h' Hn HI HS HV HO HM IH];
      intros HF m names h He Hh; simpl.
    - eexists. split; [reflexivity|]. auto.
    - inversion HF; subst. destruct (let_spec e names env m H1 Hn He) as (m' & id & y & E & K & N). rewrite E. simpl.
      apply IH; auto.
    - inversion HF; subst. destruct (build_spec e names env m Hn He) as (m' & o & y & E & A & N & R). rewrite E. simpl.
      (* the values *)
      assert (HV' : forall idx, inb idx (ddims D) -> exists v, value h idx (expand env e) v /\ elem h1 D idx = Some v).
      { intros idx Hi. destruct (HV idx Hi) as (_ & v & V & Ev). exists v. split; auto.
        apply (value_local _ h0); auto. }
      set (f := fun idx => match elem h1 D idx with Some v => v | None => o0 end).
      destruct (assign_spec D y m' o (expand env e) h f R HI HS) as (h2 & E2 & A2 & B2).
      + intros idx Hi. split.
        * destruct (HV idx Hi) as (Hc & _). unfold elem in *. rewrite Hh. auto.
        * destruct (HV' idx Hi) as (v & V & Ev). unfold f. rewrite Ev. auto.
      + intros idx d Hi Hd. destruct (HV' idx Hi) as (v & V & _). eapply value_occurs; eauto.
      + rewrite E2. simpl. apply IH; auto.
        * apply (env_kept m); auto. intros k Hk. simpl. destruct (Nat.ltb_spec k (am_next m)); [|lia]. apply A; auto.
        * intros a. destruct (in_dec Z.eq_dec a (map (addr D) (indices (ddims D)))) as [Hi|Hi].
          -- apply in_map_iff in Hi. destruct Hi as (idx & <- & Hi). apply in_indices in Hi.
             assert (X := A2 idx Hi). unfold elem in X. rewrite X. destruct (HV' idx Hi) as (v & _ & Ev). unfold f. rewrite Ev. 
             unfold elem in Ev. auto.
          -- rewrite in_addrs in Hi. rewrite B2, HO by auto. auto. }
  destruct (G p [] h h' HM HF (mkAm (fun _ => None) 0%nat) [] h) as (st & E & A); auto.
  - constructor.
  - exists st. split; auto.
Qed.
Print Assumptions C42_program_partial.

(** C42 fails for [auto e = A + B + C; D = e;]: the inner sum is a temporary
    destroyed with its statement; [e] points to it. *)
Theorem C42_stored_refuted : forall (O : Ops) A B C D (h : heap (car O)), indices (ddims D) <> [] ->
  arith_run [SLet (EBin AAdd (EBin AAdd (ETen A) (ETen B)) (ETen C)); SAssign D (EVar 0)] h = UB.
Proof.
  intros O A B C D h HD. unfold arith_run. cbn [forM arith_step build bind am_new am_next am_at st_names st_mem st_heap app nth_error].
  unfold arith_assign. destruct (indices (ddims D)) as [|i r]; [congruence|]. reflexivity.
Qed.

(** C42 fails when the target is read through a view of itself at other
    indices: [A = transpose_of_A + 0] makes A symmetric instead. *)
Theorem C42_alias_refuted :
  let A := tensor_ctor 0 [2; 2] in let At := mkDesc 0 [2; 2] [1; 2] in
  let h : heap (car ZOps) := fun a => if (0 <=? a) && (a <? 4) then Some a else None in
  exists st, arith_run [SAssign A (EBin AAdd (ETen At) (EScal (O := ZOps) 0))] h = Ok st /\
    value (O := ZOps) h [1; 0] (EBin AAdd (ETen At) (EScal (O := ZOps) 0)) 1 /\ elem (st_heap st) A [1; 0] = Some 2.
Proof.
  cbv zeta. eexists. split; [reflexivity|]. split; [|reflexivity].
  apply (v_add (O := ZOps) _ _ _ _ 1 0); constructor; [|reflexivity]. repeat constructor; lia.
Qed.

(** C42: operands of other extents are not rejected: [D = B + C] with a shorter
    [B] reads past it. *)
Theorem C42_shape_refuted :
  let D := tensor_ctor 0 [3] in let B := tensor_ctor 10 [2] in
  let h : heap (car ZOps) := fun a => if ((0 <=? a) && (a <? 3)) || ((10 <=? a) && (a <? 12)) then Some a else None in
  arith_run [SAssign D (EBin AAdd (ETen B) (ETen D))] h = UB.
Proof. reflexivity. Qed.

(** Case: [auto e = A * 2; D = e - (B / A + D);] on vectors of length 2. *)
Example C42_case :
  let A := tensor_ctor 0 [2] in let B := tensor_ctor 2 [2] in let D := tensor_ctor 4 [2] in
  let h : heap (car ZOps) := fun a => nth_error [3; 5; 12; 40; 100; 200] (Z.to_nat a) in
  let p := [SLet (EBin AMul (ETen A) (EScal (O := ZOps) 2));
            SAssign D (EBin ASub (EVar 0) (EBin AAdd (EBin ADiv (ETen B) (ETen A)) (ETen D)))] in
  lets_flat p /\ (exists h', meaning p [] h h') /\
  match arith_run p h with Ok st => map (st_heap st) [4; 5] = [Some (-98); Some (-198)] | _ => False end.
Proof.
  cbv zeta. split; [repeat constructor|]. split; [|reflexivity].
  set (h := fun a => nth_error [3; 5; 12; 40; 100; 200] (Z.to_nat a)).
  exists (upd (upd h 4 (-98)) 5 (-198)).
  apply m_let; [split; exact I|]. eapply m_assign with (h1 := upd (upd h 4 (-98)) 5 (-198)); [..|apply m_nil].
  - cbn. repeat split. lia.
  - apply rm_inj.
  - intros d Hd. cbn in Hd. 
    assert (K : forall b, b = 0 \/ b = 2 -> fresh_or_same (tensor_ctor 4 [2]) (tensor_ctor b [2])).
    { intros b Hb. left. intros i j Hi Hj. inversion Hi as [|x ? ? ? Hx H']; subst. inversion H'; subst.
      inversion Hj as [|y ? ? ? Hy H2]; subst. inversion H2; subst. unfold addr; cbn. lia. }
    destruct Hd as [[E|[]]|[[E|E]|E]]; subst d; auto. right. auto.
  - intros idx Hi. inversion Hi as [|x ? ? ? Hx H']; subst. inversion H'; subst.
    assert (x = 0 \/ x = 1) as [-> | ->] by lia; (split; [discriminate|]).
    + exists (-98). split; [|reflexivity].
      apply (v_sub (O := ZOps) _ _ _ _ 6 104). apply (v_mul (O := ZOps) _ _ _ _ 3 2); constructor; auto; reflexivity.
      apply (v_add (O := ZOps) _ _ _ _ 4 100). apply (v_div (O := ZOps) _ _ _ _ 12 3); constructor; auto; reflexivity.
      constructor; auto; reflexivity.
    + exists (-198). split; [|reflexivity].
      apply (v_sub (O := ZOps) _ _ _ _ 10 208). apply (v_mul (O := ZOps) _ _ _ _ 5 2); constructor; auto; reflexivity.
      apply (v_add (O := ZOps) _ _ _ _ 8 200). apply (v_div (O := ZOps) _ _ _ _ 40 5); constructor; auto; reflexivity.
      constructor; auto; reflexivity.
  - intros a Ha. rewrite !upd_other; auto; intros ->; apply Ha.
    + exists [0]. split; [repeat constructor; lia|reflexivity].
    + exists [1]. split; [repeat constructor; lia|reflexivity].
Qed.
Print Assumptions C42_stored_refuted.
Print Assumptions C42_alias_refuted.
Print Assumptions C42_shape_refuted.
