(** * L_Value2: every statement preserves the invariant of L_Value. *)
From Coq Require Import List ZArith Lia Bool.
From Verif Require Import Base Heap Conc M_Addr S_Addr L_Addr M_Elt M_Value S_Value L_Value.
Import ListNotations.
Open Scope Z_scope.

Definition elems {T} (v : aval T) : list T := match v with Hollow _ => [] | Val _ xs => xs end.

Lemma rep_elems : forall T (h : heap T) o v, rep_obj h o v -> Z.of_nat (length (elems v)) = ob_len o /\ seg h (dbase (ob_desc o)) (elems v).
Proof.
  intros T h o [st|d xs] H; simpl in *.
  - destruct H as (_ & ->). split; auto. intros k Hk. simpl in Hk. lia.
  - destruct H as (_ & _ & _ & H4 & H5 & H6). split; [lia|auto].
Qed.

Lemma shape_ok : forall dims, shape dims = true -> dims <> [] /\ Forall (fun d => 0 <= d) dims.
Proof.
  intros dims H. unfold shape in H. apply andb_true_iff in H as (H1 & H2). split.
  - destruct dims; [discriminate|congruence].
  - apply Forall_forall. intros x Hx. rewrite forallb_forall in H2. specialize (H2 x Hx). lia.
Qed.

Lemma firstn_self : forall T (xs : list T) n ys, Z.of_nat (length xs) = n -> firstn (Z.to_nat n) (xs ++ ys) = xs.
Proof.
  intros T xs n ys H. rewrite firstn_app. replace (Z.to_nat n) with (length xs) by lia. rewrite Nat.sub_diag, firstn_all. simpl. apply app_nil_r.
Qed.

Lemma reshape_to_spec : forall T (zero : T) pl o v dims (h : heap T), place_ok pl -> rep_obj h o v ->
  dims <> [] -> Forall (fun d => 0 <= d) dims ->
  (reshape_to zero pl o dims h = Throw /\ exhausted pl) \/
  exists o' h', reshape_to zero pl o dims h = Ok (o', h') /\
    rep_obj h' o' (Val dims (firstn (Z.to_nat (zprod dims)) (elems v ++ zero_list zero (zprod dims)))) /\
    (forall a, inside o' a -> inside o a \/ h a = None) /\
    (forall a, ~ inside o a -> ~ inside o' a -> h' a = h a) /\
    (forall a, inside o a -> ~ inside o' a -> h' a = None).
Proof.
  intros T zero pl o v dims h HP HR Hne HN. destruct (rep_elems T h o v HR) as (LE & SE).
  assert (HZ := zprod_nonneg dims HN). unfold reshape_to. rewrite data_size_eq by auto.
  destruct (vec_grow_spec T zero pl (dbase (ob_desc o)) (ob_len o) (zprod dims) (elems v) h HP) as [(E & X)|(p & h' & E & H1 & H2 & H3 & H4)]; auto; try lia.
  - left. rewrite E. split; auto.
  - right. rewrite E. cbn [bind fst snd]. do 2 eexists. split; [reflexivity|]. unfold inside. cbn [ob_desc ob_len dbase tensor_ctor].
    split; [|split; [|split]]; auto. simpl. split; auto. split; auto. split; auto. split; auto. split; auto.
    rewrite firstn_length_le; [lia|]. rewrite app_length. unfold zero_list. rewrite repeat_length. lia.
Qed.

Lemma needs_false : forall e d, length e = length d -> needs_realloc e d = false -> e = d /\ ~ In 0 e.
Proof.
  unfold needs_realloc. induction e as [|x e IH]; intros [|y d] HL H; simpl in *; try discriminate; auto.
  apply orb_false_iff in H as (H1 & H2). apply orb_false_iff in H1 as (H0 & H1). destruct (IH d) as (A & B); auto.
  apply negb_false_iff in H1. apply Z.eqb_eq in H1. apply Z.eqb_neq in H0. subst. split; auto. intros [->|]; auto.
Qed.

(** The part of an assignment that gives the target its extents. *)
Lemma fit_spec : forall T (zero : T) pl o v dims (h : heap T), place_ok pl -> rep_obj h o v ->
  dims <> [] -> Forall (fun d => 0 <= d) dims -> length (ddims (ob_desc o)) = length dims ->
  (forall st, v = Hollow st -> In 0 st \/ st <> dims) ->
  let m := if needs_realloc (ddims (ob_desc o)) dims then reshape_to zero pl o dims h else Ok (o, h) in
  (m = Throw /\ exhausted pl) \/
  exists o' h' xs, m = Ok (o', h') /\ rep_obj h' o' (Val dims xs) /\
    (forall e ys, v = Val e ys -> e = dims -> xs = ys) /\
    (forall a, inside o' a -> inside o a \/ h a = None) /\
    (forall a, ~ inside o a -> ~ inside o' a -> h' a = h a) /\
    (forall a, inside o a -> ~ inside o' a -> h' a = None).
Proof.
  intros T zero pl o v dims h HP HR Hne HN HL Hst m. unfold m. destruct (needs_realloc _ _) eqn:E.
  - destruct (reshape_to_spec T zero pl o v dims h) as [X|(o' & h' & E1 & H1 & H2 & H3 & H4)]; auto.
    right. exists o', h'. eexists. split; [exact E1|]. split; [exact H1|]. split; auto.
    intros e ys -> ->. simpl. apply firstn_self. simpl in HR. apply HR.
  - right. destruct (needs_false _ _ HL E) as (Ed & N0). destruct v as [st|e ys].
    + simpl in HR. destruct HR as (Es & _). destruct (Hst st eq_refl); [congruence|congruence].
    + exists o, h, ys. split; auto. assert (e = dims). { destruct HR as (R & _). rewrite R in Ed. exact Ed. }
      subst e. split; auto. split; [intros ? ? X _; congruence|]. split; auto. split; [auto|tauto].
Qed.

Lemma rep_rank : forall T (h : heap T) o v, rep_obj h o v -> length (ddims (ob_desc o)) = rank_of v.
Proof. intros T h o [st|d xs] H; simpl in *; [now destruct H as (-> & _)|]. destruct H as (-> & _). reflexivity. Qed.

Lemma val_dims : forall T (h : heap T) o d xs, rep_obj h o (Val d xs) -> ddims (ob_desc o) = d.
Proof. intros T h o d xs (-> & _). reflexivity. Qed.

(** Copy of all elements with a conversion, by subscripts. *)
Lemma cast_loop : forall T (cv : T -> T) (o src : tobj) d xs ys (h : heap T),
  rep_obj h o (Val d xs) -> rep_obj h src (Val d ys) -> (forall a, inside o a -> ~ inside src a) ->
  exists h', forM (indices (ddims (ob_desc o))) (fun idx h => v <- obj_get src idx h ;; vec_wr o (ordinal o idx) (cv v) h) h = Ok h' /\
    rep_obj h' o (Val d (map cv ys)) /\ (forall a, ~ inside o a -> h' a = h a).
Proof.
  intros T cv o src d xs ys h Ho Hs HD. rewrite (val_dims T h o d xs Ho).
  destruct ys as [|y0 ys'].
  { destruct Hs as (_ & _ & HN & _ & LY & _). simpl in LY. assert (E : indices d = []).
    { destruct (indices d) as [|i l] eqn:E; auto. assert (In i (indices d)) by (rewrite E; now left).
      apply in_indices in H. apply inb_zprod_pos in H. lia. }
    rewrite E. exists h. split; [reflexivity|]. split; auto. destruct Ho as (H1 & H2 & H3 & H4 & H5 & H6). simpl. repeat (split; auto).
    intros k Hk. simpl in Hk. lia. }
  set (ys := y0 :: ys') in *.
  destruct Ho as (O1 & O2 & O3 & O4 & O5 & O6). destruct Hs as (S1 & S2 & S3 & S4 & S5 & S6).
  assert (OO : forall idx, inb idx d -> ordinal o idx = dotp idx (row_major_strides d)).
  { intros idx Hi. unfold ordinal. rewrite O1. simpl. now rewrite wrap_inb. }
  assert (OS : forall idx, inb idx d -> ordinal src idx = dotp idx (row_major_strides d)).
  { intros idx Hi. unfold ordinal. rewrite S1. simpl. now rewrite wrap_inb. }
  set (pos := fun idx => dotp idx (row_major_strides d)).
  assert (AD : forall a, In a (map (fun idx => dbase (ob_desc o) + pos idx) (indices d)) -> inside o a).
  { intros a Ha. apply in_map_iff in Ha as (idx & <- & Hi). apply in_indices in Hi. assert (R := rm_range d idx Hi). unfold inside, pos. lia. }
  assert (DA : forall a, inside o a -> exists idx, inb idx d /\ a = dbase (ob_desc o) + pos idx).
  { intros a Ha. unfold inside in Ha. exists (sentinel_to_indices (a - dbase (ob_desc o)) (row_major_strides d)).
    split; [apply rm_sti_inb; auto; lia|]. unfold pos. rewrite rm_sti_ordinal by (auto; lia). lia. }
  destruct (forM_cells _ T (indices d) (fun idx => dbase (ob_desc o) + pos idx) (fun idx => cv (nth (Z.to_nat (pos idx)) ys y0))
    (fun idx h => v <- obj_get src idx h ;; vec_wr o (ordinal o idx) (cv v) h) h) as (h' & E & H1 & H2).
  - exact (addr_NoDup (tensor_ctor (dbase (ob_desc o)) d) (rm_inj _ _)).
  - intros idx h' Hi Hag. apply in_indices in Hi. assert (R := rm_range d idx Hi). fold (pos idx) in R.
    unfold obj_get. rewrite OS, OO by auto. fold (pos idx).
    rewrite (vec_rd_ok T src (pos idx) h' (nth (Z.to_nat (pos idx)) ys y0)); [|lia|].
    + cbn [bind]. destruct (h (dbase (ob_desc o) + pos idx)) as [w|] eqn:Ew.
      * apply vec_wr_ok with w; [lia|]. rewrite Hag; auto.
      * exfalso. rewrite O6 in Ew by lia. apply nth_error_None in Ew. lia.
    + rewrite Hag; [apply (seg_some T h _ ys); auto; lia|]. right. intros Hc. apply AD in Hc. apply (HD _ Hc). unfold inside. lia.
  - exists h'. split; auto. split.
    + simpl. repeat (split; auto); [now rewrite map_length|]. intros k Hk. simpl in Hk. rewrite map_length in Hk.
      destruct (DA (dbase (ob_desc o) + k)) as (idx & Hi & Ek); [unfold inside, ys in *; simpl in *; lia|].
      rewrite Ek, H1 by (now apply in_indices). assert (pos idx = k) by lia. rewrite H.
      change (cv y0 :: map cv ys') with (map cv ys). rewrite nth_error_map.
      rewrite (nth_error_nth' ys y0) by (unfold ys; simpl; lia). reflexivity.
    + intros a Ha. apply H2. intros Hc. apply Ha. now apply AD.
Qed.

(** ** Reshape *)
Lemma no_m1_id : forall n dims, minus_ones dims = 0%nat -> infer n dims = dims.
Proof.
  intros n dims H. unfold infer. generalize (n / zprod (filter (fun d => negb (d =? -1)) dims)). intros q.
  induction dims as [|d ds IH]; auto. unfold minus_ones in *. simpl in *. destruct (d =? -1); [discriminate|]. now rewrite IH.
Qed.

Lemma no_m1_nonneg : forall dims, minus_ones dims = 0%nat -> Forall (fun k => -1 <= k) dims -> Forall (fun k => 0 <= k) dims.
Proof.
  intros dims H HF. induction HF as [|d ds Hd _ IH]; constructor; unfold minus_ones in *; simpl in H; destruct (Z.eqb_spec d (-1)); try discriminate; auto. lia.
Qed.

Lemma no_m1_filter : forall dims, minus_ones dims = 0%nat -> filter (fun d => negb (d =? -1)) dims = dims.
Proof.
  induction dims as [|d ds IH]; intros H; auto. unfold minus_ones in *. simpl in *. destruct (d =? -1); [discriminate|]. simpl. now rewrite IH.
Qed.

Lemma m1_wild : forall dims, minus_ones dims = wildcards dims.
Proof. intros dims. exact (count_m1_wild dims). Qed.

Lemma one_m1_infer : forall n pre post, minus_ones pre = 0%nat -> minus_ones post = 0%nat ->
  infer n (pre ++ -1 :: post) = pre ++ n / (zprod pre * zprod post) :: post.
Proof.
  intros n pre post H1 H2. unfold infer. rewrite filter_app. cbn [filter]. rewrite Z.eqb_refl. cbn [negb].
  rewrite !no_m1_filter, zprod_app by auto. generalize (n / (zprod pre * zprod post)). intros q.
  rewrite map_app. simpl. f_equal; [|f_equal].
  - clear - H1. induction pre as [|d ds IH]; auto. unfold minus_ones in *. simpl in *. destruct (d =? -1); [discriminate|]. now rewrite IH.
  - clear - H2. induction post as [|d ds IH]; auto. unfold minus_ones in *. simpl in *. destruct (d =? -1); [discriminate|]. now rewrite IH.
Qed.

Definition can_reshape (n : Z) (dims : list Z) : bool :=
  let dims' := infer n dims in
  (Nat.leb (minus_ones dims) 1) && (zprod dims' =? n) && ((Nat.eqb (minus_ones dims) 0) || (zprod dims' >? 0)).

Lemma reshape_infer : forall b e dims, e <> [] -> Forall (fun k => 0 <= k) e -> dims <> [] -> Forall (fun k => -1 <= k) dims ->
  (minus_ones dims = 1%nat -> ~ In 0 dims) ->
  reshape (tensor_ctor b e) dims = (if can_reshape (zprod e) dims then Ok (tensor_ctor b (infer (zprod e) dims)) else Throw) /\
  (can_reshape (zprod e) dims = true -> infer (zprod e) dims <> [] /\ Forall (fun k => 0 <= k) (infer (zprod e) dims)).
Proof.
  intros b e dims He HNe Hd HF H0. assert (HZ := zprod_nonneg e HNe). unfold reshape, can_reshape. cbn [ddims tensor_ctor dbase].
  rewrite (data_size_eq e He). change (count_m1 dims) with (minus_ones dims).
  destruct (Nat.ltb_spec 1 (minus_ones dims)) as [Hw|Hw].
  { destruct (Nat.leb_spec (minus_ones dims) 1); [lia|]. cbn [andb]. split; auto. discriminate. }
  destruct (Nat.leb_spec (minus_ones dims) 1); [|lia]. cbn [andb].
  destruct (Nat.eqb_spec (minus_ones dims) 1) as [E1|E1].
  - rewrite E1. cbn [Nat.eqb orb]. specialize (H0 E1). assert (W := E1). rewrite m1_wild in W.
    destruct (last_m1_split dims 0 0 W) as (pre & post & -> & Wp & Wq & ->). rewrite <- m1_wild in Wp, Wq. simpl plus.
    rewrite product_except_app, set_at_app, one_m1_infer by auto.
    apply Forall_app in HF as (F1 & F2). inversion F2 as [|? ? _ F3]; subst.
    assert (P1 := no_m1_nonneg _ Wp F1). assert (P3 := no_m1_nonneg _ Wq F3).
    assert (Q1 : 0 < zprod pre).
    { apply zprod_pos. apply Forall_forall. intros x Hx. assert (x <> 0) by (intros ->; apply H0, in_or_app; auto).
      rewrite Forall_forall in P1. specialize (P1 x Hx). lia. }
    assert (Q3 : 0 < zprod post).
    { apply zprod_pos. apply Forall_forall. intros x Hx. assert (x <> 0) by (intros ->; apply H0, in_or_app; right; now right).
      rewrite Forall_forall in P3. specialize (P3 x Hx). lia. }
    set (p := zprod pre * zprod post). assert (Hp : 0 < p) by (unfold p; nia).
    assert (Hprod : forall x, zprod (pre ++ x :: post) = x * p) by (intros; rewrite zprod_app; simpl; unfold p; lia).
    rewrite !Hprod. destruct (Z.gtb_spec p (zprod e)) as [Hg|Hg].
    + cbn [bind]. rewrite Z.div_small by lia. rewrite Z.mul_0_l.
      replace (0 >? 0) with false by reflexivity. rewrite andb_false_r. split; auto. discriminate.
    + destruct (Z.eqb_spec p 0); [lia|]. cbn [bind]. rewrite data_size_eq, Hprod by (destruct pre; discriminate).
      assert (0 < zprod e / p) by (apply Z.div_str_pos; lia).
      assert (zprod e / p * p >? 0 = true) by (apply Z.gtb_lt; nia). rewrite H2, andb_true_r. split; [reflexivity|].
      intros _. split; [destruct pre; discriminate|]. apply Forall_app. split; auto. constructor; auto. lia.
  - assert (W : minus_ones dims = 0%nat) by lia. rewrite W. cbn [Nat.eqb orb bind]. rewrite no_m1_id, data_size_eq, andb_true_r by auto.
    split; auto. intros _. split; auto. now apply no_m1_nonneg.
Qed.

(** The vector of [y] goes to the new variable [x]. *)
Lemma inv_move : forall T (h0 : heap T) vs h s x y o o' d xs d', Inv h0 (vs, h) s -> vs x = None -> vs y = Some o -> s y = Some (Val d xs) ->
  o' = mkObj (tensor_ctor (dbase (ob_desc o)) d') (ob_len o) -> d' <> [] -> Forall (fun k => 0 <= k) d' -> zprod d' = zprod d ->
  Inv h0 (vset x (Some o') (vset y (Some (mkObj (ob_desc o) 0)) vs), h) (aset x (Some (Val d' xs)) (aset y (Some (Hollow d)) s)).
Proof.
  intros T h0 vs h s x y o o' d xs d' (H1 & H2 & H3 & H4) Ex Ey Sy Eo Hne HN HZ. assert (Nxy : x <> y) by congruence.
  set (vs' := vset x (Some o') (vset y (Some (mkObj (ob_desc o) 0)) vs)).
  assert (Vx : vs' x = Some o') by (unfold vs', vset; now rewrite Nat.eqb_refl).
  assert (Vy : vs' y = Some (mkObj (ob_desc o) 0)).
  { unfold vs', vset. destruct (Nat.eqb_spec y x); [congruence|]. now rewrite Nat.eqb_refl. }
  assert (Vz : forall z, z <> x -> z <> y -> vs' z = vs z).
  { intros z N1 N2. unfold vs', vset. destruct (Nat.eqb_spec z x); [congruence|]. destruct (Nat.eqb_spec z y); congruence. }
  assert (Iy : forall a, ins (vs' x) a <-> ins (vs y) a) by (intros a; rewrite Vx, Ey, Eo; simpl; unfold inside; simpl; tauto).
  assert (Ny : forall a, ~ ins (vs' y) a) by (intros a; rewrite Vy; simpl; unfold inside; simpl; lia).
  assert (Hy := H1 y). rewrite Ey, Sy in Hy. simpl in Hy. destruct Hy as (R1 & R2 & R3 & R4 & R5 & R6).
  assert (Sub : forall z a, ins (vs' z) a -> exists w, ins (vs w) a /\ ((z = x /\ w = y) \/ (z = w /\ z <> x /\ z <> y))).
  { intros z a Hz. destruct (Nat.eq_dec z x) as [->|N1]; [exists y; split; [now apply Iy|auto]|].
    destruct (Nat.eq_dec z y) as [->|N2]; [elim (Ny a Hz)|]. exists z. rewrite Vz in Hz by auto. split; auto. }
  split; [|split; [|split]].
  - intros z. destruct (Nat.eq_dec z x) as [->|N1].
    + rewrite Vx. unfold aset. rewrite Nat.eqb_refl. subst o'. simpl. repeat (split; auto); lia.
    + destruct (Nat.eq_dec z y) as [->|N2].
      * rewrite Vy. unfold aset. destruct (Nat.eqb_spec y x); [congruence|]. rewrite Nat.eqb_refl. simpl. rewrite R1. auto.
      * rewrite Vz by auto. unfold aset. destruct (Nat.eqb_spec z x); [congruence|]. destruct (Nat.eqb_spec z y); [congruence|]. apply H1.
  - intros z w a Hzw Hz Hw. apply Sub in Hz as (z' & Hz & Cz). apply Sub in Hw as (w' & Hw & Cw).
    apply (H2 z' w' a); auto. destruct Cz as [(? & ?)|(? & ? & ?)]; destruct Cw as [(? & ?)|(? & ? & ?)]; congruence.
  - intros a Ha. destruct (H3 a Ha) as (A & B). split; auto. intros z Hz. apply Sub in Hz as (w & Hw & _). apply (B w Hw).
  - intros a Ha. destruct (H4 a Ha) as [A|(z & A)]; auto. right.
    destruct (Nat.eq_dec z y) as [->|N2]; [exists x; now apply Iy|]. destruct (Nat.eq_dec z x) as [->|N1]; [rewrite Ex in A; elim A|].
    exists z. now rewrite Vz.
Qed.

(** ** One statement *)
Section Step.
  Variable T : Type.
  Variable zero : T.
  Variable pl : heap T -> Z -> Z -> Z -> option Z.
  Hypothesis HP : place_ok pl.
  Variable h0 : heap T.

  Lemma inv_look : forall vs h s x, Inv h0 (vs, h) s ->
    (vs x = None /\ s x = None) \/ exists o v, vs x = Some o /\ s x = Some v /\ rep_obj h o v.
  Proof.
    intros vs h s x (H1 & _). specialize (H1 x). unfold rep_opt in H1. destruct (vs x), (s x); try tauto. right. eauto.
  Qed.

  Lemma none_of : forall vs h s x, Inv h0 (vs, h) s -> s x = None -> vs x = None.
  Proof. intros vs h s x HI E. destruct (inv_look vs h s x HI) as [(A & _)|(o & v & _ & B & _)]; congruence. Qed.
  Lemma some_of : forall vs h s x v, Inv h0 (vs, h) s -> s x = Some v -> exists o, vs x = Some o /\ rep_obj h o v.
  Proof. intros vs h s x v HI E. destruct (inv_look vs h s x HI) as [(_ & A)|(o & w & A & B & C)]; [congruence|]. exists o. split; congruence. Qed.

  (** In-place changes of all elements. *)
  Lemma inplace : forall vs h s x o d xs ys (body : Z -> heap T -> res (heap T)), Inv h0 (vs, h) s -> vs x = Some o -> rep_obj h o (Val d xs) ->
    length ys = length xs ->
    (forall k h', 0 <= k < ob_len o -> (forall a, a = dbase (ob_desc o) + k \/ ~ inside o a -> h' a = h a) ->
       exists y, nth_error ys (Z.to_nat k) = Some y /\ body k h' = Ok (upd h' (dbase (ob_desc o) + k) y)) ->
    exists h', forM (zrange (ob_len o)) body h = Ok h' /\ Inv h0 (vs, h') (aset x (Some (Val d ys)) s).
  Proof.
    intros vs h s x o d xs ys body HI E HR HL HB. destruct ys as [|y0 ys'].
    - destruct xs as [|]; [|discriminate]. assert (HR' := HR). destruct HR' as (_ & _ & _ & R4 & R5 & _). simpl in R5. rewrite R4, <- R5.
      exists h. split; [reflexivity|]. apply (inv_put T h0 vs h h s x o); auto.
    - set (ys := y0 :: ys') in *. assert (HR' := HR). destruct HR' as (R1 & R2 & R3 & R4 & R5 & R6).
      destruct (vec_loop T (dbase (ob_desc o)) (ob_len o) (fun k => nth (Z.to_nat k) ys y0) body h) as (h' & F & V1 & V2).
      + intros k h' Hk Hag. destruct (HB k h' Hk Hag) as (y & Ey & Eb). rewrite Eb.
        now rewrite (nth_error_nth ys _ y0 Ey).
      + exists h'. split; auto. apply (inv_put T h0 vs h h' s x o); auto. simpl. repeat (split; auto); [unfold ys in *; simpl in *; lia|].
        apply (seg_of T h' _ ys y0). intros k Hk. apply V1. lia.
  Qed.

  Lemma step_ok : forall o vs h s b s', Inv h0 (vs, h) s -> astep zero o s = Some (b, s') -> op_ok o s ->
    (vstep zero pl o (vs, h) = Throw /\ exhausted pl) \/
    exists st', vstep zero pl o (vs, h) = Ok (b, st') /\ Inv h0 st' s'.
  Proof.
    intros o vs h s b s' HI HA HO. assert (HI' := HI). destruct HI' as (I1 & I2 & I3 & I4).
    destruct o; simpl in HA; unfold vstep.
    - (* default *)
      destruct (s x) eqn:Sx; [discriminate|]. injection HA as <- <-. rewrite (none_of _ _ _ _ HI Sx). right. eexists. split; [reflexivity|].
      apply (inv_set T h0 vs h); auto; rewrite ?(none_of _ _ _ _ HI Sx); simpl; unfold inside; simpl; auto; try lia.
    - (* make *)
      destruct (s x) eqn:Sx; [discriminate|]. destruct (shape dims) eqn:Es; [|discriminate]. injection HA as <- <-.
      destruct (shape_ok _ Es) as (Hne & HN). assert (Vx := none_of _ _ _ _ HI Sx). rewrite Vx. unfold obj_make.
      destruct (reshape_to_spec T zero pl (mkObj (mkDesc 0 dims []) 0) (Hollow dims) dims h HP) as [(E & X)|(o' & h' & E & H1 & H2 & H3 & H4)]; auto.
      { simpl. auto. }
      { left. rewrite E. split; auto. }
      right. rewrite E. cbn [bind fst snd]. eexists. split; [reflexivity|].
      unfold elems in H1. rewrite app_nil_l in H1. unfold zero_list in H1 at 1. rewrite firstn_all2 in H1 by (rewrite repeat_length; lia).
      apply (inv_set T h0 vs h); auto; rewrite ?Vx; simpl; auto; try tauto.
      + intros a Ha. destruct (H2 a Ha) as [Hc|]; auto. unfold inside in Hc. simpl in Hc. lia.
      + intros a _ Ha. apply H3; auto. unfold inside. simpl. lia.
    - (* copy *)
      destruct (s x) eqn:Sx; [discriminate|]. destruct (s y) as [[|d xs]|] eqn:Sy; try discriminate. injection HA as <- <-.
      assert (Vx := none_of _ _ _ _ HI Sx). destruct (some_of _ _ _ _ _ HI Sy) as (p & Vy & Rp). rewrite Vx, Vy. unfold obj_copy.
      assert (Rp' := Rp). destruct Rp' as (P1 & P2 & P3 & P4 & P5 & P6).
      assert (HZ := zprod_nonneg d P3).
      destruct (vec_grow_spec T zero pl 0 0 (ob_len p) [] h HP) as [(E & X)|(q & h1 & E & H1 & H2 & H3 & H4)]; auto; try lia.
      { intros k Hk. simpl in Hk. lia. }
      { left. rewrite E. split; auto. }
      right. rewrite E. cbn [bind fst snd].
      set (o := mkObj (mkDesc q (ddims (ob_desc p)) (dstrides (ob_desc p))) (ob_len p)).
      assert (Ho : ob_desc o = tensor_ctor q d) by (unfold o; cbn [ob_desc]; rewrite P1; reflexivity).
      assert (Hio : forall a, inside o a -> h a = None).
      { intros a Ha. unfold inside, o in Ha. cbn [ob_desc ob_len dbase] in Ha. destruct (H2 a Ha) as [|]; auto. lia. }
      assert (Hq : forall a, q <= a < q + ob_len p -> inside o a) by (intros a Ha; exact Ha).
      assert (Dis : forall a, inside o a -> ~ inside p a).
      { intros a Ha Hc. apply (rep_alloc T h p _ a Rp Hc). auto. }
      destruct (vec_copy_spec T o p xs h1) as (h2 & E2 & S2 & F2); auto; try lia.
      + intros a Ha. unfold inside, o in Ha. cbn [ob_desc ob_len dbase] in Ha. replace a with (q + (a - q)) by lia. rewrite H1.
        * apply nth_error_Some. simpl. unfold zero_list. rewrite firstn_length_le; rewrite ?repeat_length; lia.
        * simpl. unfold zero_list. rewrite firstn_length_le; rewrite ?repeat_length; lia.
      + intros k Hk. rewrite H3; [now apply P6|lia|]. intros Hc. apply (Dis (dbase (ob_desc p) + k)); unfold inside, o; cbn [ob_desc ob_len dbase]; lia.
      + rewrite E2. cbn [bind fst snd]. eexists. split; [reflexivity|].
        assert (HRo : rep_obj h2 o (Val d xs)).
        { assert (Lo : ob_len o = ob_len p) by reflexivity. clearbody o. unfold rep_obj. rewrite Ho in *. repeat (split; auto). lia. }
        clearbody o. apply (inv_set T h0 vs h); auto; rewrite ?Vx; simpl; auto; try tauto.
        * intros a _ Ha. rewrite F2 by auto. apply H3; [lia|]. intros Hc. apply Ha. apply Hq. exact Hc.
    - (* assign *)
      destruct (s x) as [v|] eqn:Sx; [|discriminate]. destruct (s y) as [[|d xs]|] eqn:Sy; try discriminate.
      destruct (Nat.eqb_spec (rank_of v) (length d)) as [Hrk|]; [|discriminate]. injection HA as <- <-.
      destruct (some_of _ _ _ _ _ HI Sx) as (o & Vx & Ro). destruct (some_of _ _ _ _ _ HI Sy) as (p & Vy & Rp). rewrite Vx, Vy.
      assert (Rp' := Rp). destruct Rp' as (P1 & P2 & P3 & P4 & P5 & P6). unfold obj_assign. rewrite (val_dims T h p d xs Rp).
      destruct (fit_spec T zero pl o v d h HP Ro P2 P3) as [(E & X)|(o' & h1 & zs & E & R1 & Same & H2 & H3 & H4)].
      { rewrite (rep_rank T h o v Ro). auto. }
      { intros st ->. simpl in HO. now rewrite Sx, Sy in HO. }
      { left. rewrite E. split; auto. }
      right. rewrite E. cbn [bind fst snd]. destruct (Nat.eqb_spec x y) as [Exy|Nxy].
      + subst y. assert (v = Val d xs) by congruence. subst v. assert (p = o) by congruence. subst p.
        rewrite (Same d xs eq_refl eq_refl) in R1. assert (R1' := R1). destruct R1' as (Q1 & _ & _ & Q4 & Q5 & Q6).
        destruct (vec_copy_spec T o' o' xs h1) as (h2 & E2 & S2 & F2); auto; try lia.
        { intros a Ha. apply (rep_alloc T h1 o' _ a R1 Ha). }
        rewrite E2. cbn [bind fst snd]. eexists. split; [reflexivity|].
        apply (inv_set T h0 vs h); auto; rewrite ?Vx; simpl; auto.
        * repeat (split; auto).
        * intros a N1 N2. rewrite F2 by auto. auto.
        * intros a N1 N2. rewrite F2 by auto. auto.
      + assert (Dop : forall a, inside p a -> ~ inside o a).
        { intros a A1 A2. apply (I2 x y a); auto; rewrite ?Vx, ?Vy; auto. }
        assert (Dis : forall a, inside o' a -> ~ inside p a).
        { intros a Ha Hc. destruct (H2 a Ha) as [A|A]; [apply (Dop a); auto|]. apply (rep_alloc T h p _ a Rp Hc A). }
        assert (R1' := R1). destruct R1' as (Q1 & _ & _ & Q4 & Q5 & Q6).
        destruct (vec_copy_spec T o' p xs h1) as (h2 & E2 & S2 & F2); auto; try lia.
        { intros a Ha. apply (rep_alloc T h1 o' _ a R1 Ha). }
        { intros k Hk. rewrite H3; [now apply P6| |].
          - apply Dop. unfold inside. lia.
          - intros Hc. apply (Dis _ Hc). unfold inside. lia. }
        rewrite E2. cbn [bind fst snd]. eexists. split; [reflexivity|].
        apply (inv_set T h0 vs h); auto; rewrite ?Vx; simpl; auto.
        * repeat (split; auto).
        * intros a N1 N2. rewrite F2 by auto. auto.
        * intros a N1 N2. rewrite F2 by auto. auto.
    - (* assign with a cast *)
      destruct (s x) as [v|] eqn:Sx; [|discriminate]. destruct (s y) as [[|d xs]|] eqn:Sy; try discriminate.
      destruct (Nat.eqb_spec x y) as [|Nxy]; [discriminate|]. destruct (Nat.eqb_spec (rank_of v) (length d)) as [Hrk|]; [|discriminate].
      cbn [orb negb] in HA.
      destruct (some_of _ _ _ _ _ HI Sx) as (o & Vx & Ro). destruct (some_of _ _ _ _ _ HI Sy) as (p & Vy & Rp). rewrite Vx, Vy.
      assert (Rp' := Rp). destruct Rp' as (P1 & P2 & P3 & P4 & P5 & P6). unfold obj_assign_cast. rewrite (val_dims T h p d xs Rp).
      assert (HL : length (ddims (ob_desc o)) = length d) by (rewrite (rep_rank T h o v Ro); auto).
      assert (TH : b = true \/ b = false) by (destruct b; auto).
      assert (Main : s' = aset x (Some (Val d (map cv xs))) s -> b = false -> cast_throws (length (ddims (ob_desc o))) (ddims (ob_desc o)) d = false ->
        (forall st, v = Hollow st -> In 0 st \/ st <> d) -> 
        let m := (r <- (if needs_realloc (ddims (ob_desc o)) d then reshape_to zero pl o d h else Ok (o, h));;
             h2 <- forM (indices (ddims (ob_desc (fst r)))) (fun idx h => v <- obj_get p idx h;; vec_wr (fst r) (ordinal (fst r) idx) (cv v) h) (snd r);;
             Ok (fst r, h2)) in
        (bind m (fun r => Ok (false, (vset x (Some (fst r)) vs, snd r))) = Throw /\ exhausted pl) \/
        exists st', bind m (fun r => Ok (false, (vset x (Some (fst r)) vs, snd r))) = Ok (b, st') /\ Inv h0 st' s').
      { intros -> -> TH0 Hst m. unfold m.
        destruct (fit_spec T zero pl o v d h HP Ro P2 P3) as [(E & X)|(o' & h1 & zs & E & R1 & Same & H2 & H3 & H4)]; auto.
        { left. rewrite E. split; auto. }
        right. rewrite E. cbn [bind fst snd].
        assert (Dop : forall a, inside p a -> ~ inside o a).
        { intros a A1 A2. apply (I2 x y a); auto; rewrite ?Vx, ?Vy; auto. }
        assert (Dis : forall a, inside o' a -> ~ inside p a).
        { intros a Ha Hc. destruct (H2 a Ha) as [A|A]; [apply (Dop a); auto|]. apply (rep_alloc T h p _ a Rp Hc A). }
        destruct (cast_loop T cv o' p d zs xs h1) as (h2 & E2 & R2 & F2); auto.
        { apply (rep_frame T h); auto. intros a Ha. apply H3; auto. intros Hc. apply (Dis a); auto. }
        rewrite E2. cbn [bind fst snd]. eexists. split; [reflexivity|].
        apply (inv_set T h0 vs h); auto; rewrite ?Vx; simpl; auto.
        - intros a N1 N2. rewrite F2 by auto. auto.
        - intros a N1 N2. rewrite F2 by auto. auto. }
      assert (CT : forall e f : list Z, existsb (fun p => negb (fst p =? 0) && negb (fst p =? snd p)) (combine e f) =
                    negb (forallb (fun p => (fst p =? 0) || (fst p =? snd p)) (combine e f))).
      { intros e f. induction (combine e f) as [|q l IH]; auto. simpl. rewrite IH. destruct (fst q =? 0), (fst q =? snd q); reflexivity. }
      unfold cast_throws in *. rewrite CT, HL in *. destruct v as [st|e ws].
      + injection HA as <- <-. simpl in HO. rewrite Sx, Sy in HO. simpl in Ro. destruct Ro as (Est & Len0).
        assert (C : negb (Nat.eqb (length d) 1) && negb (forallb (fun p => (fst p =? 0) || (fst p =? snd p)) (combine (ddims (ob_desc o)) d)) = false).
        { destruct HO as [(_ & HO)|(HO & _)]; [|rewrite HO; reflexivity]. apply andb_false_iff. right. apply negb_false_iff. apply forallb_forall.
          intros q Hq. rewrite Est in Hq. rewrite Forall_forall in HO. destruct (HO q Hq) as [->| ->]; [reflexivity|]. rewrite Z.eqb_refl. apply orb_true_r. }
        rewrite C. apply Main; auto. intros st' Es. injection Es as <-. destruct HO as [(HO & _)|(_ & HO)]; auto.
      + rewrite (val_dims T h o e ws Ro) in *.
        destruct (Nat.eqb (length d) 1 || forallb (fun p => (fst p =? 0) || (fst p =? snd p)) (combine e d)) eqn:C; injection HA as <- <-.
        * rewrite <- negb_orb, C. cbn [negb]. apply Main; auto; [|discriminate]. rewrite <- negb_orb, C. reflexivity.
        * rewrite <- negb_orb, C. cbn [negb]. right. eexists. split; [reflexivity|]. auto.
    - (* reshape *)
      destruct (s x) eqn:Sx; [discriminate|]. destruct (s y) as [[|d xs]|] eqn:Sy; try discriminate.
      destruct (Nat.eqb_spec (length dims) 0) as [|Ln]; [discriminate|]. cbn [orb] in HA.
      destruct (forallb (fun k => -1 <=? k) dims) eqn:Fb; [|discriminate]. cbn [negb orb] in HA.
      destruct (Nat.eqb (minus_ones dims) 1 && existsb (fun k => k =? 0) dims) eqn:Z1; [discriminate|].
      assert (Vx := none_of _ _ _ _ HI Sx). destruct (some_of _ _ _ _ _ HI Sy) as (p & Vy & Rp). rewrite Vx, Vy.
      assert (Rp' := Rp). destruct Rp' as (P1 & P2 & P3 & P4 & P5 & P6).
      destruct (reshape_infer (dbase (ob_desc p)) d dims) as (E & G); auto.
      { intros ->. apply Ln. reflexivity. }
      { apply Forall_forall. intros k Hk. rewrite forallb_forall in Fb. specialize (Fb k Hk). lia. }
      { intros E1 H0. rewrite E1 in Z1. simpl in Z1. assert (existsb (fun k => k =? 0) dims = true); [|congruence].
        apply existsb_exists. exists 0. auto. }
      rewrite <- P1 in E. rewrite E. match type of HA with (if ?c then _ else _) = _ => change c with (can_reshape (zprod d) dims) in HA end.
      destruct (can_reshape (zprod d) dims) eqn:C; injection HA as <- <-.
      + right. eexists. split; [reflexivity|]. destruct (G eq_refl) as (G1 & G2). apply (inv_move T h0 vs h s x y p _ d xs); auto.
        unfold can_reshape in C. apply andb_true_iff in C as (C & _). apply andb_true_iff in C as (_ & C). now apply Z.eqb_eq.
      + right. eexists. split; [reflexivity|]. apply (inv_set T h0 vs h); auto; rewrite ?Vy; simpl.
        * rewrite (val_dims T h p d xs Rp). auto.
        * unfold inside. simpl. lia.
        * intros a N _. unfold vec_free. unfold inside in N. destruct (Z.leb_spec (dbase (ob_desc p)) a); destruct (Z.ltb_spec a (dbase (ob_desc p) + ob_len p)); cbn [andb]; auto; lia.
        * intros a N _. unfold vec_free. unfold inside in N. destruct (Z.leb_spec (dbase (ob_desc p)) a); destruct (Z.ltb_spec a (dbase (ob_desc p) + ob_len p)); cbn [andb]; auto; lia.
    - (* resize *)
      destruct (s x) as [v|] eqn:Sx; [|discriminate]. destruct (shape dims) eqn:Es; [|discriminate].
      destruct (Nat.eqb_spec (rank_of v) (length dims)) as [Hrk|]; [|discriminate]. cbn [negb orb] in HA.
      destruct (shape_ok _ Es) as (Hne & HN). destruct (some_of _ _ _ _ _ HI Sx) as (o & Vx & Ro). rewrite Vx. unfold obj_resize.
      assert (b = false /\ s' = aset x (Some (Val dims (firstn (Z.to_nat (zprod dims)) (elems v ++ zero_list zero (zprod dims))))) s) as (-> & ->).
      { destruct v; injection HA as <- <-; split; auto. simpl. unfold zero_list at 2. rewrite firstn_all2; auto. rewrite repeat_length. lia. }
      destruct (list_eq_dec Z.eq_dec (ddims (ob_desc o)) dims) as [Ed|Nd].
      + right. cbn [bind fst snd]. eexists. split; [reflexivity|]. destruct v as [st|e ys].
        * simpl in HO. rewrite Sx in HO. simpl in Ro. destruct Ro. congruence.
        * assert (e = dims). { destruct Ro as (R & _). rewrite R in Ed. exact Ed. } subst e.
          simpl elems. rewrite firstn_self by (apply Ro).
          apply inv_ext with (vs := vs) (s := aset x (Some (Val dims ys)) s); auto; [apply (inv_put T h0 vs h h s x o); auto|].
          intros z. unfold vset. destruct (Nat.eqb_spec z x); congruence.
      + destruct (reshape_to_spec T zero pl o v dims h) as [(E & X)|(o' & h' & E & H1 & H2 & H3 & H4)]; auto.
        { left. rewrite E. split; auto. }
        right. rewrite E. cbn [bind fst snd]. eexists. split; [reflexivity|]. apply (inv_set T h0 vs h); auto; rewrite ?Vx; simpl; auto.
    - (* write *)
      destruct (s x) as [[|d xs]|] eqn:Sx; try discriminate. destruct (position 0 d inds) as [k|] eqn:Ep; [|discriminate]. injection HA as <- <-.
      destruct (some_of _ _ _ _ _ HI Sx) as (o & Vx & Ro). rewrite Vx. assert (Ro' := Ro). destruct Ro' as (R1 & R2 & R3 & R4 & R5 & R6).
      destruct (position_range _ _ _ Ep) as (Hk & Ek). right.
      assert (Eo : ordinal o inds = k) by (unfold ordinal; rewrite R1; simpl; congruence). rewrite Eo.
      destruct (h (dbase (ob_desc o) + k)) as [w|] eqn:Ew.
      2:{ exfalso. apply (rep_alloc T h o _ (dbase (ob_desc o) + k) Ro); auto. unfold inside. lia. }
      rewrite (vec_wr_ok T o k h v w) by (auto; lia). cbn [bind]. eexists. split; [reflexivity|]. apply (inv_put T h0 vs h _ s x o); auto.
      + unfold rep_obj. repeat (split; auto).
        * unfold put. rewrite app_length. cbn [length]. rewrite firstn_length_le, skipn_length by lia. lia.
        * intros j Hj. unfold put in *. rewrite app_length in Hj. cbn [length] in Hj. rewrite firstn_length_le, skipn_length in Hj by lia.
          destruct (Z.eq_dec j k) as [->|Nj].
          -- rewrite upd_same. rewrite nth_error_app2; rewrite firstn_length_le by lia; [|lia]. now rewrite Nat.sub_diag.
          -- rewrite upd_other by lia. rewrite R6 by lia. destruct (Z.lt_ge_cases j k).
             ++ rewrite nth_error_app1 by (rewrite firstn_length_le; lia). rewrite <- (firstn_skipn (Z.to_nat k) xs) at 1.
                rewrite nth_error_app1; auto. rewrite firstn_length_le; lia.
             ++ rewrite nth_error_app2; rewrite firstn_length_le by lia; [|lia].
                replace (Z.to_nat j - Z.to_nat k)%nat with (S (Z.to_nat j - S (Z.to_nat k)))%nat by lia. cbn [nth_error].
                rewrite <- (firstn_skipn (S (Z.to_nat k)) xs) at 1. rewrite nth_error_app2; rewrite firstn_length_le by lia; [auto|lia].
      + intros a Ha. apply upd_other. unfold inside in Ha. lia.
    - (* fill *)
      destruct (s x) as [[|d xs]|] eqn:Sx; try discriminate. injection HA as <- <-. destruct (some_of _ _ _ _ _ HI Sx) as (o & Vx & Ro). rewrite Vx.
      right. unfold obj_fill. destruct (inplace vs h s x o d xs (map (fun _ => v) xs) (fun k h => vec_wr o k v h) HI Vx Ro) as (h' & E & R); [apply map_length| |].
      + intros k h' Hk Hag. assert (Ro' := Ro). destruct Ro' as (R1 & R2 & R3 & R4 & R5 & R6).
        destruct (nth_error xs (Z.to_nat k)) as [w|] eqn:Ew; [|apply nth_error_None in Ew; lia].
        exists v. split; [erewrite map_nth_error; eauto|]. apply vec_wr_ok with w; auto. rewrite Hag by auto. rewrite R6; auto. lia.
      + rewrite E. cbn [bind]. eauto.
    - (* op scalar *)
      destruct (s x) as [[|d xs]|] eqn:Sx; try discriminate. injection HA as <- <-. destruct (some_of _ _ _ _ _ HI Sx) as (o & Vx & Ro). rewrite Vx.
      right. unfold obj_op. destruct (inplace vs h s x o d xs (map (fun e => op e v) xs) (fun k h => x <- vec_rd o k h ;; vec_wr o k (op x v) h) HI Vx Ro) as (h' & E & R); [apply map_length| |].
      + intros k h' Hk Hag. assert (Ro' := Ro). destruct Ro' as (R1 & R2 & R3 & R4 & R5 & R6).
        destruct (nth_error xs (Z.to_nat k)) as [w|] eqn:Ew; [|apply nth_error_None in Ew; lia].
        assert (Hw : h' (dbase (ob_desc o) + k) = Some w) by (rewrite Hag by auto; rewrite R6; auto; lia).
        exists (op w v). split; [erewrite map_nth_error; eauto|]. rewrite (vec_rd_ok T o k h' w Hk Hw). cbn [bind]. apply vec_wr_ok with w; auto.
      + rewrite E. cbn [bind]. eauto.
    - (* op tensor *)
      destruct (s x) as [[|d xs]|] eqn:Sx; try discriminate. destruct (s y) as [[|e ys]|] eqn:Sy; try discriminate.
      destruct (Nat.eqb_spec (length d) (length e)); [|discriminate]. cbn [negb] in HA. simpl in HO. rewrite Sx, Sy in HO. destruct HO as (B1 & B2).
      destruct (some_of _ _ _ _ _ HI Sx) as (o & Vx & Ro). destruct (some_of _ _ _ _ _ HI Sy) as (p & Vy & Rp). rewrite Vx, Vy.
      unfold obj_op2. rewrite (val_dims T h o d xs Ro), (val_dims T h p e ys Rp).
      assert (Ro' := Ro). destruct Ro' as (R1 & R2 & R3 & R4 & R5 & R6). assert (Rp' := Rp). destruct Rp' as (P1 & P2 & P3 & P4 & P5 & P6).
      rewrite !size_model_correct by auto. right. destruct (Nat.eqb_spec (length xs) (length ys)) as [EL|NL]; injection HA as <- <-.
      2:{ destruct (Z.eqb_spec (zprod d) (zprod e)); [lia|]. cbn [negb]. eexists. split; [reflexivity|]. auto. }
      destruct (Z.eqb_spec (zprod d) (zprod e)); [|lia]. cbn [negb].
      destruct (inplace vs h s x o d xs (map (fun p => op (fst p) (snd p)) (combine xs ys))
        (fun k h => y <- vec_rd p k h ;; x <- vec_rd o k h ;; vec_wr o k (op x y) h) HI Vx Ro) as (h' & E & R).
      { rewrite map_length, combine_length. lia. }
      + intros k h' Hk Hag.
        destruct (nth_error xs (Z.to_nat k)) as [w|] eqn:Ew; [|apply nth_error_None in Ew; lia].
        destruct (nth_error ys (Z.to_nat k)) as [u|] eqn:Eu; [|apply nth_error_None in Eu; lia].
        assert (Hw : h' (dbase (ob_desc o) + k) = Some w) by (rewrite Hag by auto; rewrite R6; auto; lia).
        assert (Hu : h' (dbase (ob_desc p) + k) = Some u).
        { rewrite Hag; [rewrite P6; auto; lia|]. destruct (Nat.eq_dec x y) as [->|Nxy]; [left; congruence|].
          right. intros Hc. apply (I2 x y (dbase (ob_desc p) + k)); auto; rewrite ?Vx, ?Vy; auto. simpl. unfold inside. lia. }
        exists (op w u). split.
        * apply (map_nth_error (fun p => op (fst p) (snd p)) _ _ (d := (w, u))). clear - Ew Eu. revert ys Ew Eu.
          generalize (Z.to_nat k). intros j. revert xs. induction j as [|j IH]; intros [|x xs] [|y ys] Ew Eu; simpl in *; try discriminate; [congruence|auto].
        * rewrite (vec_rd_ok T p k h' u) by (auto; lia). cbn [bind]. rewrite (vec_rd_ok T o k h' w Hk Hw). cbn [bind]. apply vec_wr_ok with w; auto.
      + rewrite E. cbn [bind]. eauto.
    - (* drop *)
      destruct (s x) as [v|] eqn:Sx; [|discriminate]. injection HA as <- <-. destruct (some_of _ _ _ _ _ HI Sx) as (o & Vx & Ro). rewrite Vx.
      right. eexists. split; [reflexivity|]. apply (inv_set T h0 vs h); auto; rewrite ?Vx; simpl; auto; try tauto.
      + intros a N _. unfold vec_free. unfold inside in N. destruct (Z.leb_spec (dbase (ob_desc o)) a); destruct (Z.ltb_spec a (dbase (ob_desc o) + ob_len o)); cbn [andb]; auto; lia.
      + intros a N _. unfold vec_free. unfold inside in N. destruct (Z.leb_spec (dbase (ob_desc o)) a); destruct (Z.ltb_spec a (dbase (ob_desc o) + ob_len o)); cbn [andb]; auto; lia.
  Qed.

  Lemma runs_ok : forall os vs h s bs s', Inv h0 (vs, h) s -> aruns zero os s = Some (bs, s') -> ops_ok zero os s ->
    (vruns zero pl os (vs, h) = Throw /\ exhausted pl) \/
    exists st', vruns zero pl os (vs, h) = Ok (bs, st') /\ Inv h0 st' s'.
  Proof.
    induction os as [|o os IH]; intros vs h s bs s' HI HA HO; cbn [aruns ops_ok vruns] in *.
    - injection HA as <- <-. right. eauto.
    - destruct HO as (HO & HOs). destruct (astep zero o s) as [(b, s1)|] eqn:E1; [|discriminate].
      destruct (aruns zero os s1) as [(bs1, s2)|] eqn:E2; [|discriminate]. injection HA as <- <-.
      destruct (step_ok o vs h s b s1 HI E1 HO) as [(E & X)|((vs1, h1) & E & I1)]; [left; rewrite E; auto|].
      rewrite E. cbn [bind snd fst]. destruct (IH vs1 h1 s1 bs1 s2 I1 E2 HOs) as [(F & X)|(st' & F & I2)]; [left; rewrite F; auto|].
      right. rewrite F. cbn [bind snd fst]. eauto.
  Qed.
End Step.
