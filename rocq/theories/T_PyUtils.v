(** * T_PyUtils: indices and random tensors in Python (C124, C125). *)
From Coq Require Import List ZArith Lia Bool Permutation.
From Verif Require Import Base Heap Conc M_Addr S_Addr L_Addr M_Elt L_Elt S_Einsum S_Fun M_Runtime S_Runtime T_Runtime M_PyTensor S_PyTensor T_PyIndex T_PyBuf.
From Verif Require Import M_PyUtils S_PyUtils.
Import ListNotations.
Open Scope Z_scope.

(** Index number [s] of a shape. *)
Definition number (dims : list Z) (s : Z) : list Z := sentinel_to_indices s (row_major_strides dims).

Lemma zrange_app : forall a b, 0 <= a -> 0 <= b -> zrange (a + b) = zrange a ++ map (Z.add a) (zrange b).
Proof.
  intros a b Ha Hb. unfold zrange. rewrite Z2Nat.inj_add, seq_app, map_app by auto. f_equal. rewrite map_map. cbn [Nat.add].
  assert (G : forall k m, map Z.of_nat (seq (Z.to_nat a + m) k) = map (fun x => a + Z.of_nat x) (seq m k)).
  { induction k as [|k IH]; intros m; [reflexivity|]. cbn [seq map]. f_equal; [lia|]. rewrite <- IH. f_equal. f_equal. lia. }
  specialize (G (Z.to_nat b) 0%nat). rewrite Nat.add_0_r in G. exact G.
Qed.
Lemma zrange_mul : forall d p, 0 <= d -> 0 <= p -> zrange (d * p) = flat_map (fun i => map (fun j => i * p + j) (zrange p)) (zrange d).
Proof.
  intros d p Hd Hp. pattern d. apply natlike_ind; [reflexivity| |exact Hd]. intros x Hx IH. unfold Z.succ.
  replace ((x + 1) * p) with (x * p + p) by lia. rewrite zrange_app by (try apply Z.mul_nonneg_nonneg; lia).
  rewrite (zrange_app x 1) by lia. rewrite flat_map_app, <- IH. f_equal. change (zrange 1) with [0]. cbn [map flat_map]. rewrite app_nil_r, Z.add_0_r. reflexivity.
Qed.
Lemma indices_eq : forall dims, Forall (fun d => 0 <= d) dims -> indices dims = map (number dims) (zrange (zprod dims)).
Proof.
  induction dims as [|d ds IH]; intros H; [reflexivity|]. inversion H; subst. cbn [indices zprod]. assert (P := zprod_nonneg ds ltac:(auto)).
  rewrite zrange_mul by auto. rewrite IH by auto. clear IH.
  induction (zrange d) as [|i l IH]; [reflexivity|]. cbn [flat_map]. rewrite map_app, <- IH. f_equal. rewrite !map_map.
  apply map_ext_in. intros j Hj. apply zrange_in in Hj. unfold number. rewrite rms_cons. cbn [sentinel_to_indices].
  destruct (Z.eqb_spec (zprod ds) 0); [lia|]. f_equal.
  - rewrite Z.div_add_l by auto. rewrite Z.div_small by lia. lia.
  - f_equal. rewrite Z.add_comm, Z.mod_add by auto. now rewrite Z.mod_small by lia.
Qed.

Lemma sizes_eq : forall dims, ti_sizes dims = (row_major_strides dims, zprod dims).
Proof. induction dims as [|d ds IH]; [reflexivity|]. cbn [ti_sizes]. rewrite IH, rms_cons. cbn [zprod]. f_equal. lia. Qed.
Lemma split_ok : forall dims s, Forall (fun d => 0 < d) dims -> ti_split s (row_major_strides dims) = Ok (number dims s).
Proof.
  unfold number. induction dims as [|d ds IH]; intros s H; [reflexivity|]. inversion H; subst. rewrite rms_cons. cbn [ti_split sentinel_to_indices].
  assert (0 < zprod ds) by now apply zprod_pos. destruct (Z.eqb_spec (zprod ds) 0); [lia|]. rewrite IH by auto. reflexivity.
Qed.

(** The iterator at position [s]. *)
Definition at_pos (dims : list Z) (s : Z) (rev : bool) : tidx := mkTidx s (row_major_strides dims) rev (zprod dims).
Lemma ctor_eq : forall dims, ti_ctor dims None = Ok (at_pos dims 0 false).
Proof. intros. unfold ti_ctor. rewrite sizes_eq. reflexivity. Qed.
Lemma next_in : forall dims s rev, Forall (fun d => 0 <= d) dims -> 0 <= s < zprod dims ->
  ti_next (at_pos dims s rev) = Ok (Some (number dims s), at_pos dims (if rev : bool then s - 1 else s + 1) rev).
Proof.
  intros dims s rev H Hs. unfold ti_next, at_pos. cbn [ti_cur ti_size ti_strides ti_rev].
  destruct (Z.ltb_spec s 0); [lia|]. destruct (Z.leb_spec (zprod dims) s); [lia|]. cbn [orb].
  rewrite split_ok by (apply zprod_pos_Forall; auto; lia). reflexivity.
Qed.
Lemma next_out : forall dims s rev, ~ 0 <= s < zprod dims -> ti_next (at_pos dims s rev) = Ok (None, at_pos dims s rev).
Proof.
  intros dims s rev Hs. unfold ti_next, at_pos. cbn [ti_cur ti_size ti_strides ti_rev].
  destruct (Z.ltb_spec s 0); [reflexivity|]. destruct (Z.leb_spec (zprod dims) s); [reflexivity|]. lia.
Qed.

(** The iterator and the list of the indices it has still to give. *)
Definition rest_of (dims : list Z) (s : Z) : list (list Z) := map (fun j => number dims (s + j)) (zrange (zprod dims - s)).
Lemma rest_nil : forall dims s, zprod dims <= s -> rest_of dims s = [].
Proof. intros dims s H. unfold rest_of, zrange. replace (Z.to_nat (zprod dims - s)) with 0%nat by lia. reflexivity. Qed.
Lemma rest_cons : forall dims s, s < zprod dims -> rest_of dims s = number dims s :: rest_of dims (s + 1).
Proof.
  intros dims s H. unfold rest_of. replace (zprod dims - s) with (1 + (zprod dims - (s + 1))) by lia. rewrite zrange_app by lia.
  cbn [zrange]. change (zrange 1) with [0]. cbn [map app]. f_equal; [f_equal; lia|]. rewrite map_map. apply map_ext. intros. f_equal. lia.
Qed.
Lemma rest_all : forall dims, Forall (fun d => 0 <= d) dims -> rest_of dims 0 = indices dims.
Proof. intros. unfold rest_of. rewrite indices_eq, Z.sub_0_r by auto. apply map_ext. intros. f_equal. Qed.
Definition abs (i : tidx) (l : list (list Z)) : Prop :=
  exists dims s, Forall (fun d => 0 <= d) dims /\ 0 <= s /\ i = at_pos dims s false /\ l = rest_of dims s.

Lemma set_nth_eq : forall A (x : A) l k, (k < length l)%nat -> set_nth k x l = firstn k l ++ x :: skipn (S k) l.
Proof. induction l as [|y l IH]; intros [|k] H; cbn in *; try lia; [reflexivity|]. f_equal. apply IH. lia. Qed.
Lemma set_same : forall A (x : A) l k, nth_error l k = Some x -> set_nth k x l = l.
Proof. induction l as [|y l IH]; intros [|k] H; cbn in *; try discriminate; [congruence|]. f_equal. auto. Qed.
Lemma F2_nth : forall A B (P : A -> B -> Prop) l m k x d, Forall2 P l m -> nth_error l k = Some x -> P x (nth k m d).
Proof. intros A B P l m k x d H. revert k. induction H; intros [|k] E; cbn in *; try discriminate; [congruence|eauto]. Qed.
Lemma F2_set : forall A B (P : A -> B -> Prop) l m k x y, Forall2 P l m -> P x y -> (k < length l)%nat ->
  Forall2 P (set_nth k x l) (firstn k m ++ y :: skipn (S k) m).
Proof.
  intros A B P l m k x y H Hx. revert k. induction H as [|a b l m Ha H IH]; intros [|k] E; cbn in *; try lia; constructor; auto. apply IH. lia.
Qed.

(** C124.  Iterators over the indices of tensors, in programs that make them,
    copy them, share them and call next in any order: every iterator gives the
    indices of its tensor in row-major order, each once, then StopIteration, and
    a copy goes on where the original is. *)
Theorem C124_order_partial : forall os, forward 0 os ->
  exists st, ti_run [] os = Ok (st, rest_run [] os).
Proof.
  assert (G : forall os st ab, Forall2 abs st ab -> forward (length st) os -> exists st', ti_run st os = Ok (st', rest_run ab os)).
  { induction os as [|o os IH]; intros st ab HA HF; [cbn; eauto|].
    destruct o as [dims|k|k|k]; cbn [forward] in HF; cbn [ti_run ti_step rest_run rest_step].
    - destruct HF as (H1 & H2). rewrite ctor_eq. cbn [bind fst snd app].
      destruct (IH (st ++ [at_pos dims 0 false]) (ab ++ [indices dims])) as (st' & E).
      + apply Forall2_app; auto. constructor; [|constructor]. exists dims, 0. repeat split; auto; try lia. symmetry. now apply rest_all.
      + rewrite app_length, Nat.add_1_r. exact H2.
      + rewrite E. cbn [bind fst snd]. eauto.
    - destruct HF as (H1 & H2). destruct (nth_error st k) as [i|] eqn:Ei; [|apply nth_error_None in Ei; lia]. cbn [bind fst snd app].
      destruct (IH (st ++ [ti_copy i]) (ab ++ [nth k ab []])) as (st' & E).
      + apply Forall2_app; auto. constructor; [|constructor]. assert (P := F2_nth _ _ _ _ _ _ _ [] HA Ei).
        destruct i; exact P.
      + rewrite app_length, Nat.add_1_r. exact H2.
      + rewrite E. cbn [bind fst snd]. eauto.
    - contradiction.
    - destruct HF as (H1 & H2). destruct (nth_error st k) as [i|] eqn:Ei; [|apply nth_error_None in Ei; lia].
      assert (P := F2_nth _ _ _ _ _ _ _ [] HA Ei). destruct P as (dims & s & Hd & Hs & Hi & Hr). rewrite Hr.
      destruct (Z.lt_ge_cases s (zprod dims)) as [B|B].
      + rewrite rest_cons by auto. subst i. rewrite next_in by auto. cbn [bind fst snd].
        destruct (IH (set_nth k (at_pos dims (s + 1) false) st) (firstn k ab ++ rest_of dims (s + 1) :: skipn (S k) ab)) as (st' & E).
        * apply F2_set; auto. exists dims, (s + 1). repeat split; auto; lia.
        * replace (length (set_nth k (at_pos dims (s + 1) false) st)) with (length st); [exact H2|].
          clear. revert k. induction st; intros [|k]; cbn; auto.
        * rewrite E. cbn [bind fst snd app]. eauto.
      + rewrite rest_nil by auto. subst i. rewrite next_out by lia. cbn [bind fst snd]. rewrite set_same by auto.
        destruct (IH st ab HA H2) as (st' & E). rewrite E. cbn [bind fst snd app]. eauto. }
  intros os H. apply (G os [] []); auto.
Qed.

(** A loop over the indices of a tensor. *)
Theorem C124_loop : forall dims fuel, Forall (fun d => 0 <= d) dims -> (length (indices dims) < fuel)%nat ->
  exists i, ti_ctor dims None = Ok i /\ ti_collect fuel i = Ok (indices dims, true).
Proof.
  intros dims fuel H Hf. exists (at_pos dims 0 false). split; [apply ctor_eq|]. rewrite <- (rest_all dims H) in Hf |- *.
  assert (G : forall fuel s, 0 <= s -> (length (rest_of dims s) < fuel)%nat -> ti_collect fuel (at_pos dims s false) = Ok (rest_of dims s, true)).
  { induction fuel0 as [|n IH]; intros s Hs Hl; [lia|]. cbn [ti_collect]. destruct (Z.lt_ge_cases s (zprod dims)) as [B|B].
    - rewrite next_in by auto. rewrite rest_cons in Hl |- * by auto. cbn [bind fst snd]. cbn [length] in Hl. rewrite IH by lia. reflexivity.
    - rewrite next_out by lia. rewrite rest_nil by auto. reflexivity. }
  apply G; auto; lia.
Qed.

(** [k] calls of next. *)
Fixpoint advance (k : nat) (i : tidx) : res tidx :=
  match k with O => Ok i | S k => r <- ti_next i ;; advance k (snd r) end.
(** C124 fails for reversed(): after [k] calls of next the reversed iterator
    gives index number [k] and those before it, in descending order, and not
    the indices from the last one down; right after construction only the first
    index.  The keyword [reverse] always ends in an exception. *)
Theorem C124_reversed_refuted :
  (forall dims k i j fuel, Forall (fun d => 0 <= d) dims -> (k < length (indices dims))%nat -> (S k < fuel)%nat ->
     ti_ctor dims None = Ok i -> advance k i = Ok j ->
     ti_collect fuel (ti_reversed j) = Ok (rev (firstn (S k) (indices dims)), true)) /\
  (forall dims b, ti_ctor dims (Some b) = Throw).
Proof.
  split; [|reflexivity]. intros dims k i j fuel H Hk Hf Hi Hj. rewrite ctor_eq in Hi. inversion Hi; subst i. clear Hi.
  assert (N : length (indices dims) = Z.to_nat (zprod dims)) by (rewrite indices_eq by auto; now rewrite map_length, zrange_length).
  assert (A : forall k s, 0 <= s -> (Z.to_nat s + k <= Z.to_nat (zprod dims))%nat -> advance k (at_pos dims s false) = Ok (at_pos dims (s + Z.of_nat k) false)).
  { clear - H. induction k as [|k IH]; intros s Hs Hk; cbn [advance]; [now rewrite Z.add_0_r|]. rewrite next_in by (auto; lia). cbn [bind snd].
    rewrite IH by lia. f_equal. f_equal. lia. }
  rewrite A in Hj by lia. inversion Hj; subst j. rewrite Z.add_0_l.
  change (ti_reversed (at_pos dims (Z.of_nat k) false)) with (at_pos dims (Z.of_nat k) true).
  assert (F : forall m, (m <= Z.to_nat (zprod dims))%nat -> firstn m (indices dims) = map (number dims) (zrange (Z.of_nat m))).
  { intros m Hm. rewrite indices_eq by auto. unfold zrange. rewrite !firstn_map, Nat2Z.id. f_equal. f_equal.
    replace (Z.to_nat (zprod dims)) with (m + (Z.to_nat (zprod dims) - m))%nat by lia. rewrite seq_app, firstn_app, seq_length, Nat.sub_diag.
    cbn [firstn]. rewrite app_nil_r. rewrite <- (seq_length m 0) at 1. apply firstn_all. }
  assert (G : forall m fuel, (m <= Z.to_nat (zprod dims))%nat -> (m < fuel)%nat ->
     ti_collect fuel (at_pos dims (Z.of_nat m - 1) true) = Ok (rev (map (number dims) (zrange (Z.of_nat m))), true)).
  { clear - H. induction m as [|m IH]; intros fuel Hm Hf; (destruct fuel as [|fuel]; [lia|]); cbn [ti_collect].
    - rewrite next_out by lia. reflexivity.
    - rewrite next_in by (auto; lia). cbn [bind fst snd]. replace (Z.of_nat (S m) - 1 - 1) with (Z.of_nat m - 1) by lia.
      rewrite IH by lia. cbn [bind fst snd]. replace (Z.of_nat (S m)) with (Z.of_nat m + 1) by lia.
      rewrite (zrange_app (Z.of_nat m) 1) by lia. rewrite map_app, rev_app_distr. change (zrange 1) with [0]. cbn [map rev app]. rewrite Z.add_0_r. replace (Z.of_nat m + 1 - 1) with (Z.of_nat m) by lia. reflexivity. }
  rewrite F by lia. replace (Z.of_nat k) with (Z.of_nat (S k) - 1) at 1 by lia. apply G; lia.
Qed.

(** Two iterators over a 2 x 2 tensor, the second a copy made after one call. *)
Example C124_case :
  forward 0 [TNew [2; 2]; TNext 0; TCopy 0; TNext 1; TNext 0; TNext 1; TNext 1; TNext 1] /\
  rest_run [] [TNew [2; 2]; TNext 0; TCopy 0; TNext 1; TNext 0; TNext 1; TNext 1; TNext 1] =
    [Some [0; 0]; Some [0; 1]; Some [0; 1]; Some [1; 0]; Some [1; 1]; None] /\
  ti_collect 9 (ti_reversed (at_pos [2; 2] 0 false)) = Ok ([[0; 0]], true).
Proof. split; [|split; reflexivity]. cbn. repeat split; try lia. repeat constructor; lia. Qed.

(** ** Random tensors *)
Lemma set_one : forall T te v ind (e : T), rs_ok (RV v) -> inb ind (ddims (rv_desc v)) ->
  py_set_value te v (KTuple (map PInt ind)) e [] = Ok [pwrite (tsz te * addr (rv_desc v) ind) e].
Proof.
  intros T te v ind e HV Hi. assert (HE := proj1 HV). cbn [rs_desc] in HE. unfold py_set_value. rewrite map_length, (inb_length _ _ Hi), Nat.ltb_irrefl.
  assert (N : existsb is_slice (map PInt ind) = false) by (clear; induction ind; auto). rewrite N. cbn [orb andb].
  unfold subscript_to_val. assert (C : cast_sizes (map PInt ind) = Ok ind).
  { clear - Hi HE. induction Hi as [|k d l ds Hk H IH]; [reflexivity|]. inversion HE; subst. cbn [map cast_sizes cast_size].
    unfold extent in *. destruct (Z.leb_spec 0 k); [|lia]. destruct (Z.ltb_spec k (2 ^ 64)); [|lia]. cbn [andb bind]. rewrite IH by auto. reflexivity. }
  rewrite C. cbn [bind]. assert (P : map to_ptrdiff ind = ind).
  { clear - Hi HE. induction Hi as [|k d l ds Hk H IH]; auto. inversion HE; subst. cbn [map]. rewrite IH by auto. f_equal.
    apply to_ptrdiff_id. unfold extent, int64 in *. lia. }
  rewrite P, subscript_at by auto. reflexivity.
Qed.

Section Rand.
  Variable O : Ops.
  Variable HR : is_ring O.
  Notation R := (car O).
  Let rt := ir_rt O HR.
  Add Ring Pring : rt.

  (** C125.  create_random_tensor: every element gets its own values of the random
      function, in row-major order, nothing else is written, and the function is
      called once more than needed. *)
  Theorem C125_random : forall te dims (rnd : R -> R) (draw : nat -> pyval) x y cf base fuel (h : heap (R * R)),
    In te tensor_types -> Forall extent dims ->
    (forall k, draw k = if cf : bool then VComplex (x k) (y k) else VReal (x k)) ->
    (length (indices dims) < fuel)%nat ->
    exists h', create_random (DT te) dims rnd draw base fuel h =
        Ok (rt_ctor base dims, h', (1 + calls (complex_elements te) cf * length (indices dims))%nat, true) /\
      (forall n idx, nth_error (indices dims) n = Some idx ->
         h' (tsz te * addr (rt_desc (rt_ctor base dims)) idx) = Some (wanted (complex_elements te) cf rnd x y n)) /\
      (forall a, (forall idx, inb idx dims -> a <> tsz te * addr (rt_desc (rt_ctor base dims)) idx) -> h' a = h a).
  Proof.
    intros te dims rnd draw x y cf base fuel h Hk' HE HD Hf.
    assert (Hk : known te = true) by (destruct Hk' as [<-|[<-|[<-|[<-|[]]]]]; reflexivity).
    replace (complex_elements te) with (is_complex te) by (destruct te; reflexivity). assert (HN := extent_nonneg _ HE). assert (Hp := item_size_pos te). fold (tsz te) in Hp.
    assert (NL : length (indices dims) = Z.to_nat (zprod dims)) by (rewrite indices_eq by auto; now rewrite map_length, zrange_length).
    assert (NP := zprod_nonneg dims HN). set (N := zprod dims) in *. rewrite NL in *.
    set (t := rt_ctor base dims). set (v := rv_whole t).
    assert (HV : rs_ok (RV v)).
    { split; [exact HE|]. unfold v, t, rv_whole, rt_ctor. cbn [rt_desc rt_len rv_desc rv_istr rv_size ddims dstrides]. rewrite dims_to_strides_eq. cbn [fst snd].
      split; [apply rms_length|]. split; auto. }
    assert (AD : forall s, 0 <= s < N -> addr (rv_desc v) (number dims s) = base + s).
    { intros s Hs. unfold v, t, rv_whole, rt_ctor. cbn [rv_desc rt_desc]. rewrite dims_to_strides_eq. unfold addr. cbn [dbase dstrides fst].
      unfold number. now rewrite rm_sti_ordinal. }
    set (per := calls (is_complex te) cf).
    assert (LP : forall m s k h, 0 <= s -> s + Z.of_nat m = N -> k = (1 + per * Z.to_nat s)%nat ->
      (forall n, s <= n < N -> exists u, h (tsz te * (base + n)) = Some u) -> forall fuel, (m < fuel)%nat ->
      exists h', rand_loop te rnd draw v fuel (at_pos dims s false) k h = Ok (h', (1 + per * Z.to_nat N)%nat, true) /\
        (forall n, s <= n < N -> h' (tsz te * (base + n)) = Some (wanted (is_complex te) cf rnd x y (Z.to_nat n))) /\
        (forall a, (forall n, s <= n < N -> a <> tsz te * (base + n)) -> h' a = h a)).
    { induction m as [|m IH]; intros s k g Hs Hm Hkk HA fl Hfl; (destruct fl as [|fl]; [lia|]); cbn [rand_loop].
      - rewrite next_out by (fold N; lia). cbn [bind fst]. exists g. split; [|split; intros; auto; lia].
        subst k. do 4 f_equal. f_equal. lia.
      - rewrite next_in by (auto; fold N; lia). cbn [bind fst snd].
        assert (Hi : inb (number dims s) dims) by (apply rm_sti_inb; auto; fold N; lia).
        assert (RV0 : exists w, rand_value te draw k = (w, (k + per)%nat) /\ to_elem te rnd w = Ok (wanted (is_complex te) cf rnd x y (Z.to_nat s))).
        { unfold rand_value, per, calls, to_elem, wanted. rewrite !HD. clear - Hkk HR rt. subst k. unfold per, calls.
          destruct (is_complex te), cf; cbn [andb negb is_vc v_re v_im v_pair].
          - eexists. split; [f_equal; lia|]. cbn [v_re v_im]. do 3 f_equal; f_equal; f_equal; lia.
          - eexists. split; [f_equal; lia|]. cbn [v_re v_im]. do 2 f_equal; f_equal.
            + transitivity (x (1 + 2 * Z.to_nat s)%nat); [unfold v_pair; cbn [v_re v_im]; ring|]. reflexivity.
            + transitivity (x (S (1 + 2 * Z.to_nat s))%nat); [unfold v_pair; cbn [v_re v_im]; ring|]. reflexivity.
          - eexists. split; [f_equal; lia|]. cbn [is_vc v_re]. do 3 f_equal; f_equal; f_equal; lia.
          - eexists. split; [f_equal; lia|]. cbn [is_vc v_re]. do 3 f_equal; f_equal; f_equal; lia. }
        destruct RV0 as (w & E1 & E2). rewrite E1, E2. cbn [bind]. rewrite set_one by auto. cbn [bind fold_left].
        rewrite AD by lia. destruct (HA s ltac:(lia)) as (u & Hu). cbn [bind]. cbn [run pwrite]. rewrite Hu. cbn [bind snd].
        set (e := wanted _ _ _ _ _ (Z.to_nat s)). set (g1 := upd g (tsz te * (base + s)) e).
        assert (NE : forall n, n <> s -> tsz te * (base + n) <> tsz te * (base + s)).
        { intros n Hn X. apply Z.mul_reg_l in X; lia. }
        destruct (IH (s + 1) (k + per)%nat g1) with (fuel := fl) as (h' & E & V & F); try lia.
        + subst k. replace (Z.to_nat (s + 1)) with (S (Z.to_nat s)) by lia. lia.
        + intros n Hn. unfold g1. rewrite upd_other by (apply NE; lia). apply HA. lia.
        + exists h'. split; [exact E|]. split.
          * intros n Hn. destruct (Z.eq_dec n s) as [->|Hne]; [|apply V; lia]. rewrite F by (intros n Hn' X; symmetry in X; revert X; apply NE; lia).
            unfold g1. now rewrite upd_same.
          * intros a Ha. rewrite F by (intros n Hn; apply Ha; lia). unfold g1. apply upd_other. apply Ha. lia. }
    unfold create_random. rewrite Hk. cbv zeta. fold t. fold v. rewrite ctor_eq. cbn [bind].
    assert (LN : rt_len t = N) by (unfold t, rt_ctor; cbn [rt_len]; now rewrite dims_to_strides_eq). rewrite LN.
    destruct (LP (Z.to_nat N) 0 1%nat (alloc_elems te (o0, o0) base N h)) with (fuel := fuel) as (h' & E & V & F); try lia.
    { intros n Hn. exists (o0, o0). unfold alloc_elems. rewrite (Z.mul_comm (tsz te)), Z.mod_mul, Z.div_mul by lia. cbn [Z.eqb andb].
      destruct (Z.leb_spec base (base + n)); [|lia]. destruct (Z.ltb_spec (base + n) (base + N)); [reflexivity|lia]. }
    exists h'. rewrite E. cbn [bind fst snd]. split; [reflexivity|]. split.
    - intros n idx Hn. rewrite indices_eq in Hn by auto. fold N in Hn. rewrite nth_error_map in Hn.
      destruct (nth_error (zrange N) n) as [s|] eqn:Es; [|discriminate]. inversion Hn; subst idx.
      assert (Hs : s = Z.of_nat n /\ 0 <= s < N).
      { assert (Hin := nth_error_In _ _ Es). apply zrange_in in Hin. split; auto. unfold zrange in Es. rewrite nth_error_map in Es.
        destruct (nth_error (seq 0 (Z.to_nat N)) n) as [q|] eqn:Eq; [|discriminate]. inversion Es. f_equal.
        assert (L : (n < Z.to_nat N)%nat) by (rewrite <- (seq_length (Z.to_nat N) 0); apply nth_error_Some; congruence).
        apply (nth_error_nth _ _ 0%nat) in Eq. rewrite seq_nth in Eq by auto. lia. }
      destruct Hs as (Hs1 & Hs2). change (rt_desc t) with (rv_desc v). rewrite AD by auto. rewrite V by auto. rewrite Hs1, Nat2Z.id. reflexivity.
    - intros a Ha. assert (Ha' : forall n, 0 <= n < N -> a <> tsz te * (base + n)).
      { intros n Hn. rewrite <- AD by auto. apply Ha. apply rm_sti_inb; auto. }
      rewrite F by auto. unfold alloc_elems. destruct (Z.eqb_spec (a mod tsz te) 0) as [M|M]; [|reflexivity]. cbn [andb].
      destruct (Z.leb_spec base (a / tsz te)); [|reflexivity]. destruct (Z.ltb_spec (a / tsz te) (base + N)); [|reflexivity]. exfalso.
      apply (Ha' (a / tsz te - base)); [lia|]. replace (base + (a / tsz te - base)) with (a / tsz te) by lia.
      apply Z.div_exact; lia.
  Qed.
End Rand.

(** Other data types are refused. *)
Theorem C125_dtype : forall (O : Ops) d dims (rnd : car O -> car O) draw base fuel h,
  (forall te, d = DT te -> ~ In te tensor_types) -> create_random d dims rnd draw base fuel h = Throw.
Proof.
  intros O [te|] dims rnd draw base fuel h H; [|reflexivity]. unfold create_random. specialize (H te eq_refl). unfold tensor_types in H. cbn [In] in H.
  assert (K : known te = false) by (destruct te; try reflexivity; exfalso; apply H; auto). now rewrite K.
Qed.

(** A function that gives a real number first and a complex one later is not
    accepted for real tensors. *)
Theorem C125_mixed : forall (O : Ops) te d dims (rnd : car O -> car O) draw base fuel h x x' y',
  complex_elements te = false -> Forall extent (d :: dims) -> Forall (fun e => 0 < e) (d :: dims) ->
  draw 0%nat = VReal x -> draw 1%nat = VComplex x' y' ->
  create_random (DT te) (d :: dims) rnd draw base (S fuel) h = Throw.
Proof.
  intros O te d dims rnd draw base fuel h x x' y' Hc' HE HP H0 H1. assert (Hc : is_complex te = false) by (destruct te; try reflexivity; discriminate). unfold create_random. destruct (known te); [|reflexivity]. rewrite ctor_eq. cbn [bind rand_loop].
  assert (0 < zprod (d :: dims)) by now apply zprod_pos. rewrite next_in by (try apply extent_nonneg; auto; lia). cbn [bind fst snd].
  unfold rand_value. rewrite Hc, H0. cbn [is_vc]. rewrite H1. unfold to_elem. rewrite Hc. reflexivity.
Qed.

(** Case: a 2 x 1 complex tensor from the real numbers 5, 6, 7, ... *)
Example C125_case :
  exists h', create_random (O := ZOps) (DT C128) [2; 1] (fun x => x) (fun k => VReal (O := ZOps) (5 + Z.of_nat k)) 3 9 (fun _ => None) =
      Ok (rt_ctor 3 [2; 1], h', 5%nat, true) /\
    h' 48 = Some (6, 7) /\ h' 64 = Some (8, 9) /\ h' 80 = None.
Proof. eexists. split; [reflexivity|]. repeat split. Qed.

(** C126.  Whatever is given to set_finalize_arg, finalize gets False at exit. *)
Theorem C126_finalize_refuted : forall cs, exit_arg cs = FFalse.
Proof. reflexivity. Qed.

Print Assumptions C124_order_partial.
Print Assumptions C124_loop.
Print Assumptions C124_reversed_refuted.
Print Assumptions C125_random.
Print Assumptions C125_dtype.
Print Assumptions C125_mixed.
