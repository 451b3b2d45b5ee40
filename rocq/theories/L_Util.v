(** * L_Util: lemmas for arange, fftfreq, the circular buffer. *)
From Coq Require Import List ZArith Lia Bool Permutation.
From Verif Require Import Base Heap Conc M_Addr S_Addr L_Addr M_Elt L_Elt M_Einsum S_Einsum S_Blas M_Blas L_Blas M_Util S_Util.
Import ListNotations.
Open Scope Z_scope.

Lemma inb1 : forall i n, inb [i] [n] <-> 0 <= i < n.
Proof. intros. rewrite inb_cons. split; [intros (H & _); auto|]. intros H. split; [auto|constructor]. Qed.
Lemma inb1_inv : forall idx n, inb idx [n] -> exists i, idx = [i] /\ 0 <= i < n.
Proof. intros idx n H. inversion H as [|i d is ds H1 H2]; subst. inversion H2; subst. eauto. Qed.
Lemma addr1 : forall base n i, addr (tensor_ctor base [n]) [i] = base + i.
Proof. intros. unfold addr. cbn. lia. Qed.

Lemma subscript1 : forall base n i, 0 <= i -> subscript (tensor_ctor base [n]) [i] = base + i.
Proof.
  intros. unfold subscript. replace (wrap_negative (ddims (tensor_ctor base [n])) [i]) with [i]; [apply addr1|].
  cbn. destruct (i <? 0) eqn:E; auto. apply Z.ltb_lt in E. lia.
Qed.

(** ** arange *)
Section Arange.
  Context {O : Ops} (lt : car O -> car O -> bool) (trunc : car O -> Z).

  (** One iteration writes position [index]. *)
  Lemma tset1 : forall (h : heap (car O)) base n k x w, 0 <= k -> h (base + k) = Some w ->
    tset h (tensor_ctor base [n]) [k] x = Ok (upd h (base + k) x).
  Proof.
    intros h base n k x w Hk Hw. unfold tset. replace (subscript (tensor_ctor base [n]) [k]) with (base + k).
    - now apply wr_some with (w := w).
    - now rewrite subscript1.
  Qed.

  Lemma arange_loop_spec : forall (v : Z -> car O) base n m stop step, 0 <= n ->
    (forall k, 0 <= k < n -> oadd (v k) step = v (k + 1)) ->
    (forall k, 0 <= k <= n -> lt (v k) stop = (k <? n)) ->
    forall j fuel (h : heap (car O)), 0 <= j <= n -> (Z.to_nat (n - j) <= fuel)%nat ->
    (forall k, j <= k < n -> h (base + k) <> None) ->
    exists h', arange_loop lt fuel (tensor_ctor base [m]) (v j) stop step j h = Some (Ok h') /\
      (forall k, j <= k < n -> h' (base + k) = Some (v k)) /\
      (forall a, ~ (base + j <= a < base + n) -> h' a = h a).
  Proof.
    intros v base n m stop step Hn Hadd Hlt j fuel. revert j.
    induction fuel as [|fuel IH]; intros j h Hj Hf Ha.
    - assert (j = n) by lia. subst j. simpl. rewrite Hlt by lia. rewrite Z.ltb_irrefl.
      exists h. split; [auto|]. split; [intros; lia|auto].
    - simpl. rewrite Hlt by lia. destruct (Z.ltb_spec j n) as [L|L].
      + destruct (h (base + j)) as [w|] eqn:Ew; [|elim (Ha j); auto; lia].
        rewrite (tset1 h base m j (v j) w) by (auto; lia). rewrite Hadd by lia.
        destruct (IH (j + 1) (upd h (base + j) (v j))) as (h' & E & H1 & H2); [lia|lia| |].
        { intros k Hk. unfold upd. destruct (base + k =? base + j); [discriminate|]. apply Ha. lia. }
        exists h'. split; [auto|]. split.
        * intros k Hk. destruct (Z.eq_dec k j) as [->|Ne]; [|apply H1; lia].
          rewrite H2 by lia. apply upd_same.
        * intros a Hn'. rewrite H2 by lia. apply upd_other. lia.
      + exists h. split; [auto|]. split; [intros; lia|auto].
  Qed.

  Lemma arange_spec : forall (v : Z -> car O) n fuel base start stop step (h : heap (car O)),
    0 <= n -> arange_count trunc start stop step = n -> v 0 = start ->
    (forall k, 0 <= k < n -> oadd (v k) step = v (k + 1)) ->
    (forall k, 0 <= k <= n -> lt (v k) stop = (k <? n)) ->
    (Z.to_nat n <= fuel)%nat ->
    exists h', arange lt trunc fuel base start stop step h = Some (Ok (tensor_ctor base [n], h')) /\
      holds h' (tensor_ctor base [n]) (fun i => v (nth 0 i 0)) /\
      (forall a, ~ (base <= a < base + n) -> h' a = h a).
  Proof.
    intros v n fuel base start stop step h Hn Hc H0 Hadd Hlt Hf. unfold arange. rewrite Hc.
    destruct (Z.ltb_spec n 0); [lia|].
    destruct (set_all_spec _ base n o0 (alloc_buffer o0 base n h)) as (h1 & E1 & S1 & S2).
    { intros k Hk. exists o0. rewrite alloc_buffer_cell by lia. auto. }
    rewrite E1. rewrite <- H0.
    destruct (arange_loop_spec v base n n stop step Hn Hadd Hlt 0 fuel h1) as (h2 & E2 & V & F); [lia|rewrite Z.sub_0_r; auto| |].
    { intros k Hk. rewrite S1 by lia. discriminate. }
    rewrite E2. exists h2. split; [auto|]. split.
    - intros idx Hi. apply inb1_inv in Hi as (i & -> & Hi). rewrite addr1. apply V. auto.
    - intros a Ha. rewrite F by lia. rewrite S2 by auto. apply alloc_buffer_other. auto.
  Qed.

  (** The loop goes on after position [n - 1] and meets an unallocated cell. *)
  Lemma arange_loop_over : forall (v : Z -> car O) base n m stop step, 0 <= n ->
    (forall k, 0 <= k < n -> oadd (v k) step = v (k + 1)) ->
    (forall k, 0 <= k <= n -> lt (v k) stop = true) ->
    forall j fuel (h : heap (car O)), 0 <= j <= n -> (Z.to_nat (n - j) < fuel)%nat ->
    (forall k, j <= k < n -> h (base + k) <> None) -> h (base + n) = None ->
    arange_loop lt fuel (tensor_ctor base [m]) (v j) stop step j h = Some UB.
  Proof.
    intros v base n m stop step Hn Hadd Hlt j fuel. revert j.
    induction fuel as [|fuel IH]; intros j h Hj Hf Ha Hx; [lia|].
    simpl. rewrite Hlt by lia. destruct (Z.eq_dec j n) as [->|Ne].
    - unfold tset. replace (subscript (tensor_ctor base [m]) [n]) with (base + n).
      + unfold wr. now rewrite Hx.
      + now rewrite subscript1.
    - destruct (h (base + j)) as [w|] eqn:Ew; [|elim (Ha j); auto; lia].
      rewrite (tset1 h base m j (v j) w) by (auto; lia). rewrite Hadd by lia. apply IH; [lia|lia| |].
      + intros k Hk. unfold upd. destruct (base + k =? base + j); [discriminate|]. apply Ha. lia.
      + rewrite upd_other by lia. auto.
  Qed.
End Arange.

(** ** fftfreq *)

(** The arithmetic is exact on the integers up to [bound]. *)
Definition exact_ints (O : Ops) (lt : car O -> car O -> bool) (trunc : car O -> Z) (ofZ : Z -> car O) (bound : Z) : Prop :=
  (forall a b, Z.abs a <= bound -> Z.abs b <= bound -> lt (ofZ a) (ofZ b) = (a <? b)) /\
  (forall a, Z.abs a <= bound -> Z.abs (a + 1) <= bound -> oadd (ofZ a) (ofZ 1) = ofZ (a + 1)) /\
  (forall a b, Z.abs a <= bound -> Z.abs b <= bound -> 0 <= b - a <= bound ->
     trunc (odiv (osub (ofZ b) (ofZ a)) (ofZ 1)) = b - a).

Section Fft.
  Context {O : Ops} (lt : car O -> car O -> bool) (trunc : car O -> Z) (ofZ : Z -> car O) (bound : Z).
  Hypothesis HE : exact_ints O lt trunc ofZ bound.

  Lemma arange_ints : forall fuel base a b (h : heap (car O)), Z.abs a <= bound -> Z.abs b <= bound ->
    0 <= b - a <= bound -> (Z.to_nat (b - a) <= fuel)%nat ->
    exists h', arange lt trunc fuel base (ofZ a) (ofZ b) (ofZ 1) h = Some (Ok (tensor_ctor base [b - a], h')) /\
      (forall k, 0 <= k < b - a -> h' (base + k) = Some (ofZ (a + k))) /\
      (forall z, ~ (base <= z < base + (b - a)) -> h' z = h z).
  Proof.
    intros fuel base a b h Ha Hb Hab Hf. destruct HE as (H1 & H2 & H3).
    destruct (arange_spec lt trunc (fun k => ofZ (a + k)) (b - a) fuel base (ofZ a) (ofZ b) (ofZ 1) h) as (h' & E & V & F); auto.
    - lia.
    - apply H3; auto.
    - now rewrite Z.add_0_r.
    - intros k Hk. rewrite H2 by lia. f_equal. lia.
    - intros k Hk. rewrite H1 by lia. destruct (Z.ltb_spec (a + k) b), (Z.ltb_spec k (b - a)); auto; lia.
    - exists h'. split; [auto|]. split; [|auto]. intros k Hk. rewrite <- (addr1 base (b - a) k).
      rewrite V; auto. now apply inb1.
  Qed.

  Lemma assign_range : forall base n lo hi src (h : heap (car O)), 0 <= lo -> lo <= hi <= n ->
    (forall k, 0 <= k < n -> h (base + k) <> None) ->
    (forall k, 0 <= k < hi - lo -> h (src + k) <> None) ->
    (base + n <= src \/ src + (hi - lo) <= base) ->
    exists h', assign_from_view (slice_ranges (tensor_ctor base [n]) [(lo, hi)]) (tensor_ctor src [hi - lo]) h = Ok h' /\
      (forall k, lo <= k < hi -> h' (base + k) = h (src + (k - lo))) /\
      (forall z, ~ (base + lo <= z < base + hi) -> h' z = h z).
  Proof.
    intros base n lo hi src h Hlo Hhi Ha Hs Hd.
    set (v := slice_ranges (tensor_ctor base [n]) [(lo, hi)]).
    assert (Dv : ddims v = [hi - lo]).
    { unfold v, slice_ranges. cbn. destruct (Z.ltb_spec hi 0); [lia|]. auto. }
    assert (Av : forall k, addr v [k] = base + lo + k).
    { intros k. unfold v, slice_ranges, addr. cbn. destruct (Z.ltb_spec hi 0); [lia|]. cbn. lia. }
    assert (I : forall i, inb i (ddims v) -> exists k, i = [k] /\ 0 <= k < hi - lo).
    { intros i Hi. rewrite Dv in Hi. now apply inb1_inv. }
    destruct (copy_seq_spec _ v (tensor_ctor src [hi - lo]) h) as (h' & E & V & F).
    - intros i j Hi Hj E. apply I in Hi as (x & -> & Hx). apply I in Hj as (y & -> & Hy).
      rewrite !Av in E. f_equal. lia.
    - rewrite Dv. auto.
    - intros i Hi. apply I in Hi as (x & -> & Hx). rewrite Av.
      destruct (h (base + lo + x)) as [w|] eqn:Ew; [eauto|]. elim (Ha (lo + x)); [lia|]. now rewrite Z.add_assoc.
    - intros i Hi. apply inb1_inv in Hi as (x & -> & Hx). rewrite addr1.
      destruct (h (src + x)) as [w|] eqn:Ew; [eauto|]. elim (Hs x); auto.
    - intros i j Hi Hj. apply I in Hi as (x & -> & Hx). apply inb1_inv in Hj as (y & -> & Hy).
      rewrite Av, addr1. lia.
    - exists h'. unfold assign_from_view. rewrite E. split; [auto|]. split.
      + intros k Hk. replace (base + k) with (addr v [k - lo]) by (rewrite Av; lia).
        rewrite V; [now rewrite addr1|]. rewrite Dv. apply inb1. lia.
      + intros z Hz. apply F. intros (i & Hi & ->). apply I in Hi as (x & -> & Hx). rewrite Av in Hz. lia.
  Qed.

  Lemma fftfreq_spec : forall fuel b0 b1 b2 n dd (h : heap (car O)),
    1 <= n <= bound -> (Z.to_nat n <= fuel)%nat ->
    (b0 + n <= b1 \/ b1 + n <= b0) -> (b0 + n <= b2 \/ b2 + n <= b0) ->
    exists h', fftfreq lt trunc ofZ fuel b0 b1 b2 n dd h = Some (Ok (tensor_ctor b0 [n], h')) /\
      (forall k, 0 <= k < n -> h' (b0 + k) =
         Some (omul (odiv o1 (omul (ofZ n) dd)) (ofZ (if k <? (n + 1) / 2 then k else k - n)))) /\
      (forall z, ~ (b0 <= z < b0 + n) -> ~ (b1 <= z < b1 + n) -> ~ (b2 <= z < b2 + n) -> h' z = h z).
  Proof.
    intros fuel b0 b1 b2 n dd h Hn Hf D1 D2. unfold fftfreq. destruct (Z.ltb_spec n 0); [lia|].
    assert (EN : Z.quot (n - 1) 2 + 1 = (n + 1) / 2).
    { rewrite Z.quot_div_nonneg by lia. replace (n + 1) with (n - 1 + 1 * 2) by lia. rewrite Z.div_add by lia. auto. }
    assert (EH : - Z.quot n 2 = (n + 1) / 2 - n).
    { rewrite Z.quot_div_nonneg by lia.
      pose proof (Z.div_mod n 2 ltac:(lia)). pose proof (Z.mod_pos_bound n 2 ltac:(lia)).
      pose proof (Z.div_mod (n + 1) 2 ltac:(lia)). pose proof (Z.mod_pos_bound (n + 1) 2 ltac:(lia)). lia. }
    rewrite EN, EH. set (N := (n + 1) / 2) in *.
    assert (HN : 1 <= N <= n).
    { unfold N. pose proof (Z.div_mod (n + 1) 2 ltac:(lia)). pose proof (Z.mod_pos_bound (n + 1) 2 ltac:(lia)). lia. }
    destruct (arange_ints fuel b1 0 N (alloc_buffer o0 b0 n h)) as (h1 & E1 & V1 & F1); [lia..|].
    rewrite Z.sub_0_r in *. rewrite E1.
    assert (A0 : forall k, 0 <= k < n -> h1 (b0 + k) = Some o0).
    { intros k Hk. rewrite F1 by lia. apply alloc_buffer_cell; lia. }
    destruct (assign_range b0 n 0 N b1 h1) as (h2 & E2 & V2 & F2); [lia|lia| | |lia|].
    { intros k Hk. rewrite A0 by auto. discriminate. }
    { intros k Hk. rewrite V1 by lia. discriminate. }
    rewrite Z.sub_0_r in *. rewrite E2.
    destruct (arange_ints fuel b2 (N - n) 0 h2) as (h3 & E3 & V3 & F3); [lia..|].
    rewrite E3. replace (0 - (N - n)) with (n - N) in * by lia.
    assert (A3 : forall k, 0 <= k < N -> h3 (b0 + k) = Some (ofZ k)).
    { intros k Hk. rewrite F3 by lia. rewrite V2 by lia. rewrite Z.sub_0_r, V1 by lia. auto. }
    destruct (assign_range b0 n N n b2 h3) as (h4 & E4 & V4 & F4); [lia|lia| | |lia|].
    { intros k Hk. destruct (Z.ltb_spec k N); [rewrite A3 by lia; discriminate|].
      rewrite F3 by lia. rewrite F2 by lia. rewrite A0 by lia. discriminate. }
    { intros k Hk. rewrite V3 by lia. discriminate. }
    rewrite E4. simpl. unfold la_scale.
    assert (T0 : tdim (tensor_ctor b0 [n]) 0 * tstride (tensor_ctor b0 [n]) 0 = n).
    { unfold tdim, tstride. cbn. lia. }
    rewrite T0. cbn [dbase tensor_ctor].
    destruct (fscal_spec n (odiv o1 (omul (ofZ n) dd)) b0 1 h4 (fun k => ofZ (if k <? N then k else k - n))) as (h5 & E5 & V5 & F5); [lia| |].
    { intros k Hk. rewrite Z.mul_1_r. destruct (Z.ltb_spec k N).
      - rewrite F4 by lia. apply A3. lia.
      - rewrite V4 by lia. rewrite V3 by lia. do 2 f_equal. lia. }
    rewrite E5. exists h5. split; [auto|]. split.
    - intros k Hk. specialize (V5 k Hk). now rewrite Z.mul_1_r in V5.
    - intros z Z0 Z1 Z2. rewrite F5.
      + rewrite F4 by lia. rewrite F3 by lia. rewrite F2 by lia. rewrite F1 by lia. apply alloc_buffer_other. auto.
      + intros (i & Hi & ->). lia.
  Qed.
End Fft.

(** ** Circular buffer *)
Lemma last_of_full : forall T c (l : list T) x, length l = c -> (1 <= c)%nat -> last_of c (l ++ [x]) = tl l ++ [x].
Proof.
  intros T c l x Hl Hc. unfold last_of. rewrite app_length. simpl. replace (length l + 1 - c)%nat with 1%nat by lia.
  destruct l; simpl in *; [lia|reflexivity].
Qed.
Lemma last_of_short : forall T c (l : list T), (length l <= c)%nat -> last_of c l = l.
Proof. intros T c l Hl. unfold last_of. replace (length l - c)%nat with 0%nat by lia. reflexivity. Qed.
Lemma live_length : forall T c (hist : list (cop T)), (length (live c hist) <= c)%nat.
Proof.
  intros T c hist. induction hist as [|[x|] r IH]; simpl; try lia.
  unfold last_of. rewrite skipn_length. lia.
Qed.

Lemma mod_add1 : forall a c, 0 <= a < c -> (a + 1) mod c = if a + 1 =? c then 0 else a + 1.
Proof.
  intros a c H. destruct (Z.eqb_spec (a + 1) c) as [->|N]; [apply Z_mod_same_full|apply Z.mod_small; lia].
Qed.

(** State after a history (newest first). *)
Fixpoint cb_run {T} (b : cbuf T) (hist : list (cop T)) : res (cbuf T) :=
  match hist with
  | [] => Ok b
  | CPut x :: older => b <- cb_run b older ;; cb_put x b
  | CReset :: older => b <- cb_run b older ;; Ok (cb_reset b)
  end.

Definition cb_inv {T} (c : Z) (l : list T) (t : Z) (b : cbuf T) : Prop :=
  cb_max b = c /\ cb_tail b = t /\ 0 <= t < c /\ cb_head b = (t + Z.of_nat (length l)) mod c /\
  cb_full b = (Z.of_nat (length l) =? c) /\ (Z.of_nat (length l) <= c) /\
  forall i x, nth_error l i = Some x -> cb_buffer b ((t + Z.of_nat i) mod c) = x.

Lemma mod_neq : forall c a b, 0 < c -> 0 < b - a < c -> a mod c <> b mod c.
Proof.
  intros c a b Hc Hab E. pose proof (Z.div_mod a c ltac:(lia)). pose proof (Z.div_mod b c ltac:(lia)).
  assert (b - a = c * (b / c - a / c)) by (rewrite Z.mul_sub_distr_l; lia). set (q := b / c - a / c) in *. clearbody q. assert (Q : q <= 0 \/ 1 <= q) by lia. destruct Q; nia.
Qed.

Lemma cb_run_inv : forall T junk (hist : list (cop T)) (c : nat), (1 <= c)%nat ->
  exists b, cb_run (cb_ctor junk (Z.of_nat c)) hist = Ok b /\
    cb_inv (Z.of_nat c) (live c hist) (Z.of_nat (dropped c hist) mod Z.of_nat c) b.
Proof.
  intros T junk hist c Hc. induction hist as [|o r IH].
  - simpl. eexists. split; [reflexivity|]. unfold cb_inv. simpl. rewrite !Z.mod_0_l by lia.
    split; [auto|]. split; [auto|]. split; [lia|]. split; [auto|]. split; [now destruct (Z.of_nat c) eqn:Ec; [lia|..]|].
    split; [lia|]. intros [|i] x H; discriminate.
  - destruct IH as (b & E & I1 & I2 & I3 & I4 & I5 & I6 & I7).
    set (C := Z.of_nat c) in *. set (t := Z.of_nat (dropped c r) mod C) in *. set (l := live c r) in *.
    assert (HC : 0 < C) by lia.
    destruct o as [x|]; simpl; rewrite E; simpl; fold l.
    + unfold cb_put. pose proof (Z.mod_pos_bound (t + Z.of_nat (length l)) C HC) as Hh. rewrite <- I4 in Hh.
      rewrite I1. destruct (Z.ltb_spec (cb_head b) 0); [lia|]. destruct (Z.leb_spec C (cb_head b)); [lia|]. simpl.
      eexists. split; [reflexivity|]. unfold cb_inv. simpl. rewrite I5, I2, I4.
      destruct (Nat.eqb_spec (length l) c) as [F|F].
      * assert (EF : Z.of_nat (length l) = C) by lia. rewrite EF, Z.eqb_refl.
        rewrite last_of_full by auto.
        assert (LL : length (tl l ++ [x]) = c) by (rewrite app_length; destruct l; simpl in *; lia).
        rewrite LL. fold C.
        assert (T1 : Z.of_nat (dropped c r + 1) mod C = (t + 1) mod C).
        { unfold t. rewrite Nat2Z.inj_add. rewrite <- Z.add_mod_idemp_l by lia. reflexivity. }
        rewrite T1. pose proof (Z.mod_pos_bound (t + 1) C HC).
        assert (Ht : (t + C) mod C = t).
        { replace (t + C) with (t + 1 * C) by lia. rewrite Z_mod_plus_full. apply Z.mod_small. lia. }
        rewrite Ht. rewrite Z.eqb_refl.
        split; [auto|]. split; [auto|]. split; [auto|]. split.
        { replace ((t + 1) mod C + C) with ((t + 1) mod C + 1 * C) by lia. rewrite Z_mod_plus_full, Z.mod_mod by lia. auto. }
        split; [rewrite Z.eqb_refl; auto|]. split; [lia|].
        intros i y Hy. rewrite Z.add_mod_idemp_l by lia.
        destruct (Nat.lt_ge_cases i (c - 1)) as [Hi|Hi].
        -- rewrite nth_error_app1 in Hy by (destruct l; simpl in *; lia).
           assert (Hy' : nth_error l (S i) = Some y) by (destruct l; [destruct i; discriminate|exact Hy]).
           apply I7 in Hy'. replace (t + 1 + Z.of_nat i) with (t + Z.of_nat (S i)) by lia.
           destruct (Z.eqb_spec ((t + Z.of_nat (S i)) mod C) t) as [Q|Q]; [|auto].
           exfalso. rewrite <- (Z.mod_small t C) in Q at 2 by lia. symmetry in Q. revert Q. apply mod_neq; lia.
        -- assert (i = length (tl l)).
           { assert (i < length (tl l ++ [x]))%nat by (apply nth_error_Some; congruence).
             destruct l; simpl in *; lia. }
           subst i. rewrite nth_error_app2, Nat.sub_diag in Hy by lia. simpl in Hy. injection Hy as <-.
           replace (t + 1 + Z.of_nat (length (tl l))) with (t + C) by (destruct l; simpl in *; lia).
           rewrite Ht, Z.eqb_refl. auto.
      * assert (F' : Z.of_nat (length l) < C) by lia. destruct (Z.eqb_spec (Z.of_nat (length l)) C); [lia|].
        rewrite last_of_short by (rewrite app_length; simpl; lia). rewrite app_length. simpl.
        rewrite Nat.add_0_r. fold t. rewrite Z.add_mod_idemp_l by lia.
        replace (t + Z.of_nat (length l) + 1) with (t + Z.of_nat (length l + 1)) by lia.
        split; [auto|]. split; [auto|]. split; [auto|]. split; [auto|].
        split.
        { destruct (Z.eqb_spec (Z.of_nat (length l + 1)) C) as [Q|Q].
          - rewrite Q. replace (t + C) with (t + 1 * C) by lia. rewrite Z_mod_plus_full, Z.mod_small by lia. apply Z.eqb_refl.
          - apply Z.eqb_neq. intros W. rewrite <- (Z.mod_small t C) in W at 2 by lia. symmetry in W. revert W. apply mod_neq; lia. }
        split; [lia|]. intros i y Hy.
        destruct (Nat.lt_ge_cases i (length l)) as [Hi|Hi].
        -- rewrite nth_error_app1 in Hy by auto.
           destruct (Z.eqb_spec ((t + Z.of_nat i) mod C) ((t + Z.of_nat (length l)) mod C)) as [Q|Q]; [|auto].
           exfalso. revert Q. apply mod_neq; lia.
        -- assert (i < length (l ++ [x]))%nat by (apply nth_error_Some; congruence).
           rewrite app_length in *. simpl in *. assert (i = length l) by lia. subst i.
           rewrite nth_error_app2, Nat.sub_diag in Hy by lia. simpl in Hy. injection Hy as <-. now rewrite Z.eqb_refl.
    + eexists. split; [reflexivity|]. unfold cb_inv, cb_reset. simpl. rewrite I2. fold t.
      split; [auto|]. split; [auto|]. split; [auto|]. split; [rewrite Z.add_0_r, Z.mod_small; lia|].
      split; [now destruct C eqn:Ec; [lia|..]|]. split; [lia|]. intros [|i] x H; discriminate.
Qed.
