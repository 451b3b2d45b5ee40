(** * T_Util: C34 arange, C35 fftfreq, C36 circular buffer, C38 index sets. *)
From Coq Require Import List ZArith Lia Bool QArith Qcanon SpecFloat.
From Verif Require Import Base Heap Conc M_Addr S_Addr L_Addr M_Elt L_Elt M_Einsum S_Einsum L_Einsum S_Blas M_Blas L_Blas Num M_Util S_Util L_Util.
Import ListNotations.
Open Scope Z_scope.

(** ** C34 *)

(** Full property: for every start <= stop and step > 0 the result is
    start, start+step, ... below stop, and only the result's cells are written.
    Proved for C++ [int] when step divides stop - start.  Missing: the other
    steps, for which it is false ([C34_int_overrun_refuted]); [double],
    for which it is false even when the decimal step divides the decimal span
    ([C34_double_overrun_refuted]). *)
Theorem C34_arange_int_partial : forall start stop step base (h : heap Z) fuel,
  0 < step -> 0 <= stop - start < 2 ^ 31 -> (step | stop - start) ->
  let n := (stop - start) / step in
  (Z.to_nat n <= fuel)%nat ->
  exists h', arange (O := IntOps) Z.ltb to_int32 fuel base start stop step h = Some (Ok (tensor_ctor base [n], h')) /\
    (forall k, 0 <= k < n -> elem h' (tensor_ctor base [n]) [k] = Some (start + k * step)) /\
    (forall v, start <= v < stop -> (step | v - start) -> exists k, 0 <= k < n /\ v = start + k * step) /\
    (forall a, ~ (base <= a < base + n) -> h' a = h a).
Proof.
  intros start stop step base h fuel Hs Hr [q Hq] n Hf.
  assert (En : n = q) by (unfold n; rewrite Hq; apply Z.div_mul; lia). clearbody n. subst n.
  assert (0 <= q) by nia. assert (q < 2 ^ 31) by nia.
  destruct (arange_spec (O := IntOps) Z.ltb to_int32 (fun k => start + k * step) q fuel base start stop step h) as (h' & E & V & F); auto.
  - unfold arange_count. cbn [odiv osub IntOps car]. rewrite Hq, Z.quot_mul by lia. apply to_int32_id. lia.
  - cbn. lia.
  - intros k Hk. cbn [oadd IntOps car]. lia.
  - intros k Hk. destruct (Z.ltb_spec (start + k * step) stop), (Z.ltb_spec k q); auto; nia.
  - exists h'. split; [auto|]. split; [|split; [|auto]].
    + intros k Hk. unfold elem. rewrite V; [reflexivity|]. now apply inb1.
    + intros v Hv [j Hj]. exists j. split; [|lia]. nia.
Qed.
Print Assumptions C34_arange_int_partial.

(** When step does not divide the span, the loop runs once too often and writes
    past the end of the returned tensor. *)
Theorem C34_int_overrun_refuted : forall start stop step base (h : heap Z) fuel,
  0 < step -> 0 <= stop - start < 2 ^ 31 -> ~ (step | stop - start) ->
  let n := (stop - start) / step in
  (Z.to_nat n < fuel)%nat -> h (base + n) = None ->
  arange (O := IntOps) Z.ltb to_int32 fuel base start stop step h = Some UB.
Proof.
  intros start stop step base h fuel Hs Hr Hnd n Hf Hx. unfold arange, arange_count. cbn [odiv osub IntOps car].
  rewrite Z.quot_div_nonneg by lia. fold n.
  assert (Hm : stop - start = step * n + (stop - start) mod step) by (apply Z.div_mod; lia).
  pose proof (Z.mod_pos_bound (stop - start) step Hs) as Hb.
  assert (Hm0 : (stop - start) mod step <> 0) by (intros E0; apply Hnd; apply Z.mod_divide; lia).
  assert (0 <= n) by (apply Z.div_pos; lia). assert (n < 2 ^ 31) by nia.
  rewrite to_int32_id by lia. destruct (Z.ltb_spec n 0); [lia|].
  destruct (set_all_spec Z base n 0 (alloc_buffer 0 base n h)) as (h1 & E1 & S1 & S2).
  { intros k Hk. exists 0. apply alloc_buffer_cell. lia. }
  cbn [o0 IntOps car]. rewrite E1.
  pose proof (arange_loop_over (O := IntOps) Z.ltb (fun k => start + k * step) base n n stop step) as L.
  cbv beta in L. specialize (L ltac:(lia)). rewrite <- (Z.add_0_r start) at 1.
  replace (start + 0) with (start + 0 * step) by lia. rewrite (L) ; auto.
  - intros k Hk. cbn [oadd IntOps car]. lia.
  - intros k Hk. apply Z.ltb_lt. nia.
  - lia.
  - rewrite Z.sub_0_r. auto.
  - intros k Hk. rewrite S1 by lia. discriminate.
  - rewrite S2 by lia. rewrite alloc_buffer_other by lia. auto.
Qed.
Print Assumptions C34_int_overrun_refuted.

(** arange(0.0, 1.0, 0.1) in IEEE double arithmetic: the tensor has 10
    elements and the loop stores 11; the eleventh value is 0.99999... *)
Theorem C34_double_overrun_refuted :
  let tenth := f64_frac 1 10 in
  arange_count (O := F64Ops) f64_trunc (f64_ofZ 0) (f64_ofZ 1) tenth = 10 /\
  (forall h : heap spec_float, h 10 = None ->
     arange (O := F64Ops) SFltb f64_trunc 20 0 (f64_ofZ 0) (f64_ofZ 1) tenth h = Some UB).
Proof.
  intros tenth. split; [vm_compute; reflexivity|]. intros h Hh.
  set (v := fun k : Z => nth (Z.to_nat k)
    (fold_left (fun acc _ => acc ++ [oadd (o := F64Ops) (last acc (f64_ofZ 0)) tenth]) (zrange 12) [f64_ofZ 0]) (f64_ofZ 0)).
  unfold arange. assert (Ec : arange_count (O := F64Ops) f64_trunc (f64_ofZ 0) (f64_ofZ 1) tenth = 10) by (vm_compute; reflexivity).
  rewrite Ec. change (10 <? 0) with false. cbv iota.
  destruct (set_all_spec spec_float 0 10 (o0 (o := F64Ops)) (alloc_buffer (o0 (o := F64Ops)) 0 10 h)) as (h1 & E1 & S1 & S2).
  { intros k Hk. exists (o0 (o := F64Ops)). apply alloc_buffer_cell. lia. }
  cbn [car F64Ops] in *. rewrite E1.
  pose proof (arange_loop_over (O := F64Ops) SFltb v 0 10 10 (f64_ofZ 1) tenth ltac:(lia)) as L.
  replace (f64_ofZ 0) with (v 0) by (vm_compute; reflexivity). rewrite L; auto; try lia.
  - intros k Hk. apply zrange_in in Hk. revert Hk. change (zrange 10) with [0; 1; 2; 3; 4; 5; 6; 7; 8; 9].
    intros Hk. repeat (destruct Hk as [<-|Hk]; [vm_compute; reflexivity|]). destruct Hk.
  - intros k Hk. assert (C : forallb (fun k => SFltb (v k) (f64_ofZ 1)) (zrange 11) = true) by (vm_compute; reflexivity).
    rewrite forallb_forall in C. apply C. apply zrange_in. lia.
  - intros k Hk. rewrite S1 by lia. discriminate.
  - rewrite S2 by lia. rewrite alloc_buffer_other by lia. auto.
Qed.
Print Assumptions C34_double_overrun_refuted.

Example C34_case :
  match arange (O := IntOps) Z.ltb to_int32 5 100 3 15 4 (fun _ => None) with
  | Some (Ok (d, h)) => map (fun k => elem h d [k]) [0; 1; 2] = [Some 3; Some 7; Some 11] /\ h 103 = None
  | _ => False end.
Proof. vm_compute. auto. Qed.

(** ** C35 *)

(** Full property: the result is [0, 1, ..., ceil(n/2)-1, -floor(n/2), ..., -1] / (n d).
    Proved for every arithmetic that is exact on the integers up to n
    ([exact_ints]): each element is 1/(n d), as that arithmetic computes it,
    times the integer.  Two buffers p1, p2 used on the way are the only other
    cells touched (they are freed by the code). *)
Theorem C35_fftfreq : forall (O : Ops) lt trunc ofZ bound, exact_ints O lt trunc ofZ bound ->
  forall n dd b0 b1 b2 (h : heap (car O)) fuel,
  1 <= n <= bound -> (Z.to_nat n <= fuel)%nat ->
  (b0 + n <= b1 \/ b1 + n <= b0) -> (b0 + n <= b2 \/ b2 + n <= b0) ->
  let freq k := if k <? (n + 1) / 2 then k else k - n in
  exists h', fftfreq lt trunc ofZ fuel b0 b1 b2 n dd h = Some (Ok (tensor_ctor b0 [n], h')) /\
    (forall k, 0 <= k < n -> elem h' (tensor_ctor b0 [n]) [k] =
       Some (omul (odiv o1 (omul (ofZ n) dd)) (ofZ (freq k)))) /\
    (forall z, ~ (b0 <= z < b0 + n) -> ~ (b1 <= z < b1 + n) -> ~ (b2 <= z < b2 + n) -> h' z = h z).
Proof.
  intros O lt trunc ofZ bound HE n dd b0 b1 b2 h fuel Hn Hf D1 D2 freq.
  destruct (fftfreq_spec lt trunc ofZ bound HE fuel b0 b1 b2 n dd h Hn Hf D1 D2) as (h' & E & V & F).
  exists h'. split; [auto|]. split; [|auto]. intros k Hk. unfold elem. rewrite addr1. now apply V.
Qed.
Print Assumptions C35_fftfreq.

(** Exact rationals. *)
Definition qlt (x y : Qc) : bool := match Qccompare x y with Lt => true | _ => false end.
Definition qtrunc (x : Qc) : Z := Z.quot (Qnum x) (Z.pos (Qden x)).
Definition qofZ (z : Z) : Qc := Q2Qc (inject_Z z).
Lemma qofZ_lt : forall a b, qlt (qofZ a) (qofZ b) = (a <? b).
Proof.
  intros a b. unfold qlt, Qccompare, qofZ. cbn [this Q2Qc].
  rewrite (Qcompare_comp _ _ (Qred_correct (inject_Z a)) _ _ (Qred_correct (inject_Z b))).
  unfold Qcompare, inject_Z. cbn [Qnum Qden]. rewrite !Z.mul_1_r. unfold Z.ltb. now destruct (a ?= b).
Qed.
Lemma qofZ_add : forall a b, (qofZ a + qofZ b)%Qc = qofZ (a + b).
Proof.
  intros a b. unfold qofZ, Qcplus. apply Qc_is_canon. cbn [this Q2Qc]. rewrite !Qred_correct. rewrite inject_Z_plus. reflexivity.
Qed.
Lemma qofZ_opp : forall a, (- qofZ a)%Qc = qofZ (- a).
Proof.
  intros a. unfold qofZ, Qcopp. apply Qc_is_canon. cbn [this Q2Qc]. rewrite !Qred_correct. rewrite inject_Z_opp. reflexivity.
Qed.
Lemma qofZ_trunc : forall a, qtrunc (qofZ a) = a.
Proof.
  intros a. unfold qtrunc, qofZ. cbn [this Q2Qc]. rewrite Qred_identity; cbn; [apply Z.quot_1_r|apply Z.gcd_1_r].
Qed.
Lemma Qc_exact : forall bound, exact_ints QcOps qlt qtrunc qofZ bound.
Proof.
  intros bound. split; [|split].
  - intros. apply qofZ_lt.
  - intros. apply qofZ_add.
  - intros a b _ _ _. cbn [odiv osub QcOps car]. unfold Qcminus. rewrite qofZ_opp, qofZ_add.
    change (qofZ 1) with 1%Qc. unfold Qcdiv. replace (/ 1)%Qc with 1%Qc by (apply Qc_is_canon; reflexivity).
    rewrite Qcmult_1_r. rewrite qofZ_trunc. lia.
Qed.

(** In exact arithmetic, the English statement literally: k/(n d) or (k-n)/(n d). *)
Theorem C35_fftfreq_exact : forall n dd b0 b1 b2 (h : heap Qc),
  1 <= n -> (b0 + n <= b1 \/ b1 + n <= b0) -> (b0 + n <= b2 \/ b2 + n <= b0) ->
  exists h', fftfreq (O := QcOps) qlt qtrunc qofZ (Z.to_nat n) b0 b1 b2 n dd h = Some (Ok (tensor_ctor b0 [n], h')) /\
    forall k, 0 <= k < n -> elem h' (tensor_ctor b0 [n]) [k] =
      Some (qofZ (if k <? (n + 1) / 2 then k else k - n) / (qofZ n * dd))%Qc.
Proof.
  intros n dd b0 b1 b2 h Hn D1 D2.
  destruct (C35_fftfreq QcOps qlt qtrunc qofZ n (Qc_exact n) n dd b0 b1 b2 h (Z.to_nat n)) as (h' & E & V & F); auto; [lia|].
  exists h'. split; [exact E|]. intros k Hk. rewrite (V k Hk). f_equal. cbn [odiv omul o1 QcOps car].
  unfold Qcdiv. rewrite Qcmult_1_l. apply Qcmult_comm.
Qed.
Print Assumptions C35_fftfreq_exact.

Example C35_case :
  match fftfreq (O := QcOps) qlt qtrunc qofZ 5 0 10 20 5 (Q2Qc (1 # 2)) (fun _ => None) with
  | Some (Ok (d, h)) => map (fun k => option_map this (elem h d [k])) [0; 1; 2; 3; 4]
      = map Some [0 # 1; 2 # 5; 4 # 5; -4 # 5; -2 # 5]%Q
  | _ => False end.
Proof. vm_compute. reflexivity. Qed.

(** In doubles: the same list, computed. *)
Example C35_double_case :
  match fftfreq (O := F64Ops) SFltb f64_trunc f64_ofZ 4 0 10 20 4 (f64_frac 1 2) (fun _ => None) with
  | Some (Ok (d, h)) => map (fun k => elem h d [k]) [0; 1; 2; 3]
      = map Some [f64_ofZ 0; f64_frac 1 2; f64_ofZ (-1); f64_frac (-1) 2]
  | _ => False end.
Proof. vm_compute. reflexivity. Qed.

(** ** C36 *)

(** Full property: after every history the buffer contains the last
    min(n, capacity) values put, in order of insertion.  Proved: for every
    history of put and reset the observers size, empty, full, capacity are those
    of that list of values, and operator[] gives its [i]-th value at position
    (dropped + i) mod capacity, where dropped counts the overwritten values (so
    while nothing was overwritten, positions 0, 1, ... are the values oldest
    first).  Missing: operator[] in order of insertion once a value was
    overwritten, which is false ([C36_order_refuted]). *)
Theorem C36_circular_partial : forall T (junk : Z -> T) (c : nat) (history : list (cop T)), (1 <= c)%nat ->
  exists b, cb_run (cb_ctor junk (Z.of_nat c)) history = Ok b /\
    let l := live c history in
    cb_size b = Z.of_nat (length l) /\ cb_capacity b = Z.of_nat c /\
    (cb_empty b = true <-> l = []) /\ (cb_is_full b = true <-> length l = c) /\
    forall i x, nth_error l i = Some x ->
      cb_at b ((Z.of_nat (dropped c history) + Z.of_nat i) mod Z.of_nat c) = Ok x.
Proof.
  intros T junk c history Hc. destruct (cb_run_inv T junk history c Hc) as (b & E & I1 & I2 & I3 & I4 & I5 & I6 & I7).
  exists b. split; [auto|]. intros l. fold l in I4, I5, I6, I7.
  set (C := Z.of_nat c) in *. set (t := Z.of_nat (dropped c history) mod C) in *.
  assert (HC : 0 < C) by lia.
  assert (Sz : cb_size b = Z.of_nat (length l)).
  { unfold cb_size. rewrite I5, I1, I2, I4. destruct (Z.eqb_spec (Z.of_nat (length l)) C) as [F|F]; simpl; [auto|].
    destruct (Z.lt_ge_cases (t + Z.of_nat (length l)) C) as [W|W].
    - rewrite Z.mod_small by lia. destruct (Z.leb_spec t (t + Z.of_nat (length l))); lia.
    - replace (t + Z.of_nat (length l)) with (t + Z.of_nat (length l) - C + 1 * C) by lia.
      rewrite Z_mod_plus_full, Z.mod_small by lia.
      destruct (Z.leb_spec t (t + Z.of_nat (length l) - C)); lia. }
  split; [auto|]. split; [auto|]. split; [|split].
  - unfold cb_empty. rewrite I5, I2, I4. split.
    + intros H. apply andb_true_iff in H as (H1 & H2). apply negb_true_iff, Z.eqb_neq in H1. apply Z.eqb_eq in H2.
      destruct l as [|y l']; [auto|]. exfalso. rewrite <- (Z.mod_small t C) in H2 at 2 by lia.
      symmetry in H2. revert H2. apply mod_neq; simpl length in *; lia.
    + intros ->. simpl length. rewrite Z.add_0_r, Z.mod_small, Z.eqb_refl by lia.
      destruct (Z.eqb_spec (Z.of_nat 0) C); [lia|auto].
  - unfold cb_is_full. rewrite I5. rewrite Z.eqb_eq. unfold C. lia.
  - intros i x Hx. unfold cb_at. rewrite I1.
    pose proof (Z.mod_pos_bound (Z.of_nat (dropped c history) + Z.of_nat i) C HC).
    destruct (Z.ltb_spec ((Z.of_nat (dropped c history) + Z.of_nat i) mod C) 0); [lia|].
    destruct (Z.leb_spec C ((Z.of_nat (dropped c history) + Z.of_nat i) mod C)); [lia|].
    simpl. f_equal. rewrite <- (I7 _ _ Hx). unfold t. now rewrite Z.add_mod_idemp_l by lia.
Qed.
Print Assumptions C36_circular_partial.

(** Capacity 3, put 1, 2, 3, 4: the oldest value is 2, operator[](0) is 4. *)
Theorem C36_order_refuted :
  exists b, cb_run (cb_ctor (fun _ => 0) 3) [CPut 4; CPut 3; CPut 2; CPut 1] = Ok b /\
    live 3 [CPut 4; CPut 3; CPut 2; CPut 1] = [2; 3; 4] /\ cb_at b 0 = Ok 4.
Proof. eexists. split; [reflexivity|]. split; reflexivity. Qed.
Print Assumptions C36_order_refuted.

(** After a reset the history starts anew: capacity 2, put 1, 2, 3, reset, put 5. *)
Example C36_case :
  live 2 [CPut 5; CReset; CPut 3; CPut 2; CPut 1] = [5] /\ dropped 2 [CPut 5; CReset; CPut 3; CPut 2; CPut 1] = 1%nat /\
  match cb_run (cb_ctor (fun _ => 0) 2) [CPut 5; CReset; CPut 3; CPut 2; CPut 1] with
  | Ok b => cb_size b = 1 /\ cb_at b 1 = Ok 5 | _ => False end.
Proof. repeat split. Qed.

(** ** C38 *)
Lemma has_type_in : forall x L, has_type x L = true <-> In x L.
Proof.
  intros x L. unfold has_type. rewrite existsb_exists. split.
  - intros (y & Hy & E). apply Nat.eqb_eq in E. now subst.
  - intros H. exists x. split; [auto|apply Nat.eqb_refl].
Qed.
Lemma subseq_filter : forall T (p : T -> bool) l, subseq (filter p l) l.
Proof. intros T p l. induction l; simpl; [constructor|]. destruct (p a); now constructor. Qed.
Lemma count_filter : forall (p : nat -> bool) l x,
  count_occ Nat.eq_dec (filter p l) x = if p x then count_occ Nat.eq_dec l x else 0%nat.
Proof.
  intros p l x. induction l as [|a l IH]; simpl; [now destruct (p x)|].
  destruct (Nat.eq_dec a x) as [->|N].
  - destruct (p x) eqn:P; simpl; [|auto]. destruct (Nat.eq_dec x x); [auto|congruence].
  - destruct (p a); simpl; [destruct (Nat.eq_dec a x); [congruence|auto]|auto].
Qed.

(** Intersect and Difference: the entries of the first tuple, in their order and
    with their repetitions, that do / do not occur in the second. *)
Theorem C38_intersect : forall A B : list nat,
  subseq (intersect A B) A /\
  (forall x, In x B -> count_occ Nat.eq_dec (intersect A B) x = count_occ Nat.eq_dec A x) /\
  (forall x, ~ In x B -> ~ In x (intersect A B)).
Proof.
  intros A B. split; [apply subseq_filter|]. split; intros x Hx.
  - unfold intersect. rewrite count_filter. apply has_type_in in Hx. now rewrite Hx.
  - unfold intersect. rewrite filter_In. rewrite has_type_in. tauto.
Qed.
Print Assumptions C38_intersect.
Theorem C38_difference : forall A B : list nat,
  subseq (difference A B) A /\
  (forall x, ~ In x B -> count_occ Nat.eq_dec (difference A B) x = count_occ Nat.eq_dec A x) /\
  (forall x, In x B -> ~ In x (difference A B)).
Proof.
  intros A B. split; [apply subseq_filter|]. split; intros x Hx.
  - unfold difference. rewrite count_filter. destruct (has_type x B) eqn:E; [|auto]. apply has_type_in in E. tauto.
  - unfold difference. rewrite filter_In, negb_true_iff. intros (_ & H). apply has_type_in in Hx. congruence.
Qed.
Print Assumptions C38_difference.

Lemma filter_unique_app : forall l out m, filter_unique out (l ++ m) = filter_unique (filter_unique out l) m.
Proof. induction l as [|a l IH]; intros out m; simpl; [auto|]. destruct (has_type a out); apply IH. Qed.
Lemma filter_unique_in : forall l out x, In x (filter_unique out l) <-> In x out \/ In x l.
Proof.
  induction l as [|a l IH]; intros out x; simpl; [tauto|]. destruct (has_type a out) eqn:E; rewrite IH.
  - apply has_type_in in E. split; [tauto|]. intros [H|[<-|H]]; auto.
  - rewrite in_app_iff. simpl. tauto.
Qed.

(** Unique: each entry once, in order of first occurrence: appending an entry
    already present changes nothing, appending a new one puts it at the end. *)
Theorem C38_unique : forall L : list nat,
  NoDup (unique L) /\ (forall x, In x (unique L) <-> In x L) /\ subseq (unique L) L /\
  (forall x, In x L -> unique (L ++ [x]) = unique L) /\
  (forall x, ~ In x L -> unique (L ++ [x]) = unique L ++ [x]).
Proof.
  intros L. assert (M : forall K x, In x (unique K) <-> In x K).
  { intros K x. unfold unique. rewrite filter_unique_in. simpl. tauto. }
  assert (S1 : forall K x, unique (K ++ [x]) = if has_type x K then unique K else unique K ++ [x]).
  { intros K x. unfold unique. rewrite filter_unique_app. simpl. fold (unique K).
    destruct (has_type x K) eqn:E.
    - apply has_type_in in E. rewrite <- M in E. apply has_type_in in E. now rewrite E.
    - destruct (has_type x (unique K)) eqn:E2; [|auto]. apply has_type_in in E2. rewrite M in E2.
      apply has_type_in in E2. congruence. }
  assert (ND : NoDup (unique L)).
  { induction L as [|x K IH] using rev_ind; [constructor|]. rewrite S1. destruct (has_type x K) eqn:E; [auto|].
    apply NoDup_snoc; [auto|]. rewrite M. intros H. apply has_type_in in H. congruence. }
  split; [auto|]. split; [apply M|]. split; [|split].
  - clear ND. assert (App : forall (a b c d : list nat), subseq a b -> subseq c d -> subseq (a ++ c) (b ++ d)).
    { intros a b c d H H2. induction H; simpl; [auto|now apply sub_skip|now apply sub_keep]. }
    assert (N : forall l : list nat, subseq [] l) by (induction l; constructor; auto).
    induction L as [|x K IH] using rev_ind; [constructor|]. rewrite S1. destruct (has_type x K).
    + rewrite <- (app_nil_r (unique K)). apply App; auto.
    + apply App; [auto|]. apply sub_keep; constructor.
  - intros x Hx. rewrite S1. apply has_type_in in Hx. now rewrite Hx.
  - intros x Hx. rewrite S1. destruct (has_type x L) eqn:E; [|auto]. apply has_type_in in E. tauto.
Qed.
Print Assumptions C38_unique.

Example C38_case :
  intersect [1; 2; 1; 3]%nat [3; 1]%nat = [1; 1; 3]%nat /\ difference [1; 2; 1; 3]%nat [3]%nat = [1; 2; 1]%nat /\
  unique [2; 1; 2; 3; 1]%nat = [2; 1; 3]%nat.
Proof. repeat split. Qed.
