(** * T_PyCall: einsum from Python on buffers (C131). *)
From Coq Require Import List ZArith Lia Bool String Permutation.
From Verif Require Import Base Heap Conc M_Addr S_Addr L_Addr M_Einsum S_Einsum M_Blas M_PyEinsum S_PyEinsum L_PyEinsum T_PyEinsum.
From Verif Require Import M_Runtime M_PyTensor S_PyTensor.
From Verif Require Import M_PyCall S_PyCall.
Import ListNotations.
Open Scope Z_scope.

Lemma to_u64_small : forall x, 0 <= x < 2 ^ 64 -> to_u64 x = x.
Proof. intros x H. unfold to_u64. now apply Z.mod_small. Qed.

Lemma byte_check_app : forall d s l m c, List.length l = List.length m -> Forall (fun x => 0 <= x) l ->
  byte_check c (l ++ [d]) (m ++ [s]) = byte_check c l m && (fold_left (fun a x => to_u64 (a * x)) l c =? to_u64 s).
Proof.
  intros d s. induction l as [|x l IH]; intros [|y m] c HL HF; try discriminate; cbn [app byte_check fold_left].
  - now rewrite andb_true_r.
  - inversion HF; subst. rewrite IH by (auto; injection HL; auto). now rewrite andb_assoc.
Qed.
Lemma fold_u64 : forall l c, fold_left (fun a x => to_u64 (a * x)) l (to_u64 c) = to_u64 (c * zprod l).
Proof.
  induction l as [|x l IH]; intros c; cbn [fold_left zprod]; [now rewrite Z.mul_1_r|].
  replace (to_u64 (to_u64 c * x)) with (to_u64 (c * x)) by (unfold to_u64; now rewrite Z.mul_mod_idemp_l).
  rewrite IH. f_equal. ring.
Qed.
Lemma zprod_rev : forall l, zprod (rev l) = zprod l.
Proof.
  assert (G : forall a b, zprod (a ++ b) = zprod a * zprod b) by (induction a as [|x a IH]; intros b; cbn [app zprod]; [ring|rewrite IH; ring]).
  induction l as [|x l IH]; [reflexivity|]. cbn [rev]. rewrite G, IH. cbn [zprod]. ring.
Qed.
(** The test in bytes is the test of the strides. *)
Lemma bytes_iff : forall n shape strides, 0 < n < 2 ^ 63 -> Forall (fun d => 0 <= d) shape -> List.length strides = List.length shape ->
  Forall (fun s => - 2 ^ 63 <= s < 2 ^ 63) strides -> Forall (fun r => n * r < 2 ^ 63) (row_major_strides shape) ->
  (byte_check n (rev shape) (rev strides) = true <-> strides = List.map (Z.mul n) (row_major_strides shape)).
Proof.
  intros n shape. induction shape as [|d ds IH]; intros [|s ss] Hn HD HL HS HR; try discriminate; [cbn; tauto|].
  rewrite rms_cons in *. cbn [rev List.map]. inversion HD; inversion HS; inversion HR; subst. injection HL as HL.
  rewrite byte_check_app by (rewrite ?rev_length; auto; apply Forall_rev; auto).
  replace (fold_left (fun a x => to_u64 (a * x)) (rev ds) n) with (n * zprod ds).
  2:{ replace n with (to_u64 n) at 2 by (apply to_u64_small; lia). rewrite fold_u64, zprod_rev. symmetry. apply to_u64_small.
      assert (0 <= zprod ds) by now apply zprod_nonneg. nia. }
  rewrite andb_true_iff, IH, Z.eqb_eq by auto.
  assert (0 <= zprod ds) by now apply zprod_nonneg. assert (0 <= n * zprod ds) by nia.
  assert (E : n * zprod ds = to_u64 s <-> s = n * zprod ds).
  { unfold to_u64. split; intros E.
    - destruct (Z_lt_le_dec s 0).
      + rewrite <- (Z.mod_add s 1) in E by lia. rewrite Z.mod_small in E by lia. lia.
      + rewrite Z.mod_small in E by lia. lia.
    - rewrite E. symmetry. apply Z.mod_small. lia. }
  rewrite E. split; [intros [-> ->]; reflexivity|]. intros Q. injection Q as -> ->. auto.
Qed.

Lemma array_size : forall te b, array te b -> b_isz b = item_size te /\ 0 < b_isz b < 2 ^ 63.
Proof. intros te b ((N & _) & _). inversion N; subst; cbn; lia. Qed.

Lemma map_div : forall n l, 0 < n -> Forall (fun s => (n | s)) l -> List.map (Z.mul n) (List.map (fun s => s / n) l) = l.
Proof.
  intros n l Hn H. induction H as [|s l (q & ->) _ IH]; [reflexivity|]. cbn [List.map]. rewrite IH. f_equal. rewrite Z.div_mul by lia. ring.
Qed.
Lemma contiguous_eq : forall te b, array te b -> bytes_contiguous b = py_contiguous (el_desc te b).
Proof.
  intros te b HA. destruct (array_size te b HA) as (Es & Hs). destruct HA as ((_ & HD & HL) & (HF & HR) & HW & _).
  assert (I := bytes_iff (b_isz b) (b_shape b) (b_strides b) Hs HD HL HF HR). unfold bytes_contiguous, py_contiguous, el_desc. cbn [dstrides ddims].
  rewrite dims_to_strides_eq. cbn [fst]. rewrite <- Es. assert (M := map_div (b_isz b) (b_strides b) ltac:(lia) HW).
  destruct (list_eq_dec Z.eq_dec _ _) as [E|E].
  - apply I. rewrite <- E. now rewrite M.
  - apply not_true_is_false. intros Q. apply E. apply I in Q. rewrite Q, map_map. rewrite <- (map_id (row_major_strides (b_shape b))) at 2.
    apply map_ext. intros x. rewrite Z.mul_comm. apply Z.div_mul. lia.
Qed.

Lemma native_type : forall f n te, native f n te -> In te einsum_types -> exec_type f = Some te.
Proof. intros f n te N I. inversion N; subst; try reflexivity; exfalso; cbn in I; intuition discriminate. Qed.
Lemma native_fmt : forall f g n m te, native f n te -> native g m te -> In te einsum_types -> f = g.
Proof. intros f g n m te N M I. inversion N; subst; inversion M; subst; try reflexivity; exfalso; cbn in I; intuition discriminate. Qed.

Lemma native_exec : forall f n t te, native f n t -> exec_type f = Some te -> t = te /\ In te einsum_types.
Proof. intros f n t te N H. destruct N; cbn in H; try discriminate; injection H as <-; cbn; auto 6. Qed.

(** C131.  On arrays of one of the four types, with prefactors that convert,
    the call is the einsum of M_PyEinsum (C73 to C78) on the elements of the
    buffers, and these are where the buffer protocol puts them. *)
Theorem C131_call_partial : forall (O : Ops) P (cast : item -> P -> option (car O)) e cp C ab A B te c x,
  In te einsum_types -> array te C -> array te A -> array te B -> b_writable C = true ->
  cast te cp = Some c -> cast te ab = Some x ->
  py_invoke cast e cp C ab A B = py_einsum e (item_size te) c (el_desc te C) x (el_desc te A) (el_desc te B) /\
  Forall (fun b => in_bytes (item_size te) (el_desc te b) = buf_desc b) [C; A; B].
Proof.
  intros O P cast e cp C ab A B te c x HT HC HA HB HW Hc Hx. split.
  - unfold py_invoke, py_einsum. destruct (py_algorithm e) as [alg| |]; cbn [bind]; auto. unfold plan_execute. rewrite HW. cbn [negb].
    assert (TY : forall k, typed cast cp C ab A B k = k te c x).
    { intros k. unfold typed. destruct HC as ((NC & _) & _ & _ & PC), HA as ((NA & _) & _ & _ & PA), HB as ((NB & _) & _ & _ & PB).
      rewrite <- (native_fmt _ _ _ _ _ NC NA HT), <- (native_fmt _ _ _ _ _ NC NB HT), String.eqb_refl. cbn [negb orb].
      rewrite (native_type _ _ _ NC HT), Hc, Hx. cbn [forallb].
      assert (Z0 : forall b, (item_size te | b_ptr b) -> b_ptr b mod item_size te =? 0 = true).
      { intros b (q & ->). rewrite Z.mod_mul; [reflexivity|]. destruct te; cbn; lia. }
      now rewrite !Z0 by auto. }
    rewrite !TY. rewrite (contiguous_eq te C), (contiguous_eq te A), (contiguous_eq te B) by auto. unfold py_execute.
    destruct alg; try reflexivity; destruct (py_contiguous (el_desc te C) && py_contiguous (el_desc te A) && py_contiguous (el_desc te B)); reflexivity.
  - assert (G : forall b, array te b -> in_bytes (item_size te) (el_desc te b) = buf_desc b).
    { intros b Hb. destruct (array_size te b Hb) as (Es & Hs). destruct Hb as (_ & _ & HWs & (q & Eq)). unfold in_bytes, el_desc, buf_desc. cbn [dbase ddims dstrides].
      rewrite <- Es in *. rewrite map_div by (auto; lia). f_equal. rewrite Eq, Z.div_mul by lia. ring. }
    repeat constructor; auto.
Qed.

(** Anything else is refused before anything is written: a result that may not
    be written, different data types, another data type, prefactors that do not
    convert (such as complex ones for real elements). *)
Theorem C131_refused : forall (O : Ops) P (cast : item -> P -> option (car O)) e cp C ab A B tc ta tb,
  buf_ok C tc -> buf_ok A ta -> buf_ok B tb ->
  b_writable C = false \/ tc <> ta \/ tc <> tb \/ ~ In tc einsum_types \/ cast tc cp = None \/ cast tc ab = None ->
  py_algorithm e <> UB -> py_invoke cast e cp C ab A B = Throw.
Proof.
  intros O P cast e cp C ab A B tc ta tb (NC & _) (NA & _) (NB & _) H HU. unfold py_invoke. destruct (py_algorithm e) as [alg| |]; cbn [bind]; try tauto; try reflexivity.
  unfold plan_execute. destruct (b_writable C) eqn:W; cbn [negb]; [|reflexivity].
  assert (TY : forall k, typed cast cp C ab A B k = Throw).
  { intros k. unfold typed. destruct (String.eqb_spec (b_fmt C) (b_fmt A)) as [EA|]; cbn [negb orb]; [|reflexivity].
    destruct (String.eqb_spec (b_fmt C) (b_fmt B)) as [EB|]; cbn [negb]; [|reflexivity].
    destruct (exec_type (b_fmt C)) as [te|] eqn:E; [|reflexivity].
    destruct (native_exec _ _ _ _ NC E) as (E1 & HI). rewrite EA in E. destruct (native_exec _ _ _ _ NA E) as (E2 & _).
    rewrite <- EA, EB in E. destruct (native_exec _ _ _ _ NB E) as (E3 & _).
    subst ta tb tc. destruct H as [H|[H|[H|[H|[H|H]]]]]; try congruence; try tauto; rewrite H; destruct (cast te cp); reflexivity. }
  rewrite !TY. destruct alg; try reflexivity; destruct (_ && _); reflexivity.
Qed.

(** The code computes with unsigned numbers.  For all strides, also negative
    ones, the addresses are those of [el_desc], modulo 2^64. *)
Theorem C131_address : forall te b idx, In te einsum_types -> (item_size te | b_ptr b) ->
  code_addr (item_size te) b idx = to_u64 (item_size te * addr (el_desc te b) idx).
Proof.
  intros te b idx HT (q & Eq). unfold code_addr, addr, el_desc. cbn [dbase dstrides].
  assert (exists j, 0 <= j <= 62 /\ item_size te = 2 ^ j) as (j & Hj & Ej).
  { cbn in HT. destruct HT as [<-|[<-|[<-|[<-|[]]]]]; [exists 2|exists 3|exists 3|exists 4]; split; try lia; reflexivity. }
  set (n := item_size te) in *. assert (Hn : 0 < n) by (rewrite Ej; apply Z.pow_pos_nonneg; lia).
  assert (E64 : 2 ^ 64 = n * 2 ^ (64 - j)) by (rewrite Ej, <- Z.pow_add_r by lia; f_equal; lia).
  assert (ST : forall s, exists k, step_u64 n s = s / n + 2 ^ (64 - j) * k).
  { intros s. exists (- (s / 2 ^ 64)). unfold step_u64, to_u64. rewrite Z.mod_eq by (apply Z.pow_nonzero; lia).
    replace (s - 2 ^ 64 * (s / 2 ^ 64)) with (s + (2 ^ (64 - j) * - (s / 2 ^ 64)) * n) by (rewrite E64 at 2; ring).
    now rewrite Z.div_add by lia. }
  assert (DT : exists k, dotp idx (List.map (step_u64 n) (b_strides b)) = dotp idx (List.map (fun s => s / n) (b_strides b)) + 2 ^ (64 - j) * k).
  { clear Eq. revert idx. induction (b_strides b) as [|s l IH]; intros idx; cbn [List.map].
    - exists 0. rewrite !dotp_nil_r. ring.
    - destruct idx as [|i idx]; cbn [dotp]; [exists 0; ring|]. destruct (IH idx) as (k & ->), (ST s) as (k' & ->). exists (i * k' + k). ring. }
  destruct DT as (k & ->). set (D := dotp idx _). rewrite Eq, Z.div_mul by lia. unfold to_u64.
  rewrite (Z.mod_eq (D + _)) by (apply Z.pow_nonzero; lia). set (m := (D + _) / 2 ^ 64).
  replace (q * n + n * (D + 2 ^ (64 - j) * k - 2 ^ 64 * m)) with (n * (q + D) + (k - n * m) * 2 ^ 64) by (rewrite E64; ring).
  apply Z.mod_add. apply Z.pow_nonzero; lia.
Qed.

(** Missing: strides that are not whole items, such as a field of packed
    records.  They are not refused, and other bytes are read. *)
Theorem C131_packed_refuted :
  exists A B C ss idx, buf_ok A F64 /\ fits A /\ array F64 B /\ array F64 C /\ b_writable C = true /\
    py_invoke (O := ZOps) (fun _ x => Some x) (mkEin [0%nat] [0%nat] [0%nat]) 0 C 1 A B = Ok ss /\
    inb idx (b_shape A) /\ code_addr 8 A idx <> addr (buf_desc A) idx.
Proof.
  set (A := mkBuf 0 8 "d" [2] [12] false). set (B := mkBuf 64 8 "d" [2] [8] false). set (C := mkBuf 128 8 "d" [2] [8] true).
  exists A, B, C. eexists. exists [1].
  assert (G : forall p w, (8 | p) -> array F64 (mkBuf p 8 "d" [2] [8] w)).
  { intros p w Hp. split; [|split; [|split]]; auto; repeat split; cbn; repeat constructor; try lia. exists 1. reflexivity. }
  split; [repeat split; cbn; repeat constructor; lia|]. split; [split; cbn; repeat constructor; lia|].
  split; [apply G; now exists 8|]. split; [apply G; now exists 16|]. split; [reflexivity|]. split; [vm_compute; reflexivity|].
  split; [repeat constructor; lia|]. vm_compute. discriminate.
Qed.

(** Case: a reversed array (stride -8) of doubles. *)
Example C131_case : array F64 (mkBuf 80 8 "d" [3] [-8] true) /\ code_addr 8 (mkBuf 80 8 "d" [3] [-8] true) [2] = 64.
Proof.
  split; [|vm_compute; reflexivity].
  split; [|split; [|split]]; try (repeat split; cbn; repeat constructor; lia).
  - constructor; [exists (-1); reflexivity|constructor].
  - now exists 10.
Qed.

Print Assumptions C131_call_partial.
Print Assumptions C131_refused.
Print Assumptions C131_address.
Print Assumptions C131_packed_refuted.
