(** * L_Elt: lemmas about element-wise updates and copies. *)
From Coq Require Import List ZArith Lia Bool Permutation.
From Verif Require Import Base Heap Conc M_Addr S_Addr L_Addr M_Elt.
Import ListNotations.
Open Scope Z_scope.

(** The chunks of all threads, in order, are exactly 0 .. size-1. *)
Lemma chunk_length : forall size nt tid, 0 <= size -> 0 < nt -> 0 <= tid < nt ->
  chunk_end size nt tid - chunk_begin size nt tid >= 0.
Proof.
  intros. unfold chunk_end, chunk_begin.
  assert (0 <= size / nt) by (apply Z.div_pos; lia).
  assert (nt * (size / nt) <= size) by (apply Z.mul_div_le; lia).
  destruct (Z.eqb_spec tid (nt - 1)); [subst; nia|lia].
Qed.

Lemma in_chunk : forall size nt tid k,
  In k (chunk size nt tid) <-> chunk_begin size nt tid <= k < chunk_end size nt tid.
Proof.
  intros. unfold chunk. rewrite in_map_iff. split.
  - intros (x & <- & Hx). apply zrange_in in Hx. lia.
  - intros H. exists (k - chunk_begin size nt tid). split; [lia|]. apply zrange_in. lia.
Qed.

Definition zseq (a b : Z) : list Z := map (fun k => a + k) (zrange (b - a)).

Lemma zseq_app : forall a b c, a <= b <= c -> zseq a b ++ zseq b c = zseq a c.
Proof.
  intros a b c H. unfold zseq, zrange.
  replace (Z.to_nat (c - a)) with (Z.to_nat (b - a) + Z.to_nat (c - b))%nat by lia.
  rewrite seq_app, !map_app. f_equal. rewrite !map_map. simpl.
  assert (G : forall n s, map (fun x => b + Z.of_nat x) (seq s n)
     = map (fun x => a + Z.of_nat x) (seq (Z.to_nat (b - a) + s) n)).
  { induction n as [|n IH]; intros s; simpl; auto. f_equal; [lia|]. rewrite IH.
    f_equal. f_equal. lia. }
  rewrite G. f_equal. f_equal. lia.
Qed.

Lemma chunks_concat : forall size nt, 0 <= size -> 0 < nt ->
  concat (map (chunk size nt) (zrange nt)) = zrange size.
Proof.
  intros size nt Hs Hn.
  assert (Hq : 0 <= size / nt) by (apply Z.div_pos; lia).
  assert (Hle : nt * (size / nt) <= size) by (apply Z.mul_div_le; lia).
  assert (G : forall m, (m < Z.to_nat nt)%nat ->
    concat (map (chunk size nt) (map Z.of_nat (seq 0 m))) = zseq 0 (size / nt * Z.of_nat m)).
  { induction m as [|m IH]; intros Hm.
    - simpl. unfold zseq, zrange. replace (Z.to_nat (size / nt * Z.of_nat 0 - 0)) with 0%nat by lia. reflexivity.
    - rewrite seq_S, !map_app, concat_app, IH by lia. simpl. rewrite app_nil_r.
      unfold chunk, chunk_end. destruct (Z.eqb_spec (Z.of_nat m) (nt - 1)); [lia|].
      unfold chunk_begin.
      change (zseq 0 (size / nt * Z.of_nat m) ++
        zseq (size / nt * Z.of_nat m) (size / nt * Z.of_nat m + size / nt) = zseq 0 (size / nt * Z.of_nat (S m))).
      rewrite zseq_app by nia. f_equal. lia. }
  unfold zrange at 1. 
  replace (Z.to_nat nt) with (S (Z.to_nat nt - 1)) by lia.
  rewrite seq_S, !map_app, concat_app, G by lia. simpl. rewrite app_nil_r.
  unfold chunk, chunk_end. 
  destruct (Z.eqb_spec (Z.of_nat (Z.to_nat nt - 1)) (nt - 1)); [|lia].
  unfold chunk_begin. rewrite e.
  replace (Z.of_nat (Z.to_nat nt - 1)) with (nt - 1) by lia.
  change (zseq 0 (size / nt * (nt - 1)) ++ zseq (size / nt * (nt - 1)) size = zrange size).
  rewrite zseq_app by nia. unfold zseq. rewrite Z.sub_0_r.
  rewrite <- (map_id (zrange size)) at 2. apply map_ext. intros; lia.
Qed.

Lemma zrange_addr_NoDup : forall base size, NoDup (map (fun i => base + i) (zrange size)).
Proof.
  intros. apply FinFun.Injective_map_NoDup; [intros a b; lia|]. apply zrange_NoDup.
Qed.

Lemma owned_zrange : forall base size a,
  owned (zrange size) (fun i => base + i) a <-> base <= a < base + size.
Proof.
  intros. unfold owned. rewrite in_map_iff. split.
  - intros (x & <- & Hx). apply zrange_in in Hx. lia.
  - intros H. exists (a - base). split; [lia|]. apply zrange_in. lia.
Qed.

(** A buffer of [size] cells at [base] is allocated. *)
Definition buffer {T} (h : heap T) (base size : Z) : Prop :=
  forall k, 0 <= k < size -> exists v, h (base + k) = Some v.

Lemma scalar_op_spec : forall T (op : T -> T -> T) base size sa nt (h : heap T) b,
  0 <= size -> 0 < nt -> buffer h base size -> h sa = Some b -> ~ (base <= sa < base + size) ->
  par_spec (scalar_op op base size sa nt) h (fun h' =>
    (forall k v, 0 <= k < size -> h (base + k) = Some v -> h' (base + k) = Some (op v b)) /\
    (forall a, ~ (base <= a < base + size) -> h' a = h a)).
Proof.
  intros T op base size sa nt h b Hs Hn Hbuf Hsa Hout.
  set (val := fun i => match h (base + i) with Some v => Some (op v b) | None => None end).
  assert (HP : par_spec (map (fun r => pseq r (scalar_body op base sa)) (map (chunk size nt) (zrange nt))) h
    (fun h' => (forall x, In x (zrange size) -> h' (base + x) = val x) /\
               (forall a, ~ owned (zrange size) (fun i => base + i) a -> h' a = h a))).
  { apply par_cells.
    - rewrite chunks_concat by auto. apply Permutation_refl.
    - apply zrange_addr_NoDup.
    - intros x h' Hx Hag. apply zrange_in in Hx. destruct (Hbuf x Hx) as (v & Hv).
      assert (E1 : h' sa = Some b) by (rewrite Hag; auto; right; now rewrite owned_zrange).
      assert (E2 : h' (base + x) = Some v) by (rewrite Hag; auto).
      unfold scalar_body. simpl. rewrite E1, E2. split.
      + split; [right; now rewrite owned_zrange|]. exists b. split; auto.
        split; [auto|]. exists v. split; auto. split; auto. split; eauto.
      + eexists. split; [reflexivity|]. rewrite upd_same. unfold val. now rewrite Hv. }
  rewrite map_map in HP. destruct HP as (HP & HA). split; [|exact HA].
  intros ps' h' Hst. destruct (HP ps' h' Hst) as (H1 & H2 & H3). split; [auto|]. split; [auto|].
  intros Hd. destruct (H3 Hd) as (H4 & H5). split.
  - intros k v Hk Hv. rewrite H4 by (now apply zrange_in). unfold val. now rewrite Hv.
  - intros a Ha. apply H5. now rewrite owned_zrange.
Qed.

Lemma par_spec_weaken : forall T (ps : list (prog T unit)) h (Q Q' : heap T -> Prop),
  (forall h', Q h' -> Q' h') -> par_spec ps h Q -> par_spec ps h Q'.
Proof.
  intros T ps h Q Q' H (HP & HA). split; auto. intros ps' h' Hst.
  destruct (HP ps' h' Hst) as (H1 & H2 & H3). repeat split; auto.
Qed.

Lemma tensor_op_spec : forall T (op : T -> T -> T) base bbase size nt (h : heap T),
  0 <= size -> 0 < nt -> buffer h base size -> buffer h bbase size ->
  (bbase = base \/ bbase + size <= base \/ base + size <= bbase) ->
  exists ps, tensor_op op base size bbase size nt = Ok ps /\
  par_spec ps h (fun h' =>
    (forall k v b, 0 <= k < size -> h (base + k) = Some v -> h (bbase + k) = Some b ->
        h' (base + k) = Some (op v b)) /\
    (forall a, ~ (base <= a < base + size) -> h' a = h a)).
Proof.
  intros T op base bbase size nt h Hs Hn Hbuf Hbb Hdis. unfold tensor_op. rewrite Z.eqb_refl. simpl.
  eexists. split; [reflexivity|].
  set (val := fun i => match h (base + i), h (bbase + i) with Some v, Some b => Some (op v b) | _, _ => None end).
  rewrite <- (map_map (chunk size nt) (fun r => pseq r (tensor_body op base bbase))).
  apply (par_spec_weaken) with (Q := fun h' => (forall x, In x (zrange size) -> h' (base + x) = val x) /\
               (forall a, ~ owned (zrange size) (fun i => base + i) a -> h' a = h a)).
  { intros h' (H4 & H5). split.
    - intros k v b Hk Hv Hb. rewrite H4 by (now apply zrange_in). unfold val. now rewrite Hv, Hb.
    - intros a Ha. apply H5. now rewrite owned_zrange. }
  apply par_cells.
  - rewrite chunks_concat by auto. apply Permutation_refl.
  - apply zrange_addr_NoDup.
  - intros x h' Hx Hag. apply zrange_in in Hx. destruct (Hbuf x Hx) as (v & Hv). destruct (Hbb x Hx) as (b & Hb).
    assert (Hc : bbase + x = base + x \/ ~ owned (zrange size) (fun i => base + i) (bbase + x)).
    { rewrite owned_zrange. destruct Hdis as [->|Hdis]; [left; auto|right; lia]. }
    assert (E1 : h' (bbase + x) = Some b) by (rewrite Hag; auto).
    assert (E2 : h' (base + x) = Some v) by (rewrite Hag; auto).
    unfold tensor_body. simpl. rewrite E1, E2. split.
    + split; [destruct Hc; auto|]. exists b. split; auto. split; auto. exists v. split; auto. split; auto. split; eauto.
    + eexists. split; [reflexivity|]. rewrite upd_same. unfold val. now rewrite Hv, Hb.
Qed.

(** ** Views *)

Lemma subscript_inb : forall d idx, inb idx (ddims d) -> subscript d idx = addr d idx.
Proof.
  intros. unfold subscript. now rewrite (proj1 (spell_wrap _ _ _ (spell_self _ _ H))).
Qed.

Lemma owned_cells : forall d a, owned (indices (ddims d)) (addr d) a <-> cell d a.
Proof. intros. unfold owned. apply in_addrs. Qed.

Lemma view_op_spec : forall T (op : T -> T -> T) d sa (h : heap T) b threads,
  inj d -> alloc h d -> h sa = Some b -> ~ cell d sa ->
  Permutation (concat threads) (indices (ddims d)) ->
  par_spec (map (fun r => pseq r (view_op_body op d sa)) threads) h (fun h' =>
    (forall idx v, inb idx (ddims d) -> h (addr d idx) = Some v -> h' (addr d idx) = Some (op v b)) /\
    (forall a, ~ cell d a -> h' a = h a)).
Proof.
  intros T op d sa h b threads Hi Ha Hsa Hc HP.
  set (val := fun idx => match h (addr d idx) with Some v => Some (op v b) | None => None end).
  apply (par_spec_weaken) with (Q := fun h' =>
     (forall x, In x (indices (ddims d)) -> h' (addr d x) = val x) /\
     (forall a, ~ owned (indices (ddims d)) (addr d) a -> h' a = h a)).
  { intros h' (H1 & H2). split.
    - intros idx v Hin Hv. rewrite H1 by (now apply in_indices). unfold val. now rewrite Hv.
    - intros a Hna. apply H2. now rewrite owned_cells. }
  apply par_cells; auto.
  - now apply addr_NoDup.
  - intros x h' Hx Hag. apply in_indices in Hx. destruct (Ha x Hx) as (v & Hv).
    assert (E1 : h' sa = Some b) by (rewrite Hag; auto; right; now rewrite owned_cells).
    assert (E2 : h' (addr d x) = Some v) by (rewrite Hag; auto).
    unfold view_op_body. rewrite subscript_inb by auto. simpl. rewrite E1, E2. split.
    + split; [right; now rewrite owned_cells|]. exists b. split; auto. split; auto. exists v. split; auto. split; auto. split; eauto.
    + eexists. split; [reflexivity|]. rewrite upd_same. unfold val. now rewrite Hv.
Qed.

Lemma view_fill_spec : forall T d sa (h : heap T) (b : T) threads,
  inj d -> alloc h d -> h sa = Some b -> ~ cell d sa ->
  Permutation (concat threads) (indices (ddims d)) ->
  par_spec (map (fun r => pseq r (view_fill_body d sa)) threads) h (fun h' =>
    (forall idx, inb idx (ddims d) -> h' (addr d idx) = Some b) /\
    (forall a, ~ cell d a -> h' a = h a)).
Proof.
  intros T d sa h b threads Hi Ha Hsa Hc HP.
  apply (par_spec_weaken) with (Q := fun h' =>
     (forall x, In x (indices (ddims d)) -> h' (addr d x) = Some b) /\
     (forall a, ~ owned (indices (ddims d)) (addr d) a -> h' a = h a)).
  { intros h' (H1 & H2). split.
    - intros idx Hin. now rewrite H1 by (now apply in_indices).
    - intros a Hna. apply H2. now rewrite owned_cells. }
  apply (par_cells _ _ _ _ _ (fun _ => Some b)); auto.
  - now apply addr_NoDup.
  - intros x h' Hx Hag. apply in_indices in Hx. destruct (Ha x Hx) as (v & Hv).
    assert (E1 : h' sa = Some b) by (rewrite Hag; auto; right; now rewrite owned_cells).
    assert (E2 : h' (addr d x) = Some v) by (rewrite Hag; auto).
    unfold view_fill_body. rewrite subscript_inb by auto. simpl. rewrite E1, E2. split.
    + split; [right; now rewrite owned_cells|]. exists b. split; auto. split; auto. split; eauto.
    + eexists. split; [reflexivity|]. now rewrite upd_same.
Qed.

(** Copy of every element; any schedule. *)
Lemma copy_task_ok : forall T dst src (h : heap T),
  ddims src = ddims dst -> alloc h dst -> alloc h src -> disj dst src ->
  task_ok (indices (ddims dst)) (addr dst) (fun idx => h (addr src idx)) (copy_body dst src) h.
Proof.
  intros T dst src h Hd Ha Hs Hdis x h' Hx Hag. apply in_indices in Hx.
  assert (Hx' : inb x (ddims src)) by congruence.
  destruct (Ha x Hx) as (v & Hv). destruct (Hs x Hx') as (w & Hw).
  assert (Hn : ~ owned (indices (ddims dst)) (addr dst) (addr src x)).
  { rewrite owned_cells. intros (j & Hj & E). apply (Hdis j x Hj Hx'). auto. }
  assert (E1 : h' (addr src x) = Some w) by (rewrite Hag; auto).
  assert (E2 : h' (addr dst x) = Some v) by (rewrite Hag; auto).
  unfold copy_body. rewrite !subscript_inb by auto. simpl. rewrite E1, E2. split.
  - split; auto. exists w. split; auto. split; auto. split; eauto.
  - eexists. split; [reflexivity|]. now rewrite upd_same.
Qed.

Lemma copy_par_spec : forall T dst src (h : heap T) threads,
  inj dst -> ddims src = ddims dst -> alloc h dst -> alloc h src -> disj dst src ->
  Permutation (concat threads) (indices (ddims dst)) ->
  par_spec (map (fun r => pseq r (copy_body dst src)) threads) h (fun h' =>
    (forall idx, inb idx (ddims dst) -> h' (addr dst idx) = h (addr src idx)) /\
    (forall a, ~ cell dst a -> h' a = h a)).
Proof.
  intros T dst src h threads Hi Hd Ha Hs Hdis HP.
  apply (par_spec_weaken) with (Q := fun h' =>
     (forall x, In x (indices (ddims dst)) -> h' (addr dst x) = h (addr src x)) /\
     (forall a, ~ owned (indices (ddims dst)) (addr dst) a -> h' a = h a)).
  { intros h' (H1 & H2). split.
    - intros idx Hin. now rewrite H1 by (now apply in_indices).
    - intros a Hna. apply H2. now rewrite owned_cells. }
  apply (par_cells _ _ _ _ _ (fun idx => h (addr src idx))); auto.
  - now apply addr_NoDup.
  - now apply copy_task_ok.
Qed.

Lemma copy_seq_spec : forall T dst src (h : heap T),
  inj dst -> ddims src = ddims dst -> alloc h dst -> alloc h src -> disj dst src ->
  exists h', run (pseq (indices (ddims dst)) (copy_body dst src)) h = Ok (tt, h') /\
    (forall idx, inb idx (ddims dst) -> h' (addr dst idx) = h (addr src idx)) /\
    (forall a, ~ cell dst a -> h' a = h a).
Proof.
  intros T dst src h Hi Hd Ha Hs Hdis.
  destruct (run_tasks_seq _ T (indices (ddims dst)) (addr dst) (fun idx => h (addr src idx))
     (copy_body dst src) h (addr_NoDup dst Hi) (copy_task_ok T dst src h Hd Ha Hs Hdis)
     (indices (ddims dst)) h (addr_NoDup dst Hi) ltac:(auto)) as (_ & h' & E & Hv & Hf); auto.
  exists h'. split; auto. split.
  - intros idx Hin. apply Hv. now apply in_indices.
  - intros a Hn. apply Hf. rewrite in_addrs. auto.
Qed.

Lemma tensor_cell : forall b dims a, Forall (fun d => 0 <= d) dims ->
  (cell (tensor_ctor b dims) a <-> b <= a < b + zprod dims).
Proof.
  intros b dims a HF. split.
  - intros (i & Hi & ->). simpl in Hi. unfold addr. simpl. assert (H := rm_range _ _ Hi). lia.
  - intros H. exists (sentinel_to_indices (a - b) (row_major_strides dims)). simpl. split.
    + apply rm_sti_inb; auto. lia.
    + unfold addr. simpl. rewrite rm_sti_ordinal by (auto; lia). lia.
Qed.

Lemma alloc_buffer_cell : forall T (zero : T) base n h a,
  base <= a < base + n -> alloc_buffer zero base n h a = Some zero.
Proof.
  intros. unfold alloc_buffer. destruct (Z.leb_spec base a); [|lia]. destruct (Z.ltb_spec a (base + n)); [|lia]. reflexivity.
Qed.
Lemma alloc_buffer_other : forall T (zero : T) base n h a,
  ~ (base <= a < base + n) -> alloc_buffer zero base n h a = h a.
Proof.
  intros. unfold alloc_buffer. destruct (Z.leb_spec base a); destruct (Z.ltb_spec a (base + n)); simpl; auto; lia.
Qed.

Lemma copy_from_view_spec : forall T (zero : T) base src (h : heap T),
  ddims src <> [] -> Forall (fun d => 0 <= d) (ddims src) -> alloc h src ->
  (forall a, base <= a < base + zprod (ddims src) -> h a = None) ->
  exists d h', copy_from_view zero base src h = Ok (d, h') /\
    d = tensor_ctor base (ddims src) /\
    (forall idx, inb idx (ddims src) -> h' (addr d idx) = h (addr src idx)) /\
    (forall a, ~ (base <= a < base + zprod (ddims src)) -> h' a = h a) /\
    disj d src.
Proof.
  intros T zero base src h Hne HF Ha Hfresh.
  unfold copy_from_view. rewrite data_size_eq by auto.
  set (d := tensor_ctor base (ddims src)). set (h0 := alloc_buffer zero base (zprod (ddims src)) h).
  assert (Hc : forall i, inb i (ddims src) -> base <= addr d i < base + zprod (ddims src)).
  { intros i Hi. apply (tensor_cell base (ddims src)); auto. exists i. auto. }
  assert (Hsrc : forall i, inb i (ddims src) -> ~ (base <= addr src i < base + zprod (ddims src))).
  { intros i Hi Hr. destruct (Ha i Hi) as (v & Hv). rewrite Hfresh in Hv by auto. discriminate. }
  assert (Hdis : disj d src).
  { intros i j Hi Hj E. apply (Hsrc j Hj). rewrite <- E. apply Hc. auto. }
  destruct (copy_seq_spec T d src h0) as (h' & E & Hv & Hf); auto.
  - apply rm_inj.
  - intros i Hi. exists zero. apply alloc_buffer_cell. apply Hc. auto.
  - intros i Hi. destruct (Ha i Hi) as (v & Hv). exists v. unfold h0. rewrite alloc_buffer_other; auto.
  - change (ddims d) with (ddims src) in E. rewrite E. simpl. exists d, h'. split; auto. split; auto. split; [|split; auto].
    + intros idx Hi. rewrite Hv by auto. unfold h0. apply alloc_buffer_other. auto.
    + intros a Hna. rewrite Hf.
      * unfold h0. now apply alloc_buffer_other.
      * unfold d. rewrite tensor_cell by auto. auto.
Qed.

Lemma set_all_spec : forall T base size (v : T) (h : heap T), buffer h base size ->
  exists h', set_all base size v h = Ok h' /\
    (forall k, 0 <= k < size -> h' (base + k) = Some v) /\
    (forall a, ~ (base <= a < base + size) -> h' a = h a).
Proof.
  intros T base size v h Hb. unfold set_all.
  destruct (forM_cells Z T (zrange size) (fun i => base + i) (fun _ => v)
     (fun i h => wr h (base + i) v) h) as (h' & E & Hv & Hf).
  - apply zrange_addr_NoDup.
  - intros x h' Hx Hag. apply zrange_in in Hx. destruct (Hb x Hx) as (w & Hw).
    eapply wr_some. rewrite Hag; eauto.
  - exists h'. split; auto. split.
    + intros k Hk. apply Hv. now apply zrange_in.
    + intros a Hn. apply Hf. fold (owned (zrange size) (fun i => base + i) a). now rewrite owned_zrange.
Qed.
