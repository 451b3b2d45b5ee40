(** * T_GpuView: theorems about GPU views of Python buffers (C110). *)
From Coq Require Import List ZArith Lia Bool.
From Verif Require Import Base Heap M_Addr L_Addr M_GpuView S_GpuView L_GpuView.
Import ListNotations.
Open Scope Z_scope.

(** ** Mapped views *)
(** Whatever the program did so far: a kernel finds under a mapped view the
    bytes of the host, and a byte it stores is the only change, seen by the
    host and by every other mapped view. *)
Theorem C110_map_coherent : forall s id v, reach s -> live s id v -> v_mode v = VMap ->
  (forall off, 0 <= off < v_alloc v -> dev_byte v off s = g_host s (v_host v + off)) /\
  (forall off x s', gstep (GKernel id off x) s = Ok s' ->
     g_host s' (v_host v + off) = Some x /\ (forall z, z <> v_host v + off -> g_host s' z = g_host s z) /\
     forall id' v' off', live s id' v' -> v_mode v' = VMap -> 0 <= off' < v_alloc v' ->
       dev_byte v' off' s' = if v_host v' + off' =? v_host v + off then Some x else dev_byte v' off' s) /\
  (forall a x s', gstep (GPoke a x) s = Ok s' ->
     forall off, 0 <= off < v_alloc v -> dev_byte v off s' = if v_host v + off =? a then Some x else dev_byte v off s).
Proof.
  intros s id v R L EM. pose proof (reach_inv s R) as I. split; [|split].
  - intros off Ho. apply (map_reg s id v off I L EM Ho).
  - intros off x s' E. cbn in E. rewrite L in E. destruct (store_cases s id v off x I L) as (_ & H & _). destruct (H s' E) as (I' & EV & ER & HM).
    rewrite EM in HM. destruct HM as (ED & EH). rewrite EH. split; [apply upd_same|]. split; [intros z Hz; apply upd_other; auto|].
    intros id' v' off' L' EM' Ho. assert (L2 : live s' id' v') by (unfold live; now rewrite EV).
    rewrite (proj2 (map_reg s' id' v' off' I' L2 EM' Ho)), (proj2 (map_reg s id' v' off' I L' EM' Ho)), EH.
    unfold upd. rewrite Z.eqb_sym. destruct (v_host v + off =? v_host v' + off'); auto.
  - intros a x s' E off Ho. pose proof (step_inv _ _ _ I E) as I'. cbn in E. destruct (wr (g_host s) a x) as [h| |] eqn:W; try discriminate.
    injection E as <-. rewrite (proj2 (map_reg _ id v off I' L EM Ho)), (proj2 (map_reg s id v off I L EM Ho)). cbn.
    unfold wr in W. destruct (g_host s a); [|discriminate]. injection W as <-. unfold upd. rewrite Z.eqb_sym. destruct (a =? v_host v + off); auto.
Qed.

(** ** Copied views *)
(** Bytes of the device copy that no operation but the two listed ones changes. *)
Theorem C110_copy_isolated : forall s o s' id v, reach s -> gstep o s = Ok s' -> live s id v -> live s' id v -> v_mode v = VCopy ->
  o <> GH2D id -> (forall off x, o <> GKernel id off x) ->
  forall off, dev_byte v off s' = dev_byte v off s.
Proof.
  intros s o s' id v R E L L' EM N1 N2 off. pose proof (reach_inv s R) as I.
  destruct (mid_blk s id v I L EM) as [(ED & _)|(k & c & ED & A & _)]; [unfold dev_byte; now rewrite ED|].
  cut (assoc k (g_dev s') = assoc k (g_dev s)). { intros HK. unfold dev_byte. rewrite ED. now rewrite HK. }
  assert (OTHER : forall id' v', id' <> id -> assoc id' (g_views s) = Some v' -> v_dev v' <> DBlk k).
  { intros id' v' Hn L2 E2. destruct (blk_sep s id' v' k id v I L2 E2 L) as (_ & _ & H). destruct (H ED). congruence. }
  destruct o as [b m|id'|id'|id'|id' o' x|a x|a n x]; cbn in E.
  - destruct (new_view b m s) as [(i1, s1)| |] eqn:EN; try discriminate. cbn in E. injection E as <-. destruct m.
    + destruct (new_copy_inv s b i1 s1 I EN) as (w & H). rewrite A. apply H, A.
    + assert (H1 : pb_strides b <> []) by (intros H; unfold new_view in EN; now rewrite H in EN).
      assert (H2 : pb_shape b <> []) by (intros H; unfold new_view in EN; rewrite H in EN; destruct (pb_strides b); discriminate).
      destruct (new_map_out s b I H1 H2) as [(i2 & s2 & w & E' & H)|(E' & _)]; [|congruence].
      rewrite EN in E'. injection E' as <- <-. rewrite A. apply H, A.
  - destruct (assoc id' (g_views s)) as [v'|] eqn:L2; [|discriminate]. destruct (del_ok s id' v' I L2) as (s1 & E1 & _ & _ & EV & K).
    rewrite E in E1. injection E1 as <-. apply K. intros Hin.
    destruct (owned_unique (g_views s) id v id' v' k (i_own s I) (i_views s I) (assoc_in _ _ _ L) (assoc_in _ _ _ L2)) as (EI & _); auto.
    + unfold owned, dblk. cbn. rewrite ED. left; auto.
    + subst id'. unfold live in L'. rewrite EV, assoc_without, Nat.eqb_refl in L'. discriminate.
  - destruct (assoc id' (g_views s)) as [v'|] eqn:L2; [|discriminate]. destruct (v_mode v') eqn:EM2.
    + destruct (h2d_cases s id' v' I L2 EM2) as (_ & H & _). apply (H s' E). apply (OTHER id' v'); congruence.
    + unfold view_h2d in E. rewrite EM2 in E. congruence.
  - destruct (assoc id' (g_views s)) as [v'|] eqn:L2; [|discriminate]. destruct (v_mode v') eqn:EM2.
    + destruct (d2h_cases s id' v' I L2 EM2) as (_ & H & _). destruct (H s' E) as (_ & -> & _). auto.
    + unfold view_d2h in E. rewrite EM2 in E. congruence.
  - destruct (assoc id' (g_views s)) as [v'|] eqn:L2; [|discriminate]. destruct (store_cases s id' v' o' x I L2) as (_ & H & _).
    destruct (H s' E) as (_ & _ & _ & HM). destruct (v_mode v').
    + apply HM. apply (OTHER id' v'); auto. intros ->. now apply (N2 o' x).
    + destruct HM as (-> & _). auto.
  - destruct (wr (g_host s) a x) as [h| |]; try discriminate. injection E as <-. auto.
  - injection E as <-. auto.
Qed.
(** [update_H2D] makes the copy equal to the host's bytes and leaves the host
    alone; [update_D2H] is the other way round; a new view starts as a copy; a
    kernel changes one byte of the copy and nothing on the host. *)
Theorem C110_copy_updates : forall s id v, reach s -> live s id v -> v_mode v = VCopy ->
  (forall s', gstep (GH2D id) s = Ok s' -> g_host s' = g_host s /\ forall i, 0 <= i < v_alloc v -> dev_byte v i s' = g_host s (v_host v + i)) /\
  (forall s', gstep (GD2H id) s = Ok s' ->
     (forall i, 0 <= i < v_alloc v -> g_host s' (v_host v + i) = dev_byte v i s) /\
     (forall z, ~ v_host v <= z < v_host v + v_alloc v -> g_host s' z = g_host s z)) /\
  (forall off x s', gstep (GKernel id off x) s = Ok s' -> g_host s' = g_host s /\ 0 <= off < v_alloc v /\
     dev_byte v off s' = Some x /\ forall i, i <> off -> dev_byte v i s' = dev_byte v i s).
Proof.
  intros s id v R L EM. pose proof (reach_inv s R) as I. split; [|split].
  - intros s' E. cbn in E. rewrite L in E. destruct (h2d_cases s id v I L EM) as (_ & H & _). destruct (H s' E) as (_ & EH & _ & _ & HB & _). auto.
  - intros s' E. cbn in E. rewrite L in E. destruct (d2h_cases s id v I L EM) as (_ & H & _). destruct (H s' E) as (_ & _ & _ & _ & HB). split.
    + intros i Hi. rewrite HB. replace (v_host v + i - v_host v) with i by lia. replace (_ && _) with true; auto. symmetry. apply andb_true_iff. lia.
    + intros z Hz. rewrite HB. replace (_ && _) with false; auto. symmetry. apply andb_false_iff. lia.
  - intros off x s' E. cbn in E. rewrite L in E. destruct (store_cases s id v off x I L) as (_ & H & _). destruct (H s' E) as (_ & _ & _ & HM).
    rewrite EM in HM. destruct HM as (H1 & H2 & H3 & H4 & _). auto.
Qed.
Theorem C110_copy_starts : forall s b s', reach s -> gstep (GNew b VCopy) s = Ok s' ->
  exists id v, (forall w, ~ live s id w) /\ live s' id v /\ v_mode v = VCopy /\ v_host v = pb_ptr b /\
    v_dims v = pb_shape b /\ v_strides v = pb_strides b /\
    v_alloc v = nth 0 (pb_strides b) 0 * nth 0 (pb_shape b) 0 /\ g_host s' = g_host s /\
    forall i, 0 <= i < v_alloc v -> dev_byte v i s' = g_host s (v_host v + i).
Proof.
  intros s b s' R E. pose proof (reach_inv s R) as I. cbn in E. destruct (new_view b VCopy s) as [(id, s1)| |] eqn:EN; try discriminate. cbn in E. injection E as <-.
  destruct (new_copy_inv s b id s1 I EN) as (v & I' & EH & _ & EV & Eid & V1 & V2 & V3 & V4 & V5 & V6 & _). exists id, v. 
  assert (FV : assoc id (g_views s) = None). { apply assoc_none. intros Hin. apply (i_vnext s I) in Hin. lia. }
  split; [intros w Hw; unfold live in Hw; congruence|]. split; [unfold live; rewrite EV, assoc_app, FV; cbn; now rewrite Nat.eqb_refl|]. auto 10.
Qed.

(** ** Which views can be mapped *)
(** Mapping succeeds exactly if the array lies inside a range that is already
    registered, or is not empty and meets none. *)
Theorem C110_map_accepted : forall s b, reach s -> pb_strides b <> [] -> pb_shape b <> [] ->
  let n := nth 0 (pb_strides b) 0 * nth 0 (pb_shape b) 0 in
  let inside r := fst r <= pb_ptr b < fst r + snd r /\ pb_ptr b + n <= fst r + snd r in
  let apart r := pb_ptr b + n <= fst r \/ fst r + snd r <= pb_ptr b in
  ((exists s', gstep (GNew b VMap) s = Ok s') <->
   0 <= n /\ ((exists r, In r (g_reg s) /\ inside r) \/ (0 < n /\ forall r, In r (g_reg s) -> apart r))) /\
  gstep (GNew b VMap) s <> UB.
Proof.
  intros s b R H1 H2. pose proof (reach_inv s R) as I. cbn zeta. cbn [gstep].
  destruct (new_map_out s b I H1 H2) as [(id & s' & v & E & _ & _ & _ & _ & _ & _ & _ & _ & _ & Hn & HR & _)|(E & HA & HB)]; rewrite E; cbn [bind snd].
  - split; [|discriminate]. split; [|eauto]. intros _. split; auto. destruct HR as [HR|(Hp & HR)]; auto. right. split; auto.
    intros r Hr. specialize (HR r Hr). unfold meets in HR. apply andb_false_iff in HR as [HR|HR]; apply Z.ltb_ge in HR; lia.
  - split; [|discriminate]. split; [intros (s' & F); discriminate|]. intros (Hn & [(r & Hr & HI)|(Hp & HR)]).
    + destruct (HB Hn r Hr HI).
    + destruct HA as [HA|(r & Hr & HM)]; [lia|]. unfold meets in HM. apply andb_true_iff in HM as (M1 & M2). apply Z.ltb_lt in M1, M2. specialize (HR r Hr). lia.
Qed.
(** The view it makes. *)
Theorem C110_map_starts : forall s b s', reach s -> gstep (GNew b VMap) s = Ok s' ->
  exists id v, (forall w, ~ live s id w) /\ live s' id v /\ v_mode v = VMap /\ v_host v = pb_ptr b /\
    v_dims v = pb_shape b /\ v_strides v = pb_strides b /\
    v_alloc v = nth 0 (pb_strides b) 0 * nth 0 (pb_shape b) 0 /\ g_host s' = g_host s.
Proof.
  intros s b s' R E. pose proof (reach_inv s R) as I. cbn in E. destruct (new_view b VMap s) as [(id, s1)| |] eqn:EN; try discriminate. cbn in E. injection E as <-.
  assert (H1 : pb_strides b <> []) by (intros H; unfold new_view in EN; now rewrite H in EN).
  assert (H2 : pb_shape b <> []) by (intros H; unfold new_view in EN; rewrite H in EN; destruct (pb_strides b); discriminate).
  destruct (new_map_out s b I H1 H2) as [(id' & s'' & v & E' & I' & EH & EV & Eid & V1 & V2 & V3 & V4 & V5 & _)|(E' & _)]; [|congruence].
  rewrite EN in E'. injection E' as <- <-. exists id, v.
  assert (FV : assoc id (g_views s) = None). { apply assoc_none. intros Hin. apply (i_vnext s I) in Hin. lia. }
  split; [intros w Hw; unfold live in Hw; congruence|]. split; [unfold live; rewrite EV, assoc_app, FV; cbn; now rewrite Nat.eqb_refl|]. auto 10.
Qed.

(** ** Nothing is left behind *)
(** Registered ranges are disjoint, each holds a live mapped view; each live
    mapped view is in one; without views nothing is registered or allocated. *)
Theorem C110_released : forall s, reach s ->
  (forall r, In r (g_reg s) -> exists id v, live s id v /\ v_mode v = VMap /\ fst r <= v_host v /\ v_host v + v_alloc v <= fst r + snd r) /\
  (forall id v, live s id v -> v_mode v = VMap -> exists r, In r (g_reg s) /\ fst r <= v_host v /\ v_host v + v_alloc v <= fst r + snd r) /\
  ForallOrdPairs (fun r r' => fst r + snd r <= fst r' \/ fst r' + snd r' <= fst r) (g_reg s) /\
  (g_views s = [] -> g_reg s = [] /\ g_dev s = []).
Proof.
  intros s R. pose proof (reach_inv s R) as I.
  assert (A : forall r, In r (g_reg s) -> exists id v, live s id v /\ v_mode v = VMap /\ fst r <= v_host v /\ v_host v + v_alloc v <= fst r + snd r).
  { intros r Hr. rewrite (i_reg s I) in Hr. apply in_map_iff in Hr as (m & <- & Hm). destruct (i_obs s I m Hm) as (O1 & O2).
    destruct (m_obs m) as [|o os]; [congruence|]. destruct (O2 o (or_introl eq_refl)) as (v & V1 & V2 & V3). exists o, v. unfold covers in V3. cbn. repeat split; auto; lia. }
  split; auto. split; [|split].
  - intros id v L EM. destruct (i_ok s I id v L) as (_ & _ & _ & H). rewrite EM in H. destruct H as (_ & m & M1 & _ & M3). exists (rng m).
    split; [rewrite (i_reg s I); now apply in_map|]. unfold covers in M3. cbn. lia.
  - rewrite (i_reg s I). destruct (i_apart s I) as (_ & HP). clear - HP. induction HP as [|m ms H1 H2 IH]; cbn; constructor; auto.
    apply Forall_forall. intros r Hr. apply in_map_iff in Hr as (m' & <- & Hm). rewrite Forall_forall in H1. cbn. auto.
  - intros EV. split.
    + destruct (g_reg s) as [|r rs] eqn:ER; auto. destruct (A r (or_introl eq_refl)) as (id & v & L & _). unfold live in L. rewrite EV in L. discriminate.
    + destruct (g_dev s) as [|(k, x) ds] eqn:ED; auto. exfalso. destruct (i_dev s I k) as (H & _). rewrite ED, EV in H. cbn in H. auto.
Qed.
(** Dropping a view never fails and touches no host memory. *)
Theorem C110_drop : forall s id v, reach s -> live s id v ->
  exists s', gstep (GDel id) s = Ok s' /\ g_host s' = g_host s /\ (forall w, ~ live s' id w) /\
    (forall id' w, id' <> id -> (live s' id' w <-> live s id' w)).
Proof.
  intros s id v R L. pose proof (reach_inv s R) as I. destruct (del_ok s id v I L) as (s' & E & _ & EH & EV & _). exists s'. cbn [gstep]. rewrite L.
  split; auto. split; auto. unfold live. rewrite EV. split.
  - intros w. rewrite assoc_without, Nat.eqb_refl. discriminate.
  - intros id' w Hn. rewrite assoc_without, (proj2 (Nat.eqb_neq id' id)) by auto. tauto.
Qed.

(** ** Nothing undefined happens *)
Theorem C110_safe_partial : forall s o, reach s -> proper o s -> gstep o s <> UB.
Proof.
  intros s o R P. pose proof (reach_inv s R) as I. destruct o as [b m|id|id|id|id off x|a x|a n x]; cbn in P |- *.
  - destruct P as (P1 & P2 & P3). destruct m.
    + clear R I. unfold new_view. destruct (pb_strides b) as [|st0 sts]; [congruence|]. destruct (pb_shape b) as [|sh0 shs]; [congruence|]. cbn [nth] in P3.
      destruct (st0 * sh0 <? 0); [discriminate|]. destruct (st0 * sh0 =? 0); [discriminate|].
      destruct (host_bytes_ok _ _ _ (P3 eq_refl)) as (c & -> & _). discriminate.
    + apply (C110_map_accepted s b R); auto.
  - destruct (assoc id (g_views s)) as [v|] eqn:L; [|discriminate]. destruct (del_ok s id v I L) as (s' & -> & _). discriminate.
  - destruct (assoc id (g_views s)) as [v|] eqn:L; [|discriminate]. destruct (v_mode v) eqn:EM.
    + destruct (h2d_cases s id v I L EM) as (H & _). destruct (H (P v L EM)) as (s' & ->). discriminate.
    + unfold view_h2d. rewrite EM. discriminate.
  - destruct (assoc id (g_views s)) as [v|] eqn:L; [|discriminate]. destruct (v_mode v) eqn:EM.
    + destruct (d2h_cases s id v I L EM) as (H & _). destruct (H (P v L EM)) as (s' & ->). discriminate.
    + unfold view_d2h. rewrite EM. discriminate.
  - destruct (assoc id (g_views s)) as [v|] eqn:L; [|discriminate]. destruct (P v L) as (P1 & P2).
    destruct (store_cases s id v off x I L) as (H & _). destruct (H P1 P2) as (s' & ->). discriminate.
  - unfold wr. destruct (g_host s a); [discriminate|congruence].
  - discriminate.
Qed.

(** ** The bytes of the elements *)
Lemma dotp_scale : forall idx st c, dotp idx (map (Z.mul c) st) = c * dotp idx st.
Proof. induction idx as [|i idx IH]; intros [|s st] c; cbn; try lia. rewrite IH. lia. Qed.
(** The bytes of every element of a C-ordered array are within the view. *)
Theorem C110_elements_partial : forall shape item idx i, shape <> [] -> 0 < item -> inb idx shape -> 0 <= i < item ->
  0 <= dotp idx (map (Z.mul item) (row_major_strides shape)) + i < nth 0 (map (Z.mul item) (row_major_strides shape)) 0 * nth 0 shape 0.
Proof.
  intros shape item idx i Hs Hi HI Hb. rewrite dotp_scale. pose proof (rm_range shape idx HI) as HR.
  destruct shape as [|d ds]; [congruence|]. rewrite rms_cons. cbn [map nth]. cbn [zprod] in HR. rewrite rms_cons in HR. nia.
Qed.

(** ** What is false *)
(** Gives the computed value of [t] as witness. *)
Ltac wit t := let r := eval vm_compute in t in match r with Ok ?s => exists s | Some ?s => exists s end.
Ltac now_vm := vm_compute; reflexivity.
Definition bytes8 : heap Z := fun z => if (100 <=? z) && (z <? 200) then Some (z - 100) else None.
Definition arr (p n : Z) : pybuf := mkBuf p 8 [n] [8].
(** A second array that overlaps the first one, but is not inside it, is not
    accepted; made in the other order both are. *)
Theorem C110_overlap_refuted : exists s s',
  grun [GNew (arr 100 2) VMap] (g_init bytes8) = Ok s /\ gstep (GNew (arr 100 4) VMap) s = Throw /\
  grun [GNew (arr 100 4) VMap; GNew (arr 100 2) VMap] (g_init bytes8) = Ok s' /\ length (g_views s') = 2%nat /\ length (g_views s) = 1%nat.
Proof.
  wit (grun [GNew (arr 100 2) VMap] (g_init bytes8)). wit (grun [GNew (arr 100 4) VMap; GNew (arr 100 2) VMap] (g_init bytes8)).
  split; [now_vm|]. split; [now_vm|]. split; [now_vm|]. split; now_vm.
Qed.
(** A zero-dimensional array: the first stride of none is read. *)
Theorem C110_rank0_refuted : forall p item m s, gstep (GNew (mkBuf p item [] []) m) s = UB.
Proof. reflexivity. Qed.
(** A transposed array of 2 x 3 doubles: the element (0,2) begins after the end
    of the copy. *)
Theorem C110_transposed_refuted : exists s v,
  grun [GNew (mkBuf 100 8 [2; 3] [8; 16]) VCopy] (g_init bytes8) = Ok s /\ live s 0%nat v /\
  inb [0; 2] (v_dims v) /\ dev_byte v (dotp [0; 2] (v_strides v)) s = None /\ bytes8 (100 + dotp [0; 2] [8; 16]) <> None.
Proof.
  wit (grun [GNew (mkBuf 100 8 [2; 3] [8; 16]) VCopy] (g_init bytes8)).
  match goal with |- exists v, grun _ _ = Ok ?s /\ _ => wit (assoc 0 (g_views s)) end.
  split; [now_vm|]. split; [now_vm|]. split.
  - repeat constructor; lia.
  - split; [now_vm|vm_compute; discriminate].
Qed.
(** Every second double of an array: bringing the copy back overwrites what
    Python wrote to the elements between, which are not part of the view. *)
Theorem C110_between_refuted : exists s s' v,
  grun [GNew (mkBuf 100 8 [2] [16]) VCopy; GPoke 108 77] (g_init bytes8) = Ok s /\ live s 0%nat v /\
  (forall idx i, inb idx (v_dims v) -> 0 <= i < 8 -> v_host v + dotp idx (v_strides v) + i <> 108) /\
  g_host s 108 = Some 77 /\ gstep (GD2H 0) s = Ok s' /\ g_host s' 108 = Some 8.
Proof.
  wit (grun [GNew (mkBuf 100 8 [2] [16]) VCopy; GPoke 108 77] (g_init bytes8)).
  match goal with |- exists s' v, grun _ _ = Ok ?s /\ _ => wit (gstep (GD2H 0) s); wit (assoc 0 (g_views s)) end.
  split; [now_vm|]. split; [now_vm|]. split.
  - intros idx i HI Hi. cbn in HI. inversion HI as [|k d ks ds Hk HI']; subst. inversion HI'; subst. cbn. lia.
  - split; [now_vm|]. split; now_vm.
Qed.
(** The view does not keep the array alive. *)
Theorem C110_freed_refuted : exists s,
  grun [GNew (arr 100 2) VCopy; GMem 100 16 None] (g_init bytes8) = Ok s /\ gstep (GH2D 0) s = UB.
Proof. wit (grun [GNew (arr 100 2) VCopy; GMem 100 16 None] (g_init bytes8)). split; now_vm. Qed.
(** Views of device tensors: the strides are right for 8-byte elements only. *)
Theorem C110_device_tensor_partial : forall strides, dt_gpu_strides 8 strides = Ok (map (fun s => Some (s * 8)) strides).
Proof.
  intros strides. unfold dt_gpu_strides. rewrite Z.ltb_irrefl. f_equal. unfold zrange. rewrite Nat2Z.id, map_map.
  apply nth_ext with (d := None) (d' := Some (0 * 8)).
  - now rewrite !map_length, seq_length.
  - intros n Hn. rewrite map_length, seq_length in Hn.
    rewrite (nth_indep _ None (Some (0 * 8))) by (rewrite map_length, seq_length; lia).
    rewrite (map_nth (fun s => Some (s * 8))).
    transitivity ((fun x => if 8 * (Z.of_nat x + 1) <=? 8 * Z.of_nat (length strides) then Some (nth (Z.to_nat (Z.of_nat x)) strides 0 * 8) else None) n).
    + rewrite nth_indep with (d' := (fun x => if 8 * (Z.of_nat x + 1) <=? 8 * Z.of_nat (length strides) then Some (nth (Z.to_nat (Z.of_nat x)) strides 0 * 8) else None) 0%nat) by (rewrite map_length, seq_length; lia).
      rewrite (map_nth (fun x => if 8 * (Z.of_nat x + 1) <=? 8 * Z.of_nat (length strides) then Some (nth (Z.to_nat (Z.of_nat x)) strides 0 * 8) else None)). rewrite seq_nth by lia. reflexivity.
    + cbv beta. rewrite Nat2Z.id. destruct (Z.leb_spec (8 * (Z.of_nat n + 1)) (8 * Z.of_nat (length strides))); auto. lia.
Qed.
Theorem C110_device_tensor_refuted :
  dt_gpu_strides 4 [3; 1] = Ok [Some 12; None] /\ forall strides, strides <> [] -> dt_gpu_strides 16 strides = UB.
Proof.
  split; [reflexivity|]. intros strides H. unfold dt_gpu_strides. destruct (Z.ltb_spec (8 * Z.of_nat (length strides)) (16 * Z.of_nat (length strides))); auto.
  destruct strides; [congruence|cbn [length] in *; lia].
Qed.

(** ** A case *)
(** A mapped array, a mapped part of it and a copy of it; a kernel stores
    through the part; everything is dropped. *)
Definition prog : list gop :=
  [GNew (mkBuf 100 8 [2; 3] [24; 8]) VMap; GNew (arr 124 3) VMap; GNew (arr 100 6) VCopy; GKernel 3 5 99].
Example C110_case : exists s v0 v1 v2,
  grun prog (g_init bytes8) = Ok s /\ live s 0%nat v0 /\ live s 3%nat v1 /\ live s 6%nat v2 /\
  dev_byte v0 29 s = Some 99 /\ dev_byte v1 5 s = Some 99 /\ g_host s 129 = Some 99 /\ dev_byte v2 29 s = Some 29 /\ g_reg s = [(100, 48)] /\
  exists s', grun (prog ++ [GDel 0; GH2D 6; GD2H 6; GDel 6; GDel 3]) (g_init bytes8) = Ok s' /\ g_views s' = [] /\ g_dev s' = [] /\ g_reg s' = [].
Proof.
  wit (grun prog (g_init bytes8)).
  match goal with |- exists v0 v1 v2, grun _ _ = Ok ?s /\ _ => wit (assoc 0 (g_views s)); wit (assoc 3 (g_views s)); wit (assoc 6 (g_views s)) end.
  split; [now_vm|]. split; [now_vm|]. split; [now_vm|]. split; [now_vm|].
  split; [now_vm|]. split; [now_vm|]. split; [now_vm|]. split; [now_vm|]. split; [now_vm|].
  wit (grun (prog ++ [GDel 0; GH2D 6; GD2H 6; GDel 6; GDel 3]) (g_init bytes8)).
  split; [now_vm|]. split; [now_vm|]. split; now_vm.
Qed.
Example C110_elements_case : inb [1; 2] [2; 3] /\ dotp [1; 2] (map (Z.mul 8) (row_major_strides [2; 3])) = 40.
Proof. split; [repeat constructor; lia|reflexivity]. Qed.

Print Assumptions C110_map_coherent.
Print Assumptions C110_copy_isolated.
Print Assumptions C110_copy_updates.
Print Assumptions C110_copy_starts.
Print Assumptions C110_map_accepted.
Print Assumptions C110_map_starts.
Print Assumptions C110_released.
Print Assumptions C110_drop.
Print Assumptions C110_safe_partial.
Print Assumptions C110_elements_partial.
Print Assumptions C110_overlap_refuted.
Print Assumptions C110_rank0_refuted.
Print Assumptions C110_transposed_refuted.
Print Assumptions C110_between_refuted.
Print Assumptions C110_freed_refuted.
Print Assumptions C110_device_tensor_partial.
Print Assumptions C110_device_tensor_refuted.
