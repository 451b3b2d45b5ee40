(** * T_PyBuf: Python buffers, assignments to subscripts and in-place arithmetic
    (C80, C81, C82). *)
From Coq Require Import String Ascii List ZArith Lia Bool Permutation.
From Verif Require Import Base Heap Conc M_Addr S_Addr L_Addr M_Elt L_Elt S_Einsum S_Fun M_Runtime S_Runtime T_Runtime
  M_PyTensor S_PyTensor T_PyIndex.
Import ListNotations.
Open Scope string_scope.
Open Scope Z_scope.

(** ** Bytes and elements *)
Lemma dotp_scale : forall n idx s, dotp idx (List.map (Z.mul n) s) = n * dotp idx s.
Proof. induction idx as [|x idx IH]; intros [|y s]; simpl; try lia. rewrite IH. lia. Qed.
Lemma addr_bytes : forall n d idx, addr (in_bytes n d) idx = n * addr d idx.
Proof. intros. unfold addr, in_bytes. simpl. rewrite dotp_scale. lia. Qed.
Lemma inj_bytes : forall n d, 0 < n -> inj d -> inj (in_bytes n d).
Proof. intros n d Hn H i j Hi Hj. rewrite !addr_bytes. intros E. apply H; auto. nia. Qed.

Lemma item_size_pos : forall i, 0 < item_size i.
Proof. destruct i; simpl; lia. Qed.
Lemma native_size : forall f n i, native f n i -> n = item_size i.
Proof. intros f n i H. inversion H; subst; reflexivity. Qed.
(** The element types of tensors. *)
Definition elem_type (te : item) : Prop := te = F32 \/ te = F64 \/ te = C64 \/ te = C128.
Lemma te_native : forall te, elem_type te -> native (te_fmt te) (tsz te) te.
Proof. intros te [-> | [-> | [-> | ->]]]; constructor. Qed.
Lemma fmt_item_native : forall f n i, native f n i -> fmt_item f n = Some i.
Proof. intros f n i H. inversion H; subst; reflexivity. Qed.
Lemma native_fun : forall f n i j, native f n i -> native f n j -> i = j.
Proof. intros f n i j H1 H2. apply fmt_item_native in H1. apply fmt_item_native in H2. congruence. Qed.
Lemma same_type_item : forall te b i, elem_type te -> native (b_fmt b) (b_isz b) i -> same_type te b = true -> i = te.
Proof.
  intros te b i He Hn H. unfold same_type in H. apply andb_prop in H as (H1 & H2). apply String.eqb_eq in H1. apply Z.eqb_eq in H2.
  rewrite H1, H2 in Hn. eapply native_fun; eauto using te_native.
Qed.

Lemma steps_bytes : forall b, 0 < b_isz b -> whole_steps b -> List.map (Z.mul (b_isz b)) (b_steps b) = b_strides b.
Proof.
  intros b Hb HW. unfold b_steps. rewrite map_map. unfold whole_steps in HW.
  induction HW as [|s l Hs HW IH]; auto. simpl. f_equal; auto. destruct Hs as (q & ->). rewrite Z.quot_mul by lia. lia.
Qed.
Lemma steps_length : forall b, List.length (b_steps b) = List.length (b_strides b).
Proof. intros. unfold b_steps. now rewrite map_length. Qed.
Lemma dotp_steps : forall b idx, 0 < b_isz b -> whole_steps b -> b_isz b * dotp idx (b_steps b) = dotp idx (b_strides b).
Proof. intros b idx Hb HW. rewrite <- dotp_scale, steps_bytes; auto. Qed.

Section Loops.
  Context {T : Type}.
  Variable te : item.
  Variable conv : item -> T -> T.

  Lemma buf_body_ok : forall op (c : T -> T) (D S : desc) f old h, holds h D old -> holds h S f -> ddims S = ddims D -> disj D S ->
    forall idx h', inb idx (ddims D) -> (forall a, a = addr D idx \/ ~ cell D a -> h' a = h a) ->
      psafe (fun a => a = addr D idx) (fun a => ~ cell D a) (buf_body op c (addr D idx, addr S idx)) h' /\
      exists h'', run (buf_body op c (addr D idx, addr S idx)) h' = Ok (tt, h'') /\
        h'' (addr D idx) = Some (match op with None => c (f idx) | Some g => g (old idx) (c (f idx)) end).
  Proof.
    intros op c D S f old h HD HS HE Hdis idx h' Hi Hsame. unfold buf_body. cbn [fst snd].
    assert (N : ~ cell D (addr S idx)).
    { intros (j & Hj & E). apply (Hdis j idx Hj); [now rewrite HE|auto]. }
    assert (R : h' (addr S idx) = Some (f idx)).
    { rewrite Hsame by auto. apply HS. now rewrite HE. }
    assert (W : h' (addr D idx) = Some (old idx)) by (rewrite Hsame by auto; auto).
    destruct op as [g|]; split.
    - cbn [psafe]. split; auto. exists (f idx). split; auto. split; auto. exists (old idx). split; auto. split; auto. split; eauto.
    - eexists. cbn [run]. rewrite R. cbn [run]. rewrite W. cbn [run]. split; [reflexivity|]. apply upd_same.
    - cbn [psafe]. split; [auto|]. exists (f idx). split; auto. split; [auto|]. split; [eauto|exact I].
    - eexists. cbn [run]. rewrite R. cbn [run]. rewrite W. split; [reflexivity|]. apply upd_same.
  Qed.

  (** Address arithmetic of the loops. *)
  Lemma pt_addr_ok : forall base b isz s, 0 < b_isz b -> isz = b_isz b -> Forall (fun d => 0 <= d) (b_shape b) ->
    List.length (b_strides b) = List.length (b_shape b) -> whole_steps b -> 0 <= s < zprod (b_shape b) ->
    pt_addr te (rt_ctor base (b_shape b)) b isz s =
      Ok (addr (in_bytes (tsz te) (tensor_ctor base (b_shape b))) (at_sentinel (b_shape b) s), addr (buf_desc b) (at_sentinel (b_shape b) s)).
  Proof.
    intros base b isz s Hb -> HF HL HW Hs. unfold pt_addr. rewrite rt_ctor_desc. cbn [tensor_ctor dstrides dbase].
    assert (EA : tsz te * (base + s) = addr (in_bytes (tsz te) (tensor_ctor base (b_shape b))) (at_sentinel (b_shape b) s)).
    { rewrite addr_bytes. f_equal. symmetry. now apply tensor_addr_sentinel. }
    rewrite <- EA. unfold is_view. destruct (list_eq_dec Z.eq_dec _ _) as [Eq|Nq]; cbn [dstrides] in *.
    - f_equal. f_equal. unfold addr, buf_desc. cbn [dbase dstrides]. rewrite <- dotp_steps; auto. f_equal. f_equal.
      cbn [tensor_ctor dstrides] in Eq. rewrite <- Eq.
      assert (Ht := tensor_addr_sentinel 0 (b_shape b) s HF Hs). unfold addr in Ht. cbn [tensor_ctor dbase dstrides] in Ht. lia.
    - rewrite ord_loop_at by (auto; now rewrite steps_length). cbn [bind]. f_equal. f_equal.
      unfold addr, buf_desc. cbn [dbase dstrides]. rewrite <- dotp_steps by auto. f_equal.
  Qed.

  Lemma pt_loop_spec : forall op base b i parts (h : heap T) f old,
    elem_type te -> (forall x, conv te x = x) -> buf_ok b i -> whole_steps b ->
    let D := in_bytes (tsz te) (tensor_ctor base (b_shape b)) in
    holds h (buf_desc b) f -> holds h D old -> disj D (buf_desc b) ->
    Permutation (concat parts) (zrange (zprod (b_shape b))) ->
    exists ps, pt_loop te conv op (rt_ctor base (b_shape b)) b parts = Ok ps /\
      par_spec ps h (fun h' => holds h' D (into conv op old i f) /\ (forall a, ~ cell D a -> h' a = h a)).
  Proof.
    intros op base b i parts h f old He Hc (Hn & HF & HL) HW D Hf Ho Hdis HP.
    assert (Hz := native_size _ _ _ Hn). assert (Hp := item_size_pos i). assert (Hpt := item_size_pos te). fold (tsz te) in Hpt.
    assert (ID : inj D) by (apply inj_bytes; auto; apply rm_inj).
    assert (G : forall isz c pts, isz = b_isz b -> (forall x, c x = conv i x) -> Permutation (concat pts) (zrange (zprod (b_shape b))) ->
      exists ps, loop_pool (pt_addr te (rt_ctor base (b_shape b)) b isz) (buf_body op c) pts = Ok ps /\
        par_spec ps h (fun h' => holds h' D (into conv op old i f) /\ (forall a, ~ cell D a -> h' a = h a))).
    { intros isz c pts Ei Ec HP'. destruct (sentinel_loop T D (buf_desc b) (pt_addr te (rt_ctor base (b_shape b)) b isz) (buf_body op c)
        (into conv op old i f) pts h) as (ps & Ep & Sp); auto.
      - intros s Hs. apply pt_addr_ok; auto. lia.
      - intros idx h' Hi Hsame. destruct (buf_body_ok op c D (buf_desc b) f old h Ho Hf eq_refl Hdis idx h' Hi Hsame) as (P1 & h'' & P2 & P3).
        split; auto. exists h''. split; auto. rewrite P3. unfold into. rewrite Ec. reflexivity.
      - exists ps. auto. }
    unfold pt_loop. destruct (same_type te b) eqn:Es.
    - assert (i = te) by (eapply same_type_item; eauto). subst i. rewrite rt_ctor_len.
      apply G; [now rewrite Hz|intros; now rewrite Hc|]. destruct (is_view _ b); auto. destruct op; auto. simpl. rewrite app_nil_r. apply Permutation_refl.
    - rewrite (fmt_item_native _ _ _ Hn). apply G; auto.
  Qed.

  Lemma pv_addr_ok : forall v b isz s, rs_ok (RV v) -> ddims (rv_desc v) = b_shape b -> 0 < b_isz b -> isz = b_isz b ->
    List.length (b_strides b) = List.length (b_shape b) -> whole_steps b -> 0 <= s < zprod (b_shape b) ->
    pv_addr te v b isz s =
      Ok (addr (in_bytes (tsz te) (rv_desc v)) (at_sentinel (b_shape b) s), addr (buf_desc b) (at_sentinel (b_shape b) s)).
  Proof.
    intros v b isz s HV HD Hb -> HL HW Hs. unfold pv_addr. rewrite rv_ord_at by (auto; now rewrite HD). cbn [bind].
    assert (HI : rv_istr v = row_major_strides (b_shape b)) by (rewrite <- HD; apply HV). rewrite HI.
    assert (HF : Forall (fun d => 0 <= d) (b_shape b)) by (rewrite <- HD; apply extent_nonneg; apply HV).
    rewrite ord_loop_at by (auto; now rewrite steps_length). cbn [bind]. rewrite addr_bytes, HD. f_equal. f_equal.
    unfold addr, buf_desc. cbn [dbase dstrides]. rewrite <- dotp_steps by auto. f_equal.
  Qed.

  Lemma pv_loop_spec : forall op v b i parts (h : heap T) f old,
    elem_type te -> (forall x, conv te x = x) -> rs_ok (RV v) -> inj (rv_desc v) -> ddims (rv_desc v) = b_shape b -> buf_ok b i -> whole_steps b ->
    let D := in_bytes (tsz te) (rv_desc v) in
    holds h (buf_desc b) f -> holds h D old -> disj D (buf_desc b) ->
    Permutation (concat parts) (zrange (zprod (b_shape b))) ->
    exists ps, pv_loop te conv op v b parts = Ok ps /\
      par_spec ps h (fun h' => holds h' D (into conv op old i f) /\ (forall a, ~ cell D a -> h' a = h a)).
  Proof.
    intros op v b i parts h f old He Hc HV HI HD (Hn & HF & HL) HW D Hf Ho Hdis HP.
    assert (Hz := native_size _ _ _ Hn). assert (Hp := item_size_pos i). assert (Hpt := item_size_pos te). fold (tsz te) in Hpt.
    assert (ID : inj D) by (apply inj_bytes; auto).
    assert (G : forall isz c, isz = b_isz b -> (forall x, c x = conv i x) ->
      exists ps, loop_pool (pv_addr te v b isz) (buf_body op c) parts = Ok ps /\
        par_spec ps h (fun h' => holds h' D (into conv op old i f) /\ (forall a, ~ cell D a -> h' a = h a))).
    { intros isz c Ei Ec. destruct (sentinel_loop T D (buf_desc b) (pv_addr te v b isz) (buf_body op c)
        (into conv op old i f) parts h) as (ps & Ep & Sp); auto; cbn [D in_bytes ddims]; try rewrite HD; auto.
      - intros s Hs. apply pv_addr_ok; auto. lia.
      - intros idx h' Hi Hsame. destruct (buf_body_ok op c D (buf_desc b) f old h Ho Hf) with (idx := idx) (h' := h') as (P1 & h'' & P2 & P3); auto.
        { unfold D. cbn [in_bytes ddims]. now rewrite HD. }
        split; auto. exists h''. split; auto. rewrite P3. unfold into. rewrite Ec. reflexivity.
      - exists ps. auto. }
    unfold pv_loop. destruct (same_type te b) eqn:Es.
    - assert (i = te) by (eapply same_type_item; eauto). subst i. apply G; [now rewrite Hz|intros; now rewrite Hc].
    - rewrite (fmt_item_native _ _ _ Hn). apply G; auto.
  Qed.
End Loops.

(** ** C81: buffers *)

(** The bytes of [n] elements from position [base]. *)
Definition bytes (te : item) (base n a : Z) : Prop := inside (tsz te * base) (tsz te * n) a.

Lemma cell_bytes : forall te base dims a, cell (in_bytes (tsz te) (tensor_ctor base dims)) a -> bytes te base (zprod dims) a.
Proof.
  intros te base dims a (idx & Hi & ->). rewrite addr_bytes. cbn [in_bytes ddims] in Hi.
  assert (C : cell (tensor_ctor base dims) (addr (tensor_ctor base dims) idx)) by (exists idx; auto).
  apply tensor_cell_inside in C. unfold bytes, inside in *. assert (Hp := item_size_pos te). fold (tsz te) in Hp. nia.
Qed.
Lemma byte_elem : forall te a, tsz te * a mod tsz te = 0 /\ tsz te * a / tsz te = a.
Proof.
  intros. assert (Hp := item_size_pos te). fold (tsz te) in Hp. rewrite (Z.mul_comm (tsz te) a).
  split; [apply Z.mod_mul; lia|apply Z.div_mul; lia].
Qed.
Lemma not_bytes : forall te base n a, ~ bytes te base n a -> a mod tsz te = 0 -> ~ (base <= a / tsz te < base + n).
Proof.
  intros te base n a H Hm Hr. apply H. assert (Hp := item_size_pos te). fold (tsz te) in Hp.
  unfold bytes, inside. assert (Hd := Z.div_mod a (tsz te) ltac:(lia)). rewrite Hm in Hd. nia.
Qed.

(** PyTensor(buffer): a tensor of the buffer's shape with its items, converted to
    the element type, for every number of axes, every strides that are whole
    numbers of items (also negative or zero), every format of [native] and every
    schedule; the rest of memory is unchanged.  What is missing: strides that
    are not whole numbers of items ([C81_packed_refuted]). *)
Theorem C81_from_buffer_partial : forall T te conv (zero : T) base b i parts h f,
  elem_type te -> (forall x, conv te x = x) -> buf_ok b i -> whole_steps b -> holds h (buf_desc b) f ->
  (forall a, cell (buf_desc b) a -> ~ bytes te base (zprod (b_shape b)) a) ->
  Permutation (concat parts) (zrange (zprod (b_shape b))) ->
  exists h1 ps, pt_from_buffer te conv zero base b parts h = Ok (rt_ctor base (b_shape b), h1, ps) /\
    par_spec ps h1 (fun h' =>
      holds h' (in_bytes (tsz te) (tensor_ctor base (b_shape b))) (fun idx => conv i (f idx)) /\
      (forall a, ~ bytes te base (zprod (b_shape b)) a -> h' a = h a)).
Proof.
  intros T te conv zero base b i parts h f He Hc Hb HW Hf Hdis HP.
  set (D := in_bytes (tsz te) (tensor_ctor base (b_shape b))). set (h1 := alloc_elems te zero base (zprod (b_shape b)) h).
  assert (O1 : forall a, ~ bytes te base (zprod (b_shape b)) a -> h1 a = h a).
  { intros a Na. unfold h1, alloc_elems. destruct (Z.eqb_spec (a mod tsz te) 0); auto. cbn [andb].
    assert (N := not_bytes _ _ _ _ Na e). destruct (Z.leb_spec base (a / tsz te)); auto. cbn [andb].
    destruct (Z.ltb_spec (a / tsz te) (base + zprod (b_shape b))); auto. exfalso. lia. }
  assert (A1 : holds h1 D (fun _ => zero)).
  { intros idx Hi. unfold D in *. cbn [in_bytes ddims tensor_ctor] in Hi. rewrite addr_bytes. unfold h1, alloc_elems.
    destruct (byte_elem te (addr (tensor_ctor base (b_shape b)) idx)) as (-> & ->).
    assert (C : cell (tensor_ctor base (b_shape b)) (addr (tensor_ctor base (b_shape b)) idx)) by (exists idx; auto).
    apply tensor_cell_inside in C. unfold inside in C. rewrite (proj2 (Z.leb_le _ _)), (proj2 (Z.ltb_lt _ _)) by lia. reflexivity. }
  destruct (pt_loop_spec te conv None base b i parts h1 f (fun _ => zero)) as (ps & Ep & Sp); auto.
  { intros idx Hi. rewrite O1; [now apply Hf|]. apply Hdis. exists idx. auto. }
  { intros x y Hx Hy E. apply (Hdis (addr (buf_desc b) y)); [exists y; auto|]. apply cell_bytes. exists x. rewrite <- E. auto. }
  unfold pt_from_buffer. rewrite Ep. cbn [bind]. rewrite rt_ctor_len. fold h1. exists h1, ps. split; auto.
  eapply par_spec_weaken; [|exact Sp]. intros h' (H1 & H2). split; [exact H1|].
  intros a Na. rewrite H2; auto. intros C. apply Na. now apply cell_bytes.
Qed.

(** tensor.assign(buffer): the tensor has the buffer's shape and items.  What is
    missing: as above, and buffers that share memory with the tensor
    ([C81_overlap_refuted]). *)
Theorem C81_assign_partial : forall T te conv (zero : T) newbase b0 dims0 b i parts h f,
  elem_type te -> (forall x, conv te x = x) -> buf_ok b i -> whole_steps b -> holds h (buf_desc b) f ->
  alloc h (in_bytes (tsz te) (tensor_ctor b0 [zprod dims0])) ->
  (forall a, cell (buf_desc b) a -> ~ bytes te b0 (zprod dims0) a /\ ~ bytes te newbase (zprod (b_shape b)) a) ->
  Permutation (concat parts) (zrange (zprod (b_shape b))) ->
  exists base h1 ps, pt_assign_buffer te conv zero newbase (rt_ctor b0 dims0) b parts h = Ok (rt_ctor base (b_shape b), h1, ps) /\
    par_spec ps h1 (fun h' =>
      holds h' (in_bytes (tsz te) (tensor_ctor base (b_shape b))) (fun idx => conv i (f idx)) /\
      (forall a, ~ bytes te b0 (zprod dims0) a -> ~ bytes te newbase (zprod (b_shape b)) a -> h' a = h a)).
Proof.
  intros T te conv zero newbase b0 dims0 b i parts h f He Hc Hb HW Hf Ha Hdis HP. set (n := zprod (b_shape b)).
  assert (Hp := item_size_pos te). fold (tsz te) in Hp.
  assert (Old : forall k, 0 <= k < zprod dims0 -> exists v, h (tsz te * (b0 + k)) = Some v).
  { intros k Hk. destruct (Ha [k]) as (v & Hv). { cbn [in_bytes ddims tensor_ctor]. constructor; auto. }
    exists v. rewrite <- Hv. f_equal. rewrite addr_bytes. unfold addr. simpl. lia. }
  assert (G : exists base h1, resize_elems te zero newbase b0 (zprod dims0) n h = (base, h1) /\
     (base = b0 /\ zprod dims0 = n \/ base = newbase) /\
     (forall k, 0 <= k < n -> exists v, h1 (tsz te * (base + k)) = Some v) /\
     (forall a, ~ bytes te b0 (zprod dims0) a -> ~ bytes te newbase n a -> h1 a = h a)).
  { unfold resize_elems. destruct (Z.eqb_spec (zprod dims0) n) as [E|E].
    - exists b0, h. split; auto. split; auto. split; auto. rewrite <- E. auto.
    - eexists newbase, _. split; [reflexivity|]. split; auto. split.
      + intros k Hk. destruct (byte_elem te (newbase + k)) as (-> & ->). cbn.
        rewrite (proj2 (Z.leb_le _ _)), (proj2 (Z.ltb_lt _ _)) by lia. cbn [andb].
        replace (newbase + k - newbase) with k by lia. destruct (Z.ltb_spec k (zprod dims0)); [apply Old; lia|eauto].
      + intros a N1 N2. destruct (Z.eqb_spec (a mod tsz te) 0) as [Em|Em]; auto. cbn zeta.
        assert (M1 := not_bytes _ _ _ _ N1 Em). assert (M2 := not_bytes _ _ _ _ N2 Em).
        destruct (Z.leb_spec newbase (a / tsz te)), (Z.ltb_spec (a / tsz te) (newbase + n)); cbn [andb]; try (exfalso; lia);
        destruct (Z.leb_spec b0 (a / tsz te)), (Z.ltb_spec (a / tsz te) (b0 + zprod dims0)); cbn [andb]; auto; exfalso; lia. }
  destruct G as (base & h1 & Er & Hbase & A1 & O1).
  set (D := in_bytes (tsz te) (tensor_ctor base (b_shape b))).
  assert (Hin : forall a, bytes te base n a -> bytes te b0 (zprod dims0) a \/ bytes te newbase n a).
  { destruct Hbase as [(-> & ->) | ->]; auto. }
  assert (Hold : exists old, holds h1 D old).
  { exists (fun idx => match h1 (addr D idx) with Some v => v | None => zero end). intros idx Hi.
    assert (Ex : exists v, h1 (addr D idx) = Some v); [|destruct Ex as (v & ->); reflexivity].
    unfold D. rewrite addr_bytes. unfold addr. cbn [tensor_ctor dbase dstrides]. apply A1. apply rm_range. exact Hi. }
  destruct Hold as (old & Hold).
  destruct (pt_loop_spec te conv None base b i parts h1 f old) as (ps & Ep & Sp); auto.
  { intros idx Hi. assert (C : cell (buf_desc b) (addr (buf_desc b) idx)) by (exists idx; auto). destruct (Hdis _ C). rewrite O1; auto. }
  { intros x y Hx Hy E. assert (C : cell (buf_desc b) (addr (buf_desc b) y)) by (exists y; auto). destruct (Hdis _ C) as (N1 & N2).
    assert (B : bytes te base n (addr (buf_desc b) y)). { apply cell_bytes. exists x. rewrite <- E. auto. }
    apply Hin in B. tauto. }
  unfold pt_assign_buffer. rewrite rt_ctor_desc, rt_ctor_len. cbn [tensor_ctor dbase]. rewrite dims_to_strides_eq. cbn [snd]. fold n. rewrite Er.
  rewrite Ep. cbn [bind]. exists base, h1, ps. split; auto.
  eapply par_spec_weaken; [|exact Sp]. intros h' (H1 & H2). split; [exact H1|].
  intros a N1 N2. rewrite H2; auto. intros C. apply cell_bytes in C. apply Hin in C. tauto.
Qed.

(** view = buffer (of the view's shape; other shapes throw). *)
Theorem C81_into_view_partial : forall T te conv v b i parts (h : heap T) f old,
  elem_type te -> (forall x, conv te x = x) -> rs_ok (RV v) -> inj (rv_desc v) -> buf_ok b i -> whole_steps b ->
  let D := in_bytes (tsz te) (rv_desc v) in
  holds h (buf_desc b) f -> holds h D old -> disj D (buf_desc b) ->
  Permutation (concat parts) (zrange (zprod (b_shape b))) ->
  (b_shape b = ddims (rv_desc v) -> exists ps, pv_buffer te conv None v b parts = Ok ps /\
     par_spec ps h (fun h' => holds h' D (fun idx => conv i (f idx)) /\ (forall a, ~ cell D a -> h' a = h a))) /\
  (b_shape b <> ddims (rv_desc v) -> pv_buffer te conv None v b parts = Throw).
Proof.
  intros. unfold pv_buffer. split; intros E; destruct (list_eq_dec Z.eq_dec _ _) as [E'|N']; try congruence.
  destruct (pv_loop_spec te conv None v b i parts h f old) as (ps & Ep & Sp); auto. exists ps. split; auto.
Qed.

(** The switch over formats: every native format is recognised, as the right
    type; a format of one character, or one starting with Z, that is recognised
    is native; a buffer of any other format is refused. *)
Theorem C81_format_partial : forall fmt isz,
  (forall i, native fmt isz i -> fmt_item fmt isz = Some i) /\
  (forall i, fmt_item fmt isz = Some i -> String.length fmt = 1%nat \/ (exists r, fmt = String "Z" r) -> exists n, native fmt n i) /\
  (fmt_item fmt isz = None -> forall T te (conv : item -> T -> T) op t v b parts, b_fmt b = fmt -> b_isz b = isz -> elem_type te ->
     pt_loop te conv op t b parts = Throw /\ pv_loop te conv op v b parts = Throw).
Proof.
  intros fmt isz. split; [apply fmt_item_native|]. split.
  - intros i H Hs. unfold fmt_item in H. destruct fmt as [|c r]; [discriminate|].
    destruct (Nat.ltb 2 (String.length (String c r))) eqn:Hl; [discriminate|].
    repeat match type of H with context [Ascii.eqb c ?x] => destruct (Ascii.eqb_spec c x) as [->|] end;
      try (destruct Hs as [Hs|(r' & Hs)]; [|discriminate]; destruct r; [|discriminate]; cbn in H;
           repeat match type of H with context [isz =? ?x] => destruct (Z.eqb_spec isz x) as [->|] end;
           inversion H; subst; eexists; constructor); try discriminate.
    destruct r as [|d r]; [discriminate|]. destruct r as [|e r]; [|discriminate]. cbn in H.
    repeat match type of H with context [Ascii.eqb d ?x] => destruct (Ascii.eqb_spec d x) as [->|] end; inversion H; subst; eexists; constructor.
  - intros H T te conv op t v b parts <- <- He.
    assert (Es : same_type te b = false).
    { destruct (same_type te b) eqn:Es; auto. unfold same_type in Es. apply andb_prop in Es as (E1 & E2).
      apply String.eqb_eq in E1. apply Z.eqb_eq in E2. rewrite E1, E2, (fmt_item_native _ _ _ (te_native te He)) in H. discriminate. }
    unfold pt_loop, pv_loop. rewrite Es, H. auto.
Qed.

(** The buffer a tensor or view offers describes its elements, and a view made
    from it is the same view. *)
Theorem C81_export_partial : forall te d, elem_type te -> Forall extent (ddims d) -> length (dstrides d) = length (ddims d) ->
  buf_ok (buf_of te d) te /\ whole_steps (buf_of te d) /\ buf_desc (buf_of te d) = in_bytes (tsz te) d /\
  (ddims d <> [] -> exists v, pv_from_buffer te (buf_of te d) = Ok v /\ rv_desc v = d /\ rs_ok (RV v)).
Proof.
  intros te d He HE HL. assert (Hp := item_size_pos te). fold (tsz te) in Hp.
  assert (HW : whole_steps (buf_of te d)).
  { unfold whole_steps, buf_of. cbn [b_isz b_strides]. apply Forall_forall. intros s Hs. apply in_map_iff in Hs as (x & <- & _). exists x. lia. }
  split; [|split; [auto|split; [reflexivity|]]].
  - split; [now apply te_native|]. split; [now apply extent_nonneg|]. cbn [buf_of b_strides b_shape]. now rewrite map_length.
  - intros Hd. unfold pv_from_buffer. cbn [buf_of b_writable negb]. unfold same_type. cbn [b_fmt b_isz].
    rewrite String.eqb_refl, Z.eqb_refl. cbn [andb negb b_shape b_ptr buf_of].
    destruct (ddims d) as [|d0 ds] eqn:Ed; [congruence|]. destruct (byte_elem te (dbase d)) as (-> & ->). cbn [Z.eqb]. eexists. split; [reflexivity|].
    assert (Est : b_steps (buf_of te d) = dstrides d).
    { unfold b_steps, buf_of. cbn [b_strides b_isz]. rewrite map_map. rewrite <- (map_id (dstrides d)) at 2. apply map_ext.
      intros x. rewrite Z.mul_comm, Z.quot_mul by lia. reflexivity. }
    rewrite Est. cbn [rv_desc]. split; [destruct d; simpl in *; subst; auto|].
    rewrite dims_to_strides_eq. cbn [fst snd]. split; [exact HE|]. repeat split; auto.
Qed.

(** View of a buffer: only of the same element type and writable; then it has the
    buffer's elements. *)
Theorem C81_import_partial : forall te b i, elem_type te -> buf_ok b i -> whole_steps b -> Forall extent (b_shape b) -> b_shape b <> [] ->
  (b_writable b = true -> i = te -> b_ptr b mod tsz te = 0 ->
     exists v, pv_from_buffer te b = Ok v /\ in_bytes (tsz te) (rv_desc v) = buf_desc b /\ rs_ok (RV v)) /\
  (b_writable b = false \/ i <> te -> pv_from_buffer te b = Throw).
Proof.
  intros te b i He (Hn & HF & HL) HW HE Hne. assert (Hp := item_size_pos te). fold (tsz te) in Hp.
  unfold pv_from_buffer. split.
  - intros Hw -> Ha. rewrite Hw. cbn [negb].
    assert (Es : same_type te b = true).
    { unfold same_type. destruct He as [-> | [-> | [-> | ->]]]; inversion Hn; reflexivity. }
    rewrite Es. cbn [negb]. destruct (b_shape b) as [|d0 ds] eqn:Ed; [congruence|]. rewrite Ha. cbn [Z.eqb]. eexists. split; [reflexivity|].
    cbn [rv_desc]. assert (Hz : b_isz b = tsz te) by (eapply native_size; eauto). split.
    + unfold in_bytes, buf_desc. cbn [dbase ddims dstrides]. rewrite <- Hz, steps_bytes, Ed by (auto; lia). f_equal.
      rewrite Hz. assert (Hd := Z.div_mod (b_ptr b) (tsz te) ltac:(lia)). lia.
    + rewrite dims_to_strides_eq. cbn [fst snd]. split; [exact HE|]. cbn [rs_desc rv_desc ddims dstrides]. rewrite steps_length. repeat split; auto.
  - intros [Hw|Hi]; [now rewrite Hw|]. destruct (b_writable b); auto. cbn [negb]. destruct (same_type te b) eqn:Es; auto.
    exfalso. apply Hi. eapply same_type_item; eauto.
Qed.

(** ** C80: x[key] = value *)
Lemma np_sel_inb : forall args dims j p, np_sel args dims j p -> inb j (np_dims args dims) /\ inb p dims.
Proof.
  intros args dims j p H. induction H as [|d ds x j p Hx H IH|a k args d ds i j p Ha Hk H IH|a b s args d ds x j p Hs Hx Hl H IH].
  - split; constructor.
  - destruct IH as (I1 & I2). split; constructor; auto.
  - destruct IH as (I1 & I2). split; [destruct Ha as [-> | ->]; exact I1|]. constructor; auto. apply Hk.
  - destruct IH as (I1 & I2). cbn [np_dims]. split; constructor; auto; [lia|].
    assert (0 <= np_lo d a) by (destruct a; simpl; unfold np_bound; lia).
    assert (np_hi d b <= d); [|lia]. destruct b; simpl in *; unfold np_bound in *; lia.
Qed.
Lemma np_sel_total : forall args dims one j, Forall extent dims -> supported one args dims -> inb j (np_dims args dims) -> exists p, np_sel args dims j p.
Proof.
  assert (G : forall dims j, inb j dims -> np_sel [] dims j j).
  { induction dims as [|d ds IH]; intros j Hj; inversion Hj; subst; constructor; auto. }
  induction args as [|a r IH]; intros dims one j HE HS Hj.
  - exists j. apply G. destruct dims; exact Hj.
  - destruct dims as [|d ds]; [destruct a; contradiction|]. inversion HE as [|? ? Hd HE']; subst.
    destruct a as [k|k|x y s|]; cbn [supported np_dims] in *.
    + destruct HS as (Hk & HS). destruct (IH ds one j HE' HS Hj) as (p & Hp). exists (k :: p). apply (np_int (PInt k) k); auto. split; auto.
    + destruct HS as (_ & Hk & HS). destruct (IH ds one j HE' HS Hj) as (p & Hp). exists (k :: p). apply (np_int (PIndex k) k); auto. split; auto.
    + destruct HS as (Hs & Hl & HS). inversion Hj as [|z ? j' ? Hz Hj']; subst. destruct (IH ds one j' HE' HS Hj') as (p & Hp).
      exists (np_lo d x + z :: p). constructor; auto; lia.
    + contradiction.
Qed.
Lemma np_sel_inj : forall args dims j p, np_sel args dims j p -> forall j', np_sel args dims j' p -> j = j'.
Proof.
  intros args dims j p H. induction H as [|d ds x j p Hx H IH|a k args d ds i j p Ha Hk H IH|a b s args d ds x j p Hs Hx Hl H IH]; intros j' H'.
  - now inversion H'.
  - inversion H'; subst. f_equal. auto.
  - inversion H'; subst; auto. destruct Ha; discriminate.
  - inversion H' as [| |? ? ? ? ? ? ? ? E|]; subst; [destruct E; discriminate|]. assert (x0 = x) by lia. subst. f_equal. auto.
Qed.

Lemma shows_cells : forall n v args w one, 0 < n -> rs_ok (RV v) -> inj (rv_desc v) -> supported one args (ddims (rv_desc v)) -> shows v args w ->
  inj (rv_desc w) /\
  (forall a, cell (in_bytes n (rv_desc w)) a <-> exists j p, np_sel args (ddims (rv_desc v)) j p /\ a = n * addr (rv_desc v) p).
Proof.
  intros n v args w one Hn HV HI HS (HD & HA). assert (HE := proj1 HV). cbn [rs_desc] in HE.
  assert (Tot : forall j, inb j (ddims (rv_desc w)) -> exists p, np_sel args (ddims (rv_desc v)) j p).
  { intros j Hj. rewrite HD in Hj. eapply np_sel_total; eauto. }
  split.
  - intros i j Hi Hj E. destruct (Tot i Hi) as (p & Hp). destruct (Tot j Hj) as (q & Hq).
    rewrite (HA _ _ Hp), (HA _ _ Hq) in E. apply HI in E; try (eapply np_sel_inb; eauto). subst q. eapply np_sel_inj; eauto.
  - intros a. split.
    + intros (j & Hj & ->). cbn [in_bytes ddims] in Hj. destruct (Tot j Hj) as (p & Hp). exists j, p. split; auto.
      rewrite addr_bytes. f_equal. auto.
    + intros (j & p & Hp & ->). exists j. split; [cbn [in_bytes ddims]; rewrite HD; exact (proj1 (np_sel_inb _ _ _ _ Hp))|].
      rewrite addr_bytes. f_equal. symmetry. auto.
Qed.

Lemma one_write : forall T (h : heap T) a x, (exists v, h a = Some v) ->
  par_spec [pwrite a x] h (fun h' => h' a = Some x /\ (forall c, c <> a -> h' c = h c)).
Proof.
  intros T h a x (v & Hv). change [pwrite a x] with (List.map (fun r => pseq r (fun y : Z => pwrite y x)) [[a]]).
  eapply par_spec_weaken; [|apply (par_cells Z T [a] [[a]] (fun y => y) (fun _ => Some x) (fun y => pwrite y x) h)].
  - intros h' (H1 & H2). split; [apply H1; now left|]. intros c Hc. apply H2. unfold owned. simpl. intuition.
  - apply Permutation_refl.
  - repeat constructor; simpl; tauto.
  - intros y h' [<-|[]] Hag. assert (E : h' a = Some v) by (rewrite Hag; auto). split.
    + cbn [pwrite psafe]. split; auto. split; [eauto|exact I].
    + eexists. cbn [pwrite run]. rewrite E. split; [reflexivity|]. apply upd_same.
Qed.

(** x[args] = value for a tuple: every selected element gets the value, nothing
    else changes; an unsupported subscript throws (and changes nothing).
    What is missing: as for C79, and keys that are not tuples
    ([C80_key_refuted]). *)
Theorem C80_value_partial : forall T te v args (x : T) parts h,
  rs_ok (RV v) -> inj (rv_desc v) -> alloc h (in_bytes (tsz te) (rv_desc v)) ->
  let dims := ddims (rv_desc v) in
  let one := one_element args dims in
  (supported one args dims -> (one = false -> Permutation (concat parts) (zrange (zprod (np_dims args dims)))) ->
   exists ps, py_set_value te v (KTuple args) x parts = Ok ps /\ par_spec ps h (fun h' =>
     (forall j p, np_sel args dims j p -> h' (tsz te * addr (rv_desc v) p) = Some x) /\
     (forall a, (forall j p, np_sel args dims j p -> a <> tsz te * addr (rv_desc v) p) -> h' a = h a))) /\
  (Forall small args -> ~ supported one args dims -> py_set_value te v (KTuple args) x parts = Throw).
Proof.
  intros T te v args x parts h HV HI HA dims one. assert (Hp := item_size_pos te). fold (tsz te) in Hp.
  destruct (C79_tuple_partial v args HV) as (G1 & G2). cbv zeta in G1, G2. fold dims in G1, G2. fold one in G1, G2.
  cbn [py_getitem] in G1, G2. unfold subscript_tuple in G1, G2. cbn [py_set_value]. fold dims. fold dims in G1, G2.
  assert (One : one = true -> length args = length dims /\ existsb is_slice args = false).
  { unfold one, one_element. intros H. apply andb_prop in H as (H1 & H2). apply Nat.eqb_eq in H1. apply negb_true_iff in H2. auto. }
  split.
  - intros HS HP. assert (HL := supported_length _ _ _ HS). specialize (G1 HS). destruct one eqn:Eo.
    + destruct (One eq_refl) as (L & N). rewrite L, Nat.ltb_irrefl, N in *. cbn [orb andb] in *. destruct G1 as (idx & Hsel & E).
      destruct (subscript_to_val v args) as [a| |] eqn:Ea; try discriminate. cbn [bind] in *. inversion E; subst a.
      eexists. split; [reflexivity|]. eapply par_spec_weaken; [|apply one_write].
      * intros h' (H1 & H2). split.
        -- intros j p Hs. assert (Hx : p = idx); [|subst p; exact H1].
           clear - Hsel Hs N. revert Hs N. remember (@nil Z) as j0. generalize dependent p. generalize dependent j.
           induction Hsel as [|d ds x j p Hx H IH|a k args d ds i j p Ha Hk H IH|a b s args d ds x j p Hs0 Hx Hl H IH]; intros j2 q Hq N; try discriminate.
           ++ now inversion Hq.
           ++ cbn [existsb] in N. apply orb_false_iff in N as (_ & N). inversion Hq; subst.
              ** match goal with H1 : a = PInt k \/ _, H2 : a = PInt ?k2 \/ _ |- _ => assert (k2 = k) by (destruct H1 as [-> | ->]; destruct H2 as [H2|H2]; inversion H2; auto) end.
                 subst. f_equal; [|eapply IH; eauto].
                 match goal with H1 : spells d k ?u, H2 : spells d k ?w |- _ => unfold spells in H1, H2; lia end.
              ** destruct Ha; discriminate.
        -- intros a Ha. apply H2. intros ->. eapply Ha; eauto.
      * rewrite <- addr_bytes. apply HA. cbn [in_bytes ddims]. eapply np_sel_inb; eauto.
    + destruct G1 as (w & E & Ow & Sw).
      assert (Eb : (length args <? length dims)%nat || existsb is_slice args && (length args =? length dims)%nat = true).
      { destruct (Nat.ltb_spec (length args) (length dims)); auto. cbn [orb]. unfold one, one_element in Eo.
        assert (El : length args = length dims) by lia. rewrite El, Nat.eqb_refl in *. cbn [andb] in Eo. apply negb_false_iff in Eo. now rewrite Eo. }
      rewrite Eb in *.
      assert (Ew : subscript_to_view v args = Ok w).
      { destruct (Nat.ltb_spec (length args) (length dims)); [|destruct (Nat.ltb_spec (length dims) (length args)); [lia|]].
        - destruct (subscript_to_view v args); cbn [bind] in E; inversion E; auto.
        - cbn [orb] in Eb. apply andb_prop in Eb as (Es & _). rewrite Es in E. destruct (subscript_to_view v args); cbn [bind] in E; inversion E; auto. }
      rewrite Ew. cbn [bind]. destruct (shows_cells (tsz te) v args w _ Hp HV HI HS Sw) as (Iw & Cw).
      set (D := in_bytes (tsz te) (rv_desc w)).
      destruct (sentinel_loop T D D (fun s => a <- rv_ord w s ;; Ok (tsz te * a, tsz te * a)) (fun p => pwrite (fst p) x) (fun _ => x) parts h) as (ps & Ep & Sp).
      * unfold D. cbn [in_bytes ddims]. apply extent_nonneg. apply Ow.
      * apply inj_bytes; auto.
      * intros s Hs. unfold D in *. cbn [in_bytes ddims] in *. rewrite rv_ord_at by auto. cbn [bind]. now rewrite addr_bytes.
      * unfold D. cbn [in_bytes ddims]. rewrite (proj1 Sw). apply HP; auto.
      * intros idx h' Hi Hsame. unfold pwrite. cbn [fst]. 
        assert (C : cell D (addr D idx)) by (exists idx; auto). apply Cw in C as (j & p & Hsel & Ec).
        destruct (HA p) as (y & Hy). { cbn [in_bytes ddims]. eapply np_sel_inb; eauto. }
        assert (W : h' (addr D idx) = Some y). { rewrite Hsame by auto. rewrite Ec, <- addr_bytes. exact Hy. }
        split; [cbn [psafe]; split; auto; split; [eauto|exact I]|].
        eexists. cbn [run]. rewrite W. split; [reflexivity|]. apply upd_same.
      * exists ps. split; [exact Ep|]. eapply par_spec_weaken; [|exact Sp]. intros h' (H1 & H2). split.
        -- intros j p Hsel. rewrite <- (proj2 Sw _ _ Hsel), <- addr_bytes. apply H1. unfold D. cbn [in_bytes ddims]. rewrite (proj1 Sw). exact (proj1 (np_sel_inb _ _ _ _ Hsel)).
        -- intros a Ha. apply H2. intros C. apply Cw in C as (j & p & Hsel & Ec). eapply Ha; eauto.
  - intros HM HN. specialize (G2 HM HN).
    destruct (Nat.ltb_spec (length args) (length dims)).
    + cbn [orb]. destruct (subscript_to_view v args); cbn [bind] in *; try discriminate; auto.
    + cbn [orb]. destruct (Nat.ltb_spec (length dims) (length args)).
      * rewrite (proj2 (Nat.eqb_neq _ _)) by lia. rewrite andb_false_r. reflexivity.
      * assert (El : length args = length dims) by lia. rewrite El, Nat.eqb_refl, andb_true_r. destruct (existsb is_slice args).
        -- destruct (subscript_to_view v args); cbn [bind] in *; try discriminate; auto.
        -- destruct (subscript_to_val v args); cbn [bind] in *; try discriminate; auto.
Qed.

(** x[args] = buffer for a tuple that selects a block: element [j] of the block
    gets item [j]; other shapes, a subscript of one element and unsupported
    subscripts throw.  What is missing: as above, and buffers that share memory
    with the block ([C80_overlap_refuted]). *)
Theorem C80_buffer_partial : forall T te conv v args b i parts (h : heap T) f,
  elem_type te -> (forall x, conv te x = x) ->
  rs_ok (RV v) -> inj (rv_desc v) -> alloc h (in_bytes (tsz te) (rv_desc v)) -> buf_ok b i -> whole_steps b -> holds h (buf_desc b) f ->
  let dims := ddims (rv_desc v) in
  let one := one_element args dims in
  (forall j p, np_sel args dims j p -> ~ cell (buf_desc b) (tsz te * addr (rv_desc v) p)) ->
  Permutation (concat parts) (zrange (zprod (b_shape b))) ->
  (one = false -> supported false args dims -> b_shape b = np_dims args dims ->
   exists ps, py_set_buffer te conv v (KTuple args) b parts = Ok ps /\ par_spec ps h (fun h' =>
     (forall j p, np_sel args dims j p -> h' (tsz te * addr (rv_desc v) p) = Some (conv i (f j))) /\
     (forall a, (forall j p, np_sel args dims j p -> a <> tsz te * addr (rv_desc v) p) -> h' a = h a))) /\
  (Forall small args -> one = true \/ ~ supported false args dims \/ b_shape b <> np_dims args dims ->
   py_set_buffer te conv v (KTuple args) b parts = Throw).
Proof.
  intros T te conv v args b i parts h f He Hc HV HI HA Hb HW Hf dims one Hdis HP. assert (Hp := item_size_pos te). fold (tsz te) in Hp.
  cbn [py_set_buffer]. fold dims.
  assert (Blk : (length args <= length dims)%nat -> one = negb ((length args <? length dims)%nat || existsb is_slice args && (length args =? length dims)%nat)).
  { intros Hle. unfold one, one_element. destruct (Nat.ltb_spec (length args) (length dims)).
    - now rewrite (proj2 (Nat.eqb_neq _ _)) by lia.
    - assert (El : length args = length dims) by lia. rewrite El, Nat.eqb_refl. cbn [orb andb]. now rewrite andb_true_r. }
  split.
  - intros Eo HS Esh. assert (HL := supported_length _ _ _ HS). rewrite (Blk HL) in Eo. apply negb_false_iff in Eo. rewrite Eo.
    destruct (to_view_ok v args HV HS) as (w & Ew & Ow & Sw). rewrite Ew. cbn [bind].
    destruct (shows_cells (tsz te) v args w _ Hp HV HI HS Sw) as (Iw & Cw). set (D := in_bytes (tsz te) (rv_desc w)).
    assert (Hold : exists old, holds h D old).
    { assert (E : forall idx, inb idx (ddims D) -> exists y, h (addr D idx) = Some y).
      { intros idx Hi. assert (C : cell D (addr D idx)) by (exists idx; auto). apply Cw in C as (j & p & Hsel & ->).
        rewrite <- addr_bytes. apply HA. cbn [in_bytes ddims]. exact (proj2 (np_sel_inb _ _ _ _ Hsel)). }
      destruct (list_eq_dec Z.eq_dec (ddims D) (b_shape b)) as [Ed|Ed].
      - exists (fun idx => match h (addr D idx) with Some y => y | None => f idx end). intros idx Hi. destruct (E idx Hi) as (y & ->). reflexivity.
      - exfalso. apply Ed. rewrite Esh. exact (proj1 Sw). }
    destruct Hold as (old & Hold).
    unfold pv_buffer. destruct (list_eq_dec Z.eq_dec _ _) as [Ed|Ed]; [|exfalso; apply Ed; rewrite Esh; exact (proj1 Sw)].
    destruct (pv_loop_spec te conv None w b i parts h f old) as (ps & Ep & Sp); auto.
    { intros x y Hx Hy E. assert (C : cell D (addr D x)) by (exists x; auto). apply Cw in C as (j & p & Hsel & Ec).
      apply (Hdis j p Hsel). rewrite <- Ec. exists y. auto. }
    exists ps. split; auto. eapply par_spec_weaken; [|exact Sp]. intros h' (H1 & H2). split.
    + intros j p Hsel. rewrite <- (proj2 Sw _ _ Hsel), <- addr_bytes. apply (H1 j). cbn [in_bytes ddims]. rewrite (proj1 Sw).
      exact (proj1 (np_sel_inb _ _ _ _ Hsel)).
    + intros a Ha. apply H2. intros C. apply Cw in C as (j & p & Hsel & Ec). eapply Ha; eauto.
  - intros HM Hbad. destruct ((length args <? length dims)%nat || existsb is_slice args && (length args =? length dims)%nat) eqn:Eb; auto.
    assert (HL : (length args <= length dims)%nat).
    { destruct (Nat.ltb_spec (length args) (length dims)); [lia|]. cbn [orb] in Eb. apply andb_prop in Eb as (_ & Eb). apply Nat.eqb_eq in Eb. lia. }
    rewrite (Blk HL) in Hbad. destruct Hbad as [Hx|Hbad]; [discriminate|].
    destruct (subscript_to_view v args) as [w| |] eqn:Ew; auto.
    + cbn [bind]. unfold pv_buffer. destruct (list_eq_dec Z.eq_dec _ _) as [Ed|]; auto. exfalso.
      assert (HS : ~ ~ supported false args dims).
      { intros HN. rewrite (to_view_bad v args HV HM HL HN) in Ew. discriminate. }
      apply HS. intros HS'. destruct Hbad as [HN|HN]; [auto|]. destruct (to_view_ok v args HV HS') as (w' & Ew' & _ & Sw').
      rewrite Ew in Ew'. inversion Ew'; subst w'. apply HN. rewrite <- Ed. exact (proj1 Sw').
    + exfalso. assert (HS : ~ ~ supported false args dims).
      { intros HN. rewrite (to_view_bad v args HV HM HL HN) in Ew. discriminate. }
      apply HS. intros HS'. destruct (to_view_ok v args HV HS') as (w' & Ew' & _). congruence.
Qed.

(** ** C82: in-place arithmetic *)

(** t OP= buffer and view OP= buffer. *)
Theorem C82_buffer_partial : forall T te conv op b i parts (h : heap T) f old,
  elem_type te -> (forall x, conv te x = x) -> buf_ok b i -> whole_steps b -> holds h (buf_desc b) f ->
  Permutation (concat parts) (zrange (zprod (b_shape b))) ->
  (forall base dims, let D := in_bytes (tsz te) (tensor_ctor base dims) in
     holds h D old -> disj D (buf_desc b) ->
     (dims = b_shape b -> exists ps, pt_op_buffer te conv op (rt_ctor base dims) b parts = Ok ps /\
        par_spec ps h (fun h' => holds h' D (fun idx => op (old idx) (conv i (f idx))) /\ (forall a, ~ cell D a -> h' a = h a))) /\
     (dims <> b_shape b -> pt_op_buffer te conv op (rt_ctor base dims) b parts = Throw)) /\
  (forall v, let D := in_bytes (tsz te) (rv_desc v) in
     rs_ok (RV v) -> inj (rv_desc v) -> holds h D old -> disj D (buf_desc b) ->
     (ddims (rv_desc v) = b_shape b -> exists ps, pv_buffer te conv (Some op) v b parts = Ok ps /\
        par_spec ps h (fun h' => holds h' D (fun idx => op (old idx) (conv i (f idx))) /\ (forall a, ~ cell D a -> h' a = h a))) /\
     (ddims (rv_desc v) <> b_shape b -> pv_buffer te conv (Some op) v b parts = Throw)).
Proof.
  intros T te conv op b i parts h f old He Hc Hb HW Hf HP. split.
  - intros base dims D Ho Hdis. unfold pt_op_buffer. rewrite rt_ctor_desc. cbn [tensor_ctor ddims].
    destruct (list_eq_dec Z.eq_dec dims (b_shape b)) as [->|N]; split; intros E; try congruence.
    destruct (pt_loop_spec te conv (Some op) base b i parts h f old) as (ps & Ep & Sp); auto. exists ps. auto.
  - intros v D HV HI Ho Hdis. unfold pv_buffer.
    destruct (list_eq_dec Z.eq_dec _ _) as [Ed|N]; split; intros E; try congruence.
    destruct (pv_loop_spec te conv (Some op) v b i parts h f old) as (ps & Ep & Sp); auto. exists ps. auto.
Qed.

(** t OP= value (each thread a block), t OP= tensor of the same shape (also t
    itself), t OP= view. *)
Theorem C82_tensor_partial : forall T (op : T -> T -> T) base dims (h : heap T) f,
  Forall extent dims ->
  let t := rt_ctor base dims in
  let D := tensor_ctor base dims in
  holds h D f ->
  (forall x nt, 0 < nt -> par_spec (rt_op_scalar op t x nt) h (fun h' =>
     holds h' D (fun idx => op (f idx) x) /\ (forall a, ~ cell D a -> h' a = h a))) /\
  (forall ubase g parts, holds h (tensor_ctor ubase dims) g -> ubase = base \/ disj D (tensor_ctor ubase dims) ->
     Permutation (concat parts) (zrange (zprod dims)) ->
     exists ps, rt_op_tensor op t (rt_ctor ubase dims) parts = Ok ps /\ par_spec ps h (fun h' =>
       holds h' D (fun idx => op (f idx) (g idx)) /\ (forall a, ~ cell D a -> h' a = h a))) /\
  (forall v g parts, rs_ok (RV v) -> holds h (rv_desc v) g -> disj D (rv_desc v) -> Permutation (concat parts) (zrange (zprod dims)) ->
     (ddims (rv_desc v) = dims -> exists ps, rt_op_view op t v parts = Ok ps /\ par_spec ps h (fun h' =>
       holds h' D (fun idx => op (f idx) (g idx)) /\ (forall a, ~ cell D a -> h' a = h a))) /\
     (ddims (rv_desc v) <> dims -> rt_op_view op t v parts = Throw)).
Proof.
  intros T op base dims h f HE t D Hf. assert (HF := extent_nonneg _ HE). assert (ID : inj D) by apply rm_inj.
  assert (Hsz : 0 <= zprod dims) by now apply zprod_nonneg.
  assert (Hat : forall s, 0 <= s < zprod dims -> inb (at_sentinel dims s) dims /\ addr D (at_sentinel dims s) = base + s).
  { intros s Hs. split; [now apply rm_sti_inb|now apply tensor_addr_sentinel]. }
  assert (Hall : forall idx, inb idx dims -> exists s, 0 <= s < zprod dims /\ at_sentinel dims s = idx).
  { intros idx Hi. exists (dotp idx (row_major_strides dims)). split; [now apply rm_range|]. now apply rm_roundtrip. }
  assert (Hcell : forall a, cell D a <-> inside base (zprod dims) a).
  { intros a. split; [apply tensor_cell_inside|]. intros Ha. unfold inside in Ha. destruct (Hat (a - base) ltac:(lia)) as (Hi & E).
    exists (at_sentinel dims (a - base)). split; auto. rewrite E. lia. }
  assert (Body : forall (S : desc) g, holds h S g -> ddims S = dims -> (S = D \/ disj D S) ->
    forall idx h', inb idx (ddims D) -> (forall a, a = addr D idx \/ ~ cell D a -> h' a = h a) ->
      psafe (fun a => a = addr D idx) (fun a => ~ cell D a) (op_body op (addr D idx, addr S idx)) h' /\
      exists h'', run (op_body op (addr D idx, addr S idx)) h' = Ok (tt, h'') /\ h'' (addr D idx) = Some (op (f idx) (g idx))).
  { intros S g Hg Ed Hdis idx h' Hi Hsame. unfold op_body. cbn [fst snd].
    assert (N : addr S idx = addr D idx \/ ~ cell D (addr S idx)).
    { destruct Hdis as [->|Hdis]; auto. right. intros (j & Hj & E). apply (Hdis j idx Hj); [now rewrite Ed|auto]. }
    assert (R : h' (addr S idx) = Some (g idx)) by (rewrite Hsame by auto; apply Hg; now rewrite Ed).
    assert (W : h' (addr D idx) = Some (f idx)) by (rewrite Hsame by auto; auto).
    split.
    - cbn [psafe]. split; auto. exists (g idx). split; auto. split; auto. exists (f idx). split; auto. split; auto. split; eauto.
    - eexists. cbn [run]. rewrite R. cbn [run]. rewrite W. cbn [run]. split; [reflexivity|]. apply upd_same. }
  split; [|split].
  - intros x nt Hnt. unfold rt_op_scalar. unfold t. rewrite rt_ctor_len, rt_ctor_desc. cbn [tensor_ctor dbase].
    rewrite <- (map_map (chunk (zprod dims) nt) (fun r => pseq r (fun k => PRd (base + k) (fun v => PWr (base + k) (op v x) (PRet tt))))).
    eapply par_spec_weaken; [|apply (par_cells Z T (zrange (zprod dims)) _ (fun k => base + k) (fun k => Some (op (f (at_sentinel dims k)) x)))].
    + intros h' (H1 & H2). split.
      * intros idx Hi. destruct (Hall idx Hi) as (s & Hs & <-). rewrite (proj2 (Hat s Hs)). apply H1. now apply zrange_in.
      * intros a Na. apply H2. rewrite owned_zrange. rewrite Hcell in Na. exact Na.
    + rewrite chunks_concat by auto. apply Permutation_refl.
    + apply zrange_addr_NoDup.
    + intros k h' Hk Hag. apply zrange_in in Hk. destruct (Hat k Hk) as (Hi & Ea).
      assert (W : h' (base + k) = Some (f (at_sentinel dims k))). { rewrite Hag by auto. rewrite <- Ea. now apply Hf. }
      split.
      * cbn [psafe]. split; auto. exists (f (at_sentinel dims k)). split; auto. split; auto. split; eauto.
      * exists (upd h' (base + k) (op (f (at_sentinel dims k)) x)). cbn [run]. rewrite W. cbn [run]. split; [reflexivity|]. apply upd_same.
  - intros ubase g parts Hg Hdis HP. unfold rt_op_tensor, t. rewrite !rt_ctor_len, !rt_ctor_desc, Z.eqb_refl. cbn [tensor_ctor dbase].
    apply (sentinel_loop T D (tensor_ctor ubase dims)); auto.
    + cbn [D tensor_ctor ddims]. intros s Hs. rewrite (proj2 (Hat s Hs)). now rewrite tensor_addr_sentinel.
    + apply Body; auto. destruct Hdis as [->|]; auto.
  - intros v g parts HV Hg Hdis HP. unfold rt_op_view, t. rewrite rt_ctor_desc. cbn [tensor_ctor ddims dstrides].
    destruct (list_eq_dec Z.eq_dec _ _) as [Ed|N]; split; intros E; try congruence.
    apply (sentinel_loop T D (rv_desc v)); auto.
    + cbn [D tensor_ctor ddims]. intros s Hs. fold (at_sentinel dims s). destruct (Hat s Hs) as (Hi & Ea).
      assert (Hin : map to_ptrdiff (at_sentinel dims s) = at_sentinel dims s).
      { clear - HE Hi. revert HE. induction Hi as [|i d idx ds Hi H IH]; intros HE; auto. inversion HE; subst. simpl. rewrite IH by auto. f_equal.
        apply to_ptrdiff_id. unfold extent, int64 in *. lia. }
      rewrite Hin. rewrite subscript_at by (auto; now rewrite Ed).
      assert (Er : rs_data (RT (rt_ctor base dims)) (at_sentinel dims s) = Ok (addr D (at_sentinel dims s))).
      { rewrite rs_data_ok with (os := at_sentinel dims s); [now cbn [rs_desc]; rewrite rt_ctor_desc| | |]; cbn [rs_desc]; rewrite ?rt_ctor_desc; cbn [tensor_ctor ddims].
        - split; [cbn [rs_desc]; rewrite rt_ctor_desc; exact HE|]. now rewrite rt_ctor_desc.
        - rewrite Hin. now apply spell_self.
        - clear - Hi. induction Hi; simpl; auto. }
      rewrite Er. reflexivity.
Qed.

(** ** What fails *)
Lemma one_thread : forall T (p : prog T unit) h h', run p h = Ok (tt, h') -> psteps ([p], h) ([PRet tt], h').
Proof.
  intros T p. induction p as [[]|a k IH|a v k IH]; intros h h' H.
  - inversion H; subst. constructor.
  - cbn [run] in H. destruct (h a) as [v|] eqn:E; [|discriminate]. eapply pss_step; [|apply (IH v); eauto].
    apply (ps_rd [PRd a k] h 0%nat a k v); auto.
  - cbn [run] in H. destruct (h a) as [w|] eqn:E; [|discriminate]. eapply pss_step; [|apply IH; eauto].
    apply (ps_wr [PWr a v k] h 0%nat a v k w); auto.
Qed.

(** Memory from a list of (address, value). *)
Definition mem (l : list (Z * Z)) : heap Z := fun a =>
  match find (fun p => fst p =? a) l with Some p => Some (snd p) | None => None end.
Definition idc : item -> Z -> Z := fun _ x => x.

(** C81 fails when the strides are not whole numbers of items.  A field of a
    packed record (a double every 12 bytes) with items 7 and 8: the tensor made
    from it gets 7 and whatever is at byte 108. *)
Theorem C81_packed_refuted :
  let b := mkBuf 100 8 "d" [2] [12] true in
  let h := mem [(100, 7); (108, 99); (112, 8)] in
  buf_ok b F64 /\ holds h (buf_desc b) (fun idx => match idx with [0] => 7 | _ => 8 end) /\
  exists h1 ps h', pt_from_buffer F64 idc 0 0 b [[0; 1]] h = Ok (rt_ctor 0 [2], h1, ps) /\
    psteps (ps, h1) ([PRet tt], h') /\ h' (8 * addr (tensor_ctor 0 [2]) [1]) = Some 99.
Proof.
  cbv zeta. split; [|split].
  - split; [constructor|]. split; [repeat constructor; lia|reflexivity].
  - intros idx Hi. inversion Hi as [|i ? r ? H1 H2]; subst. inversion H2; subst. assert (i = 0 \/ i = 1) as [-> | ->] by lia; reflexivity.
  - eexists _, _, _. split; [reflexivity|]. split; [apply one_thread; reflexivity|reflexivity].
Qed.

(** C81 fails for a buffer that shares memory with the tensor: assigning to
    [1, 2, 3] its own reverse gives [3, 2, 3]. *)
Theorem C81_overlap_refuted :
  let b := mkBuf 16 8 "d" [3] [-8] true in
  let h := mem [(0, 1); (8, 2); (16, 3)] in
  buf_ok b F64 /\ whole_steps b /\ holds h (buf_desc b) (fun idx => match idx with [i] => 3 - i | _ => 0 end) /\
  exists h1 ps h', pt_assign_buffer F64 idc 0 50 (rt_ctor 0 [3]) b [[0; 1; 2]] h = Ok (rt_ctor 0 [3], h1, ps) /\
    psteps (ps, h1) ([PRet tt], h') /\ h' 0 = Some 3 /\ h' 8 = Some 2 /\ h' 16 = Some 3.
Proof.
  cbv zeta. split; [|split; [|split]].
  - split; [constructor|]. split; [repeat constructor; lia|reflexivity].
  - repeat constructor. exists (-1). reflexivity.
  - intros idx Hi. inversion Hi as [|i ? r ? H1 H2]; subst. inversion H2; subst. assert (i = 0 \/ i = 1 \/ i = 2) as [-> | [-> | ->]] by lia; reflexivity.
  - eexists _, _, _. split; [reflexivity|]. split; [apply one_thread; reflexivity|]. repeat split.
Qed.

(** C81 fails for a view of a buffer without axes: [shape[0]] is read. *)
Theorem C81_no_axis_refuted : forall te d, elem_type te -> ddims d = [] -> pv_from_buffer te (buf_of te d) = UB.
Proof.
  intros te d He Ed. unfold pv_from_buffer, buf_of, same_type. cbn [b_writable negb b_fmt b_isz b_shape]. rewrite String.eqb_refl, Z.eqb_refl, Ed. reflexivity.
Qed.

(** C81 fails for formats of two characters: "dd" is two doubles per item, taken as
    one. *)
Theorem C81_pair_refuted : (forall n i, ~ native "dd" n i) /\ fmt_item "dd" 16 = Some F64.
Proof. split; [intros n i H; inversion H|reflexivity]. Qed.

(** C80 fails for keys that are not tuples: x[0] = 1 and x[0:2] = 1 throw, although
    x[0] and x[0:2] may be read. *)
Theorem C80_key_refuted :
  (forall T te (conv : item -> T -> T) v a (x : T) b parts,
     py_set_value te v (KOne a) x parts = Throw /\ py_set_buffer te conv v (KOne a) b parts = Throw) /\
  (let v := rv_whole (rt_ctor 0 [3]) in py_getitem v (KOne (PInt 0)) = Ok (Elem 0) /\ np_ok [PInt 0] [3]).
Proof. split; [intros; split; reflexivity|]. split; [reflexivity|simpl; lia]. Qed.

(** C80 fails when the buffer shares memory with the block: for x = [1, 2, 3],
    x[(1:3,)] = x[0:2] gives [1, 1, 1] instead of [1, 1, 2]. *)
Theorem C80_overlap_refuted :
  let v := rv_whole (rt_ctor 0 [3]) in
  let b := buf_of F64 (mkDesc 0 [2] [1]) in
  let h := mem [(0, 1); (8, 2); (16, 3)] in
  buf_ok b F64 /\ whole_steps b /\ np_sel [PSlice (Some 1) (Some 3) None] [3] [1] [2] /\ h (addr (buf_desc b) [1]) = Some 2 /\
  exists ps h', py_set_buffer F64 idc v (KTuple [PSlice (Some 1) (Some 3) None]) b [[0; 1]] = Ok ps /\
    psteps (ps, h) ([PRet tt], h') /\ h' (8 * addr (rv_desc v) [2]) = Some 1.
Proof.
  cbv zeta. split; [|split; [|split; [|split; [reflexivity|]]]].
  - apply C81_export_partial; [now right; left| |reflexivity]. repeat constructor; unfold extent; lia.
  - apply C81_export_partial; [now right; left| |reflexivity]. repeat constructor; unfold extent; lia.
  - change [2] with [np_lo 3 (Some 1) + 1]. apply np_slice; [now left|lia|reflexivity|constructor].
  - eexists _, _. split; [reflexivity|]. split; [apply one_thread; reflexivity|reflexivity].
Qed.

(** C82 fails for tensors of different shapes and the same size: a 2 x 3 tensor +=
    a 3 x 2 tensor is accepted; element (1, 0) is added to element (0, 1) of the
    other. *)
Theorem C82_shape_refuted :
  exists ps h', rt_op_tensor Z.add (rt_ctor 0 [2; 3]) (rt_ctor 10 [3; 2]) [zrange 6] = Ok ps /\
    psteps (ps, fun a => if (0 <=? a) && (a <? 16) then Some a else None) ([PRet tt], h') /\
    h' (addr (tensor_ctor 0 [2; 3]) [1; 0]) = Some (3 + (10 + 3)) /\ addr (tensor_ctor 10 [3; 2]) [1; 1] = 10 + 3.
Proof. eexists _, _. split; [reflexivity|]. split; [apply one_thread; reflexivity|]. split; reflexivity. Qed.

(** C82 fails for Python numbers: a float reaches the tensor in single precision,
    whatever its element type; of a complex number a real tensor uses the real
    part only.  (2^24 + 1 is no single precision number; it becomes 2^24.) *)
Theorem C82_number_refuted :
  (forall R zero (r32 : R -> R) op t nt x, rt_op_number zero r32 op t (NFloat x) nt = Ok (rt_op_scalar op t (r32 x) nt)) /\
  (forall R zero (r32 : R -> R) op t nt x y, rt_op_number zero r32 op t (NComplex x y) nt = Ok (rt_op_scalar op t (r32 x) nt)) /\
  (let r32 := fun n : Z => if 2 ^ 24 <=? n then 2 * (n / 2) else n in
   exists ps h', rt_op_number 0 r32 Z.add (rt_ctor 0 [1]) (NFloat (2 ^ 24 + 1)) 1 = Ok ps /\
     psteps (ps, mem [(0, 0)]) ([PRet tt], h') /\ h' 0 = Some (2 ^ 24)).
Proof.
  split; [intros; reflexivity|]. split; [intros; reflexivity|].
  cbv zeta. eexists _, _. split; [reflexivity|]. split; [apply one_thread; reflexivity|reflexivity].
Qed.
(** Integers arrive unchanged. *)
Theorem C82_integer : forall R zero (r32 : R -> R) op t nt n, rt_op_number zero r32 op t (NInt n) nt = Ok (rt_op_scalar op t n nt).
Proof. intros. reflexivity. Qed.

(** Case for C81: a 2 x 3 buffer of floats (4 bytes) with rows 3 * 8 bytes apart and
    every second item, into a tensor of doubles. *)
Example C81_case :
  let b := mkBuf 1000 4 "f" [2; 3] [24; 8] false in
  let h : heap Z := fun a => if (1000 <=? a) && (a <? 1048) then Some (a - 1000) else None in
  let f := fun idx => match idx with [i; j] => 24 * i + 8 * j | _ => 0 end in
  buf_ok b F32 /\ whole_steps b /\ holds h (buf_desc b) f /\
  (forall a, cell (buf_desc b) a -> ~ bytes F64 10 6 a) /\
  exists h1 ps h', pt_from_buffer F64 idc 0 10 b [[0; 1; 2; 3; 4; 5]] h = Ok (rt_ctor 10 [2; 3], h1, ps) /\
    psteps (ps, h1) ([PRet tt], h') /\ h' (8 * addr (tensor_ctor 10 [2; 3]) [1; 2]) = Some 40.
Proof.
  cbv zeta. split; [|split; [|split; [|split]]].
  - split; [constructor|]. split; [repeat constructor; lia|reflexivity].
  - constructor; [exists 6; reflexivity|]. constructor; [exists 2; reflexivity|constructor].
  - intros idx Hi. inversion Hi as [|i ? r ? H1 H2]; subst. inversion H2 as [|j ? r2 ? H3 H4]; subst. inversion H4; subst.
    unfold addr, buf_desc. cbn. rewrite (proj2 (Z.leb_le _ _)), (proj2 (Z.ltb_lt _ _)) by lia. cbn. f_equal. lia.
  - intros a (idx & Hi & ->). inversion Hi as [|i ? r ? H1 H2]; subst. inversion H2 as [|j ? r2 ? H3 H4]; subst. inversion H4; subst.
    unfold bytes, inside, addr, buf_desc, tsz. cbn. lia.
  - eexists _, _, _. split; [reflexivity|]. split; [apply one_thread; reflexivity|reflexivity].
Qed.

(** Case for C80 and C82: y = 3 x 2 tensor with 0 .. 5; y[(1:3, 1)] = [7, 8], then
    y += y. *)
Example C80_case :
  let v := rv_whole (rt_ctor 0 [3; 2]) in
  let args := [PSlice (Some 1) None None; PInt 1] in
  let b := mkBuf 200 8 "d" [2] [8] true in
  let h : heap Z := fun a => if (0 <=? a) && (a <? 48) && (a mod 8 =? 0) then Some (a / 8) else if a =? 200 then Some 7 else if a =? 208 then Some 8 else None in
  rs_ok (RV v) /\ supported false args [3; 2] /\ np_dims args [3; 2] = b_shape b /\
  exists ps h', py_set_buffer F64 idc v (KTuple args) b [[0; 1]] = Ok ps /\ psteps (ps, h) ([PRet tt], h') /\
    map (fun k => h' (8 * k)) (zrange 6) = [Some 0; Some 1; Some 2; Some 7; Some 4; Some 8].
Proof.
  cbv zeta. split; [|split; [|split; [reflexivity|]]].
  - split; [|repeat split]. simpl. repeat (constructor; [unfold extent; lia|]). constructor.
  - cbn. repeat split; auto; try lia. now left.
  - eexists _, _. split; [reflexivity|]. split; [apply one_thread; reflexivity|reflexivity].
Qed.
Example C82_case :
  let h : heap Z := fun a => if (0 <=? a) && (a <? 6) then Some a else None in
  holds h (tensor_ctor 0 [3; 2]) (fun idx => match idx with [i; j] => 2 * i + j | _ => 0 end) /\
  exists ps h', rt_op_tensor Z.add (rt_ctor 0 [3; 2]) (rt_ctor 0 [3; 2]) [zrange 6] = Ok ps /\ psteps (ps, h) ([PRet tt], h') /\
    map h' (zrange 6) = [Some 0; Some 2; Some 4; Some 6; Some 8; Some 10].
Proof.
  cbv zeta. split.
  - intros idx Hi. inversion Hi as [|i ? r ? H1 H2]; subst. inversion H2 as [|j ? r2 ? H3 H4]; subst. inversion H4; subst.
    assert (i = 0 \/ i = 1 \/ i = 2) as [-> | [-> | ->]] by lia; assert (j = 0 \/ j = 1) as [-> | ->] by lia; reflexivity.
  - eexists _, _. split; [reflexivity|]. split; [apply one_thread; reflexivity|reflexivity].
Qed.

Print Assumptions C80_value_partial.
Print Assumptions C80_buffer_partial.
Print Assumptions C80_key_refuted.
Print Assumptions C80_overlap_refuted.
Print Assumptions C81_from_buffer_partial.
Print Assumptions C81_assign_partial.
Print Assumptions C81_into_view_partial.
Print Assumptions C81_format_partial.
Print Assumptions C81_export_partial.
Print Assumptions C81_import_partial.
Print Assumptions C81_packed_refuted.
Print Assumptions C81_overlap_refuted.
Print Assumptions C81_no_axis_refuted.
Print Assumptions C81_pair_refuted.
Print Assumptions C82_buffer_partial.
Print Assumptions C82_tensor_partial.
Print Assumptions C82_shape_refuted.
Print Assumptions C82_number_refuted.
Print Assumptions C82_integer.
