(** * T_BlockArith: arithmetic assignment of block-diagonal tensors (C67). *)
From Coq Require Import List ZArith Lia Bool Permutation Ring.
From Verif Require Import Base Heap Conc M_Addr S_Addr L_Addr M_Elt L_Elt M_Einsum S_Einsum L_Einsum M_Blas S_Blas L_Blas M_Block S_Block L_Block
  M_Tiled S_Tiled L_Tiled L_Tiled2 M_MixEinsum L_MixEinsum T_MixEinsum M_BlockArith.
Import ListNotations.
Open Scope Z_scope.

Lemma ctor_of : forall d dims, ddims d = dims -> rowmaj d -> d = tensor_ctor (dbase d) dims.
Proof. intros [b dd s] dims E R. simpl in E. subst dd. unfold rowmaj in R. simpl in R. subst s. reflexivity. Qed.

Lemma rep_ok : forall (n : Z) r, (0 < r)%nat -> 0 <= n -> repeat n r <> [] /\ nonneg (repeat n r).
Proof.
  intros n r Hr Hn. split; [destruct r; [lia|discriminate]|]. apply Forall_forall. intros x Hx. apply repeat_spec in Hx. lia.
Qed.

(** Elements inside the blocks; [dense sizes f] is zero outside them. *)
Definition in_blocks (sizes : list Z) (idx : list Z) : Prop := exists k, in_blk sizes k idx.

Lemma dense_map2 : forall (O : Ops) sizes (f g k : nat -> list Z -> car O) (op : car O -> car O -> car O) idx,
  Forall (fun n => 0 <= n) sizes -> idx <> [] ->
  (forall b j, k b j = op (f b j) (g b j)) -> op o0 o0 = o0 ->
  dense sizes k idx = op (dense sizes f idx) (dense sizes g idx).
Proof.
  intros O sizes f g k op idx HN Hne Hk H0. destruct (in_blk_dec sizes idx) as [(b & Hb)|Hno].
  - rewrite !(dense_in O sizes _ idx b) by auto. apply Hk.
  - rewrite !dense_out by auto. symmetry. exact H0.
Qed.

(** ** Scalars.  [op] is one of *, /, +, -.  *)
Lemma blocks_op_loop : forall (O : Ops) op (v : car O) t h,
  blocks_op op v t h = forM (seq 0 (length (bt_blocks t))) (fun i h => match nth_error (bt_blocks t) i with
     | Some d => if tdim d 0 =? 0 then Ok h else tile_op op v d h | None => UB end) h.
Proof.
  intros O op v t. unfold blocks_op. generalize (bt_blocks t) as bs.
  assert (G : forall pre bs h, forM bs (fun d h => if tdim d 0 =? 0 then Ok h else tile_op op v d h) h =
    forM (seq (length pre) (length bs)) (fun i h => match nth_error (pre ++ bs) i with
     | Some d => if tdim d 0 =? 0 then Ok h else tile_op op v d h | None => UB end) h).
  { intros pre bs. revert pre. induction bs as [|d bs IH]; intros pre h; [reflexivity|]. cbn [forM length seq].
    rewrite nth_error_app2, Nat.sub_diag by lia. cbn [nth_error].
    destruct (if tdim d 0 =? 0 then Ok h else tile_op op v d h) as [h1| |]; cbn [bind]; auto.
    rewrite (IH (pre ++ [d]) h1), app_length. simpl length. rewrite Nat.add_1_r.
    rewrite <- app_assoc. reflexivity. }
  intros bs h. apply (G []).
Qed.

(** What [t OP= v] does: every stored element [x] becomes [x OP v]; nothing else
    in memory changes. *)
Theorem C67_scalar :
  forall (O : Ops) rank (op : car O -> car O -> car O) (v : car O) (t : bt) sizes (f : nat -> list Z -> car O) (h : heap (car O)),
  (0 < rank)%nat -> bt_ok rank t sizes -> bt_sep t -> bt_holds h t f ->
  exists h', blocks_op op v t h = Ok h' /\ bt_holds h' t (fun k j => op (f k j) v) /\
    (forall z, ~ bt_cell t z -> h' z = h z).
Proof.
  intros O rank op v t sizes f h Hr Hok Sep HH. rewrite blocks_op_loop.
  assert (HL : length (bt_blocks t) = length sizes) by apply Hok. rewrite HL.
  apply (block_loop O rank t sizes (fun k j => op (f k j) v)); auto.
  - intros i d h1 Hi Ed Dd Rd Nz Hag. rewrite Ed.
    assert (HN : 0 <= nth i sizes 0) by (apply nth_nonneg, Hok).
    destruct (rep_ok (nth i sizes 0) rank Hr HN) as (N1 & N2).
    assert (E0 : (tdim d 0 =? 0) = false).
    { unfold tdim. rewrite Dd. destruct rank; [lia|]. simpl. now apply Z.eqb_neq. }
    rewrite E0. apply (tile_op_spec O op v d (repeat (nth i sizes 0) rank)); auto; [apply ctor_of; auto|].
    intros j Hj. rewrite Hag; [apply (HH i d Ed j Hj)|]. left. exists j; auto.
  - intros i h1 Hi E0. destruct (bt_block rank t sizes i Hok Hi) as (d & Ed & Dd & _). rewrite Ed.
    unfold tdim. rewrite Dd, E0. destruct rank; [lia|]. reflexivity.
Qed.
Print Assumptions C67_scalar.

(** [t *= v] multiplies every element of the block-diagonal tensor. *)
Theorem C67_scale :
  forall (O : Ops) (HR : is_ring O) rank (v : car O) (t : bt) sizes (f : nat -> list Z -> car O) (h : heap (car O)),
  (0 < rank)%nat -> bt_ok rank t sizes -> bt_sep t -> bt_holds h t f ->
  exists h' f', blocks_op omul v t h = Ok h' /\ bt_holds h' t f' /\
    (forall idx, length idx = rank -> dense sizes f' idx = omul (dense sizes f idx) v) /\
    (forall z, ~ bt_cell t z -> h' z = h z).
Proof.
  intros O HR rank v t sizes f h Hr Hok Sep HH.
  destruct (C67_scalar O rank omul v t sizes f h Hr Hok Sep HH) as (h' & E & H1 & H2).
  exists h', (fun k j => omul (f k j) v). repeat (split; auto). intros idx HL.
  assert (Hne : idx <> []) by (destruct idx; [simpl in HL; lia|discriminate]).
  destruct (in_blk_dec sizes idx) as [(b & Hb)|Hno].
  - rewrite !(dense_in O sizes _ idx b) by (auto; apply Hok). reflexivity.
  - rewrite !dense_out by auto. symmetry. apply (omul_0_l HR).
Qed.
Print Assumptions C67_scale.

(** [t += v], [t -= v]: full claim, every element changes by [v].  Missing (and
    false, [C67_shift_refuted]): the elements outside the blocks. *)
Theorem C67_shift_partial :
  forall (O : Ops) (HR : is_ring O) rank (op : car O -> car O -> car O) (v : car O) (t : bt) sizes (f : nat -> list Z -> car O) (h : heap (car O)),
  (op = oadd \/ op = osub) -> (0 < rank)%nat -> bt_ok rank t sizes -> bt_sep t -> bt_holds h t f ->
  exists h' f', blocks_op op v t h = Ok h' /\ bt_holds h' t f' /\
    (forall idx, length idx = rank -> in_blocks sizes idx \/ v = o0 -> dense sizes f' idx = op (dense sizes f idx) v) /\
    (forall idx, ~ in_blocks sizes idx -> dense sizes f' idx = dense sizes f idx) /\
    (forall z, ~ bt_cell t z -> h' z = h z).
Proof.
  intros O HR rank op v t sizes f h Hop Hr Hok Sep HH.
  destruct (C67_scalar O rank op v t sizes f h Hr Hok Sep HH) as (h' & E & H1 & H2).
  exists h', (fun k j => op (f k j) v). split; auto. split; auto. split; [|split; auto].
  - intros idx HL Hin. assert (Hne : idx <> []) by (destruct idx; [simpl in HL; lia|discriminate]).
    destruct (in_blk_dec sizes idx) as [(b & Hb)|Hno].
    + rewrite !(dense_in O sizes _ idx b) by (auto; apply Hok). reflexivity.
    + destruct Hin as [(b & Hb)| ->]; [elim (Hno b Hb)|]. rewrite !dense_out by auto.
      destruct Hop as [-> | ->]; symmetry; [apply (Radd_0_l (ir_rt O HR))|].
      rewrite (Rsub_def (ir_rt O HR)). apply (Ropp_def (ir_rt O HR)).
  - intros idx Hno. rewrite !dense_out; auto; intros k Hk; apply Hno; exists k; auto.
Qed.
Print Assumptions C67_shift_partial.

(** Adding 4 to the 2 x 2 tensor with blocks (5), (7): element (0,1) stays 0. *)
Theorem C67_shift_refuted :
  let t := bt_ctor 2 100 [0; 1] [1; 1] in
  let h : heap Z := fun z => if z =? 0 then Some 5 else if z =? 1 then Some 7 else if z =? 100 then Some 0 else None in
  exists h', blocks_op (O:=ZOps) Z.add 4 t h = Ok h' /\
    bt_read (O:=ZOps) t [0; 1] h = Ok (0, h) /\ bt_read (O:=ZOps) t [0; 1] h' = Ok (0, h') /\ bt_read (O:=ZOps) t [0; 0] h' = Ok (9, h').
Proof. eexists. split; [reflexivity|]. split; [reflexivity|]. split; vm_compute; reflexivity. Qed.
Print Assumptions C67_shift_refuted.

(** ** Block tensors on the right.  [u] is another tensor or [t] itself. *)
Lemma tile_op2_self : forall (O : Ops) op d dims f (h : heap (car O)),
  d = tensor_ctor (dbase d) dims -> dims <> [] -> nonneg dims -> holds h d f ->
  exists h', tile_op2 op d d h = Ok h' /\ holds h' d (fun i => op (f i) (f i)) /\ (forall a, ~ cell d a -> h' a = h a).
Proof.
  intros O op d dims f h Hd Hne HN HF. unfold tile_op2. rewrite Hd in *. simpl dbase. simpl ddims.
  rewrite Z.eqb_refl. cbn [negb]. apply flat_loop; auto. intros idx h' Hi Hag.
  assert (E : h' (dbase d + dotp idx (row_major_strides dims)) = Some (f idx)).
  { rewrite Hag by auto. now apply HF. }
  rewrite (rd_some _ _ _ _ E). cbn [bind]. now rewrite (wr_some _ _ _ _ _ E).
Qed.

Lemma same_sizes_ok : forall rank t u sizes, bt_ok rank t sizes -> bt_ok rank u sizes -> same_block_sizes t u = true.
Proof.
  intros rank t u sizes (_ & L1 & B1 & _) (_ & L2 & B2 & _). apply forallb_forall. intros (d, e) H. cbn [fst snd].
  apply In_nth_error in H as (k & H).
  assert (G : forall (l1 l2 : list desc) k, nth_error (combine l1 l2) k = Some (d, e) -> nth_error l1 k = Some d /\ nth_error l2 k = Some e).
  { induction l1 as [|x l1 IH]; intros [|y l2] [|k'] Hk; simpl in Hk; try discriminate; [injection Hk as -> ->; auto|simpl; apply IH; auto]. }
  destruct (G _ _ _ H) as (H1 & H2). rewrite (proj1 (B1 k d H1)), (proj1 (B2 k e H2)). apply Z.eqb_refl.
Qed.

Theorem C67_tensor :
  forall (O : Ops) (HR : is_ring O) rank (op : car O -> car O -> car O) (t u : bt) sizes (f g : nat -> list Z -> car O)
         (order : list nat) (h : heap (car O)),
  (op = oadd \/ op = osub \/ op = omul) -> (0 < rank)%nat ->
  bt_ok rank t sizes -> bt_ok rank u sizes -> bt_sep t -> bt_holds h t f -> bt_holds h u g ->
  (u = t \/ bt_disj t u) -> Permutation order (seq 0 (length (bt_blocks t))) ->
  exists h' f', blocks_op2 op u t order h = Ok h' /\ bt_holds h' t f' /\
    (forall idx, inb idx (repeat (bt_dim t) rank) -> dense sizes f' idx = op (dense sizes f idx) (dense sizes g idx)) /\
    (forall z, ~ bt_cell t z -> h' z = h z).
Proof.
  intros O HR rank op t u sizes f g order h Hop Hr Ht Hu Sep Hf Hg Hd HP.
  assert (Lt : length (bt_blocks t) = length sizes) by apply Ht.
  assert (Lu : length (bt_blocks u) = length sizes) by apply Hu.
  unfold blocks_op2. rewrite Lt, Lu, Nat.eqb_refl, (same_sizes_ok rank t u sizes Ht Hu). cbn [negb].
  rewrite Lt in HP.
  destruct (block_loop O rank t sizes (fun k j => op (f k j) (g k j))
    (fun i h => match nth_error (bt_blocks t) i, nth_error (bt_blocks u) i with
      | Some d, Some e => if tdim d 0 =? 0 then Ok h else tile_op2 op e d h
      | _, _ => UB end) order h) as (h' & E & H1 & H2); auto.
  - intros i d h1 Hi Ed Dd Rd Nz Hag. rewrite Ed. destruct (bt_block rank u sizes i Hu Hi) as (e & Ee & De & Re). rewrite Ee.
    assert (HN : 0 <= nth i sizes 0) by (apply nth_nonneg, Ht).
    destruct (rep_ok (nth i sizes 0) rank Hr HN) as (N1 & N2).
    assert (E0 : (tdim d 0 =? 0) = false).
    { unfold tdim. rewrite Dd. destruct rank; [lia|]. simpl. now apply Z.eqb_neq. }
    rewrite E0.
    assert (H1d : holds h1 d (f i)).
    { intros j Hj. rewrite Hag; [apply (Hf i d Ed j Hj)|]. left. exists j; auto. }
    destruct Hd as [-> |Hd].
    + assert (e = d) by congruence. subst e.
      destruct (tile_op2_self O op d (repeat (nth i sizes 0) rank) (f i) h1) as (h2 & E2 & V2 & F2); auto; [apply ctor_of; auto|].
      exists h2. split; auto. split; auto. intros j Hj. rewrite (V2 j Hj). do 2 f_equal.
      assert (X := Hf i d Ed j Hj). assert (Y := Hg i d Ed j Hj). congruence.
    + assert (Dis : disj d e) by (apply (Hd i i d e Ed Ee)).
      apply (tile_op2_spec O op d e (repeat (nth i sizes 0) rank)); auto; try (apply ctor_of; auto).
      intros j Hj. rewrite Hag; [apply (Hg i e Ee j Hj)|]. right. intros (k & d' & Ek & (y & Hy & Ey)).
      apply (Hd k i d' e Ek Ee y j Hy Hj). auto.
  - intros i h1 Hi E0. destruct (bt_block rank t sizes i Ht Hi) as (d & Ed & Dd & _). destruct (bt_block rank u sizes i Hu Hi) as (e & Ee & _ & _).
    rewrite Ed, Ee. unfold tdim. rewrite Dd, E0. destruct rank; [lia|]. reflexivity.
  - exists h', (fun k j => op (f k j) (g k j)). repeat (split; auto).
    intros idx Hi. apply dense_map2; auto; [apply Ht| |].
    + apply inb_length in Hi. rewrite repeat_length in Hi. destruct idx; [simpl in Hi; lia|discriminate].
    + assert (R := ir_rt O HR). destruct Hop as [-> |[-> | ->]].
      * apply (Radd_0_l R).
      * rewrite (Rsub_def R). apply (Ropp_def R).
      * apply (omul_0_l HR).
Qed.
Print Assumptions C67_tensor.

(** Different block structures are rejected before anything is written. *)
Theorem C67_tensor_rejects :
  forall (O : Ops) rank (op : car O -> car O -> car O) (t u : bt) st su (order : list nat) (h : heap (car O)),
  (0 < rank)%nat -> bt_ok rank t st -> bt_ok rank u su -> st <> su -> blocks_op2 op u t order h = Throw.
Proof.
  intros O rank op t u st su order h Hr Ht Hu Hne. unfold blocks_op2.
  destruct (Nat.eqb_spec (length (bt_blocks t)) (length (bt_blocks u))) as [EL|]; cbn [negb]; [|reflexivity].
  destruct (same_block_sizes t u) eqn:E; cbn [negb]; [|reflexivity]. exfalso. apply Hne.
  destruct Ht as (N1 & L1 & B1 & _), Hu as (N2 & L2 & B2 & _).
  apply nth_ext with (d := 0) (d' := 0); [congruence|]. intros k Hk.
  destruct (nth_error (bt_blocks t) k) as [d|] eqn:Ed.
  2:{ apply nth_error_None in Ed. lia. }
  destruct (nth_error (bt_blocks u) k) as [e|] eqn:Ee.
  2:{ apply nth_error_None in Ee. lia. }
  assert (In (d, e) (combine (bt_blocks t) (bt_blocks u))).
  { apply nth_error_In with (n := k). revert Ed Ee. generalize (bt_blocks t) (bt_blocks u). clear.
    induction k as [|k IH]; intros [|x l1] [|y l2] H1 H2; simpl in *; try discriminate; [congruence|auto]. }
  unfold same_block_sizes in E. rewrite forallb_forall in E. specialize (E _ H). cbn [fst snd] in E. apply Z.eqb_eq in E.
  rewrite (proj1 (B1 k d Ed)), (proj1 (B2 k e Ee)) in E.
  assert (P1 := nth_nonneg st k N1). assert (P2 := nth_nonneg su k N2).
  assert (G : forall n, 0 <= n -> data_size (repeat n rank) = n ^ Z.of_nat rank).
  { intros n Hn. rewrite data_size_eq by (apply (rep_ok n rank Hr Hn)). clear. induction rank as [|r IH]; [reflexivity|].
    rewrite Nat2Z.inj_succ, Z.pow_succ_r by lia. simpl. now rewrite <- IH. }
  rewrite !G in E by auto. destruct (Z.lt_trichotomy (nth k st 0) (nth k su 0)) as [Hl|[Hl|Hl]]; auto; exfalso.
  - assert (X := Z.pow_lt_mono_l (nth k st 0) (nth k su 0) (Z.of_nat rank)). lia.
  - assert (X := Z.pow_lt_mono_l (nth k su 0) (nth k st 0) (Z.of_nat rank)). lia.
Qed.
Print Assumptions C67_tensor_rejects.

(** [set_all]: the stored elements; [zero]: the whole tensor. *)
Theorem C67_set_all :
  forall (O : Ops) rank (v : car O) (t : bt) sizes (f : nat -> list Z -> car O) (order : list nat) (h : heap (car O)),
  (0 < rank)%nat -> bt_ok rank t sizes -> bt_sep t -> bt_holds h t f -> Permutation order (seq 0 (length (bt_blocks t))) ->
  exists h', blocks_fill v t order h = Ok h' /\ bt_holds h' t (fun _ _ => v) /\
    (forall z, ~ bt_cell t z -> h' z = h z).
Proof.
  intros O rank v t sizes f order h Hr Hok Sep HH HP.
  assert (HL : length (bt_blocks t) = length sizes) by apply Hok. rewrite HL in HP.
  apply (block_loop O rank t sizes (fun _ _ => v)); auto.
  - intros i d h1 Hi Ed Dd Rd Nz Hag. rewrite Ed.
    assert (HN : 0 <= nth i sizes 0) by (apply nth_nonneg, Hok).
    destruct (rep_ok (nth i sizes 0) rank Hr HN) as (N1 & N2).
    apply (tile_fill_spec O v d (repeat (nth i sizes 0) rank)); auto; [apply ctor_of; auto|].
    intros j Hj. exists (f i j). rewrite Hag; [apply (HH i d Ed j Hj)|]. left. exists j; auto.
  - intros i h1 Hi E0. destruct (bt_block rank t sizes i Hok Hi) as (d & Ed & Dd & _). rewrite Ed.
    unfold tile_fill. rewrite Dd, E0, data_size_eq by (apply rep_ok; auto; lia).
    destruct rank; [lia|]. simpl. reflexivity.
Qed.
Print Assumptions C67_set_all.

Example C67_case :
  exists h1 h2, blocks_op2 (O:=ZOps) Z.sub caseD caseB [1; 0]%nat caseh = Ok h1 /\
    map h1 [300; 301; 302; 303; 310] = map (@Some Z) [0; 1; 2; 3; 8] /\
    blocks_op2 (O:=ZOps) Z.mul caseB caseB [0; 1]%nat h1 = Ok h2 /\
    map h2 [300; 301; 302; 303; 310; 400] = map (@Some Z) [0; 1; 4; 9; 64; 1] /\
    bt_ok 2 caseB [2; 1] /\ bt_ok 2 caseD [2; 1] /\ bt_sep caseB /\
    blocks_op2 (O:=ZOps) Z.add (bt_ctor 2 190 [400; 410] [1; 2]) caseB [0; 1]%nat caseh = Throw.
Proof.
  do 2 eexists. split; [reflexivity|]. split; [vm_compute; reflexivity|]. split; [reflexivity|].
  split; [vm_compute; reflexivity|]. destruct caseB_ok as (H1 & H2 & H3 & _). repeat (split; auto).
Qed.
