(** * T_Null: svd_nullspace (C120). *)
From Coq Require Import List ZArith Lia Bool Ring.
From Verif Require Import Base Heap Conc M_Addr L_Addr M_Elt L_Elt M_Einsum S_Einsum M_Blas S_Blas L_Blas
  M_Lapack S_Lapack L_Lapack T_Blas T_Lapack T_Lapack2 T_Geev L_Block.
From Verif Require Import M_Null S_Null.
Import ListNotations.
Open Scope Z_scope.

(** The program writes behind the buffer [superb] (or asks for more memory than
    there can be): the call returns for no matrix, whatever LAPACK does. *)
Theorem C120_overflow_refuted :
  forall (O : Ops) (sqrt : car O -> car O) (L : lapack) (A : desc) (m n ld base : Z) (a : list Z -> car O) (h : heap (car O)) r,
    0 < m -> 0 < n -> mat A m n ld -> holds h A a -> (forall z, base <= z -> h z = None) ->
    la_svd_nullspace 0 sqrt L A base h <> Ok r.
Proof.
  intros O sqrt L A m n ld base a h r Hm Hn MA HA Hfr.
  unfold la_svd_nullspace. destruct (tdim2 _ _ _ _ MA) as (-> & -> & _).
  destruct (copy2 _ o0 base A m n ld a h MA ltac:(lia) ltac:(lia) HA) as (h1 & E1 & C1 & F1 & _).
  { intros z Hz. apply Hfr. lia. }
  rewrite E1. cbn [bind].
  set (k := Z.min m n) in *. assert (Hk : 0 < k) by lia.
  set (pu := base + m * n). set (ps := pu + m * m). set (pv := ps + n). set (sb := pv + n * n).
  assert (P1 : 0 <= m * n) by nia. assert (P2 : 0 <= m * m) by nia. assert (P3 : 0 <= n * n) by nia.
  destruct (set_zero _ o0 pu (m * m) h1) as (h2 & E2 & V2 & F2). rewrite E2. cbn [bind].
  destruct (set_zero _ o0 ps n h2) as (h3 & E3 & V3 & F3). rewrite E3. cbn [bind].
  destruct (set_zero _ o0 pv (n * n) h3) as (h4 & E4 & V4 & F4). rewrite E4. cbn [bind].
  destruct (Z.ltb_spec k 2) as [Hk2|Hk2]; [discriminate|].
  set (h5 := alloc_buffer o0 sb (k - 2 + 0) h4).
  assert (N5 : h5 (sb + (k - 2)) = None).
  { unfold h5. rewrite alloc_buffer_other by lia. rewrite F4, F3, F2, F1 by lia. apply Hfr. lia. }
  clearbody pu ps pv h5. intros E. revert E. unfold vgesvd_n. fold k.
  destruct (tstride _ 0 <? n); [discriminate|]. destruct (m <? 1); [discriminate|]. destruct (n <? n); [discriminate|].
  destruct (xpose_row _ _ _ _ _ _ _ _) as [at0| |]; try discriminate. cbn [bind].
  destruct (fread _ _ _ _ at0) as [M| |]; try discriminate. cbn [bind].
  destruct (x_gesvd L m n M) as [[[[[info A'] sv] U'] VT'] work].
  destruct (fwrite _ _ _ _ A' at0) as [at1| |]; try discriminate. cbn [bind].
  destruct (fvwrite k ps sv h5) as [h6| |] eqn:E6; try discriminate. cbn [bind].
  destruct (fwrite _ _ _ _ VT' _) as [vt| |]; try discriminate. cbn [bind].
  destruct (info <? 0); [discriminate|].
  destruct (xpose_col m n at1 _ _ _ _ h6) as [h7| |] eqn:E7; try discriminate. cbn [bind].
  destruct (xpose_col n n vt _ _ _ _ h7) as [h9| |] eqn:E9; try discriminate. cbn [bind].
  assert (N9 : h9 (sb + (k - 2)) = None).
  { eapply xpose_none; [exact E9|]. eapply xpose_none; [exact E7|].
    eapply fwrite_none; [exact E6|]. exact N5. }
  destruct (forM (zrange (k - 1)) _ h9) as [h10| |] eqn:E10; try discriminate.
  exfalso. revert E10. apply (forM_wr_ub _ _ sb (fun i => work (i + 1)) h9 h10 (k - 2)); [lia|auto].
Qed.

Section Rows.
  Context {O : Ops}.
  Notation T := (car O).

  Lemma null_row_ok : forall sqrt nb n i (f : Z -> Z -> T) h,
    0 <= i < n -> (forall p j, 0 <= p < n -> 0 <= j < n -> h (nb + p * n + j) = Some (f p j)) ->
    exists h', null_row sqrt (tensor_ctor nb [n; n]) i h = Ok h' /\
      (forall p j, 0 <= p < n -> 0 <= j < n -> h' (nb + p * n + j) =
         Some (if p =? i then omul (sqrt (fold_left (fun s j => oadd s (omul (f i j) (f i j))) (zrange n) o0)) (f p j) else f p j)) /\
      (forall z, ~ (nb <= z < nb + n * n) -> h' z = h z).
  Proof.
    intros sqrt nb n i f h Hi Hf. unfold null_row. set (N := tensor_ctor nb [n; n]).
    assert (MN : mat N n n n) by apply tc_mat.
    destruct (tdim2 _ _ _ _ MN) as (_ & -> & _).
    assert (AD : forall p j, addr N [p; j] = nb + p * n + j).
    { intros p j. apply (mat_addr N n n n); exact MN. }
    rewrite (forM_pure _ _ (zrange n) _ (fun s j => oadd s (omul (f i j) (f i j))) o0).
    2:{ intros j s Hj. apply zrange_in in Hj. unfold rd. rewrite AD, Hf by auto. reflexivity. }
    cbn [bind]. destruct MN as (D1 & D2 & D3).
    destruct (C22_scale_row_column O i (sqrt (fold_left (fun s j => oadd s (omul (f i j) (f i j))) (zrange n) o0)) N n n n 1
      (fun idx => f (nth 0 idx 0) (nth 1 idx 0)) h D1 D2 ltac:(lia) ltac:(lia) (rm_inj nb [n; n])) as (H & _).
    { apply rows_tc. auto. }
    destruct (H Hi) as (h' & E & V & F). exists h'. split; [exact E|]. split.
    - intros p j Hp Hj. rewrite <- AD. rewrite V by auto. reflexivity.
    - intros z Hz. apply F. intros HC. apply Hz. apply (tc_cell2 nb n n); [lia|lia|exact HC].
  Qed.

  Lemma null_rows_ok : forall sqrt nb n (f : Z -> Z -> T) h,
    0 <= n -> (forall p j, 0 <= p < n -> 0 <= j < n -> h (nb + p * n + j) = Some (f p j)) ->
    exists h', forM (zrange n) (null_row sqrt (tensor_ctor nb [n; n])) h = Ok h' /\
      (forall p j, 0 <= p < n -> 0 <= j < n -> h' (nb + p * n + j) =
         Some (omul (sqrt (fold_left (fun s j => oadd s (omul (f p j) (f p j))) (zrange n) o0)) (f p j))) /\
      (forall z, ~ (nb <= z < nb + n * n) -> h' z = h z).
  Proof.
    intros sqrt nb n f h Hn Hf.
    pose (sc := fun p j => omul (sqrt (fold_left (fun s j => oadd s (omul (f p j) (f p j))) (zrange n) o0)) (f p j)).
    destruct (forM_zrange_inv (heap T) (fun i h' =>
      (forall p j, 0 <= p < n -> 0 <= j < n -> h' (nb + p * n + j) = Some (if p <? i then sc p j else f p j)) /\
      (forall z, ~ (nb <= z < nb + n * n) -> h' z = h z)) (null_row sqrt (tensor_ctor nb [n; n])) n h Hn) as (h' & E & H1 & H2).
    - split; [|auto]. intros p j Hp Hj. destruct (Z.ltb_spec p 0); [lia|]. auto.
    - intros i s Hi (H1 & H2).
      destruct (null_row_ok sqrt nb n i (fun p j => if p <? i then sc p j else f p j) s Hi H1) as (s' & E & V & F).
      exists s'. split; [exact E|]. split.
      + intros p j Hp Hj. rewrite V by auto. rewrite Z.ltb_irrefl. f_equal.
        destruct (Z.eqb_spec p i) as [->|N].
        * rewrite Z.ltb_irrefl. destruct (Z.ltb_spec i (i + 1)); [reflexivity|lia].
        * destruct (Z.ltb_spec p i), (Z.ltb_spec p (i + 1)); auto; lia.
      + intros z Hz. rewrite F, H2 by auto. reflexivity.
    - exists h'. split; [exact E|]. split; [|exact H2]. intros p j Hp Hj. rewrite H1 by auto.
      destruct (Z.ltb_spec p n); [reflexivity|lia].
  Qed.
End Rows.

(** What is returned when the element behind [superb] can be written: all n rows
    of VT (not only those of the null space), each multiplied by its norm. *)
Theorem C120_value :
  forall (O : Ops) (sqrt : car O -> car O) (L : lapack) (A : desc) (m n ld base extra : Z)
         (a : list Z -> car O) (h : heap (car O)),
    2 <= m -> 2 <= n -> 1 <= extra -> mat A m n ld -> holds h A a -> (forall z, base <= z -> h z = None) ->
    (forall M, agree m n M (mx a) -> let '(info, _, _, _, _, _) := x_gesvd L m n M in info = 0) ->
    exists M N h' nv, agree m n M (mx a) /\
      la_svd_nullspace extra sqrt L A base h = Ok (N, h') /\ mat N n n n /\ holds h' N nv /\
      (let '(_, _, _, _, VT, _) := x_gesvd L m n M in
       forall i j, 0 <= i < n -> 0 <= j < n -> nv [i; j] =
         omul (sqrt (fold_left (fun s k => oadd s (omul (VT i k) (VT i k))) (zrange n) o0)) (VT i j)) /\
      (forall z, cell N z -> base <= z) /\ (forall z, z < base -> h' z = h z).
Proof.
  intros O sqrt L A m n ld base extra a h Hm Hn Hex MA HA Hfr HC.
  unfold la_svd_nullspace. destruct (tdim2 _ _ _ _ MA) as (-> & -> & _).
  destruct (copy2 _ o0 base A m n ld a h MA ltac:(lia) ltac:(lia) HA) as (h1 & E1 & C1 & F1 & _).
  { intros z Hz. apply Hfr. lia. }
  rewrite E1. cbn [bind].
  set (k := Z.min m n) in *. assert (Hk : 2 <= k) by lia. assert (Hkn : k <= n) by lia.
  set (pu := base + m * n). set (ps := pu + m * m). set (pv := ps + n). set (sb := pv + n * n).
  set (nb := sb + (k - 2 + extra)).
  assert (P1 : 0 <= m * n) by nia. assert (P2 : 0 <= m * m) by nia. assert (P3 : 0 <= n * n) by nia.
  destruct (set_zero _ o0 pu (m * m) h1) as (h2 & E2 & V2 & F2). rewrite E2. cbn [bind].
  destruct (set_zero _ o0 ps n h2) as (h3 & E3 & V3 & F3). rewrite E3. cbn [bind].
  destruct (set_zero _ o0 pv (n * n) h3) as (h4 & E4 & V4 & F4). rewrite E4. cbn [bind].
  destruct (Z.ltb_spec k 2) as [Hk2|_]; [lia|]. cbv zeta.
  set (h5 := alloc_buffer o0 sb (k - 2 + extra) h4).
  assert (V5 : forall z, sb <= z < sb + (k - 2 + extra) -> h5 z = Some o0).
  { intros z Hz. unfold h5. replace z with (sb + (z - sb)) by lia. apply alloc_buffer_cell. lia. }
  assert (F5 : forall z, ~ (sb <= z < sb + (k - 2 + extra)) -> h5 z = h4 z).
  { intros z Hz. unfold h5. apply alloc_buffer_other. auto. }
  clearbody h5.
  unfold vgesvd_n. fold k. cbn [dbase tensor_ctor].
  destruct (tdim2 _ _ _ _ (tc_mat base m n)) as (_ & _ & TS).
  change (tstride (mkDesc base [m; n] (row_major_strides [m; n])) 0) with (tstride (tensor_ctor base [m; n]) 0).
  rewrite TS.
  destruct (Z.ltb_spec n n); [lia|]. destruct (Z.ltb_spec m 1); [lia|].
  assert (R5 : forall i j, 0 <= i < m -> 0 <= j < n -> h5 (base + i * n + j) = Some (a [i; j])).
  { intros i j Hi Hj. assert (base <= base + i * n + j < base + m * n) by nia.
    rewrite F5, F4, F3, F2 by lia. apply (tc_rows _ _ _ _ _ _ C1); auto. }
  destruct (xpose_fread m n h5 base n (mx a) ltac:(lia) ltac:(lia) (Z.le_refl n) R5) as (at0 & M & EX & EM & AM & At).
  rewrite EX. cbn [bind]. rewrite EM. cbn [bind].
  specialize (HC M AM). exists M.
  destruct (x_gesvd L m n M) as [[[[[info A'] sv] U'] VT'] work]. subst info.
  destruct (fvwrite_ok k ps h5 sv) as (h6 & E6 & V6 & F6).
  { intros i Hi. rewrite F5, F4, V3 by lia. discriminate. }
  destruct (xpose_out m n at0 A' h6 base n ltac:(lia) ltac:(lia) (Z.le_refl n) At) as (at1 & h7 & E7 & E7' & _ & F7).
  { intros i j Hi Hj. assert (base <= base + i * n + j < base + m * n) by nia.
    rewrite F6 by lia. rewrite R5 by auto. discriminate. }
  rewrite E7. cbn [bind]. rewrite E6. cbn [bind].
  destruct (xpose_out n n (fresh_vec (Z.max 1 n * Z.max 1 n)) VT' h7 pv n ltac:(lia) ltac:(lia) (Z.le_refl n) (fresh_cells n n ltac:(lia) ltac:(lia)))
    as (vt & h8 & E8 & E8' & V8 & F8).
  { intros i j Hi Hj. assert (pv <= pv + i * n + j < pv + n * n) by nia.
    rewrite F7 by (intros HF; apply fcell_range in HF; lia). rewrite F6, F5, V4 by lia. discriminate. }
  rewrite E8. cbn [bind Z.ltb Z.compare]. rewrite E7'. cbn [bind]. rewrite E8'. cbn [bind].
  destruct (forM_store _ (fun i => work (i + 1)) (k - 1) sb h8 ltac:(lia)) as (h9 & E9 & _ & F9).
  { intros i Hi. rewrite F8 by (intros HF; apply fcell_range in HF; lia). rewrite F7 by (intros HF; apply fcell_range in HF; lia).
    rewrite F6, V5 by lia. discriminate. }
  rewrite E9. cbn [bind fst snd Z.eqb].
  assert (R9 : forall i j, 0 <= i < n -> 0 <= j < n -> h9 (pv + i * n + j) = Some (VT' i j)).
  { intros i j Hi Hj. assert (pv <= pv + i * n + j < pv + n * n) by nia. rewrite F9 by lia. apply V8; auto. }
  assert (W9 : forall z, sb + (k - 2 + extra) <= z -> h9 z = None).
  { intros z Hz. rewrite F9 by lia. rewrite F8 by (intros HF; apply fcell_range in HF; lia).
    rewrite F7 by (intros HF; apply fcell_range in HF; lia). rewrite F6, F5, F4, F3, F2, F1 by lia. apply Hfr. lia. }
  destruct (copy2 _ o0 nb (tensor_ctor pv [n; n]) n n n (fun idx => VT' (nth 0 idx 0) (nth 1 idx 0)) h9 (tc_mat pv n n)
     ltac:(lia) ltac:(lia) (rows_tc _ _ _ _ _ _ R9)) as (h10 & E10 & C10 & F10 & _).
  { intros z Hz. apply W9. unfold nb in Hz. lia. }
  change (mkDesc pv [n; n] (row_major_strides [n; n])) with (tensor_ctor pv [n; n]).
  rewrite E10. cbn [bind]. destruct (tdim2 _ _ _ _ (tc_mat nb n n)) as (-> & _).
  destruct (null_rows_ok sqrt nb n VT' h10 ltac:(lia)) as (h11 & E11 & V11 & F11).
  { intros i j Hi Hj. apply (tc_rows _ _ _ _ _ _ C10); auto. }
  rewrite E11. cbn [bind].
  exists (tensor_ctor nb [n; n]), h11,
    (fun idx => omul (sqrt (fold_left (fun s k => oadd s (omul (VT' (nth 0 idx 0) k) (VT' (nth 0 idx 0) k))) (zrange n) o0))
                     (VT' (nth 0 idx 0) (nth 1 idx 0))).
  split; [exact AM|]. split; [reflexivity|]. split; [apply tc_mat|]. split; [|split; [|split]].
  - apply (rows_tc _ nb n n h11 (fun i j => omul (sqrt (fold_left (fun s k => oadd s (omul (VT' i k) (VT' i k))) (zrange n) o0)) (VT' i j))).
    exact V11.
  - intros i j Hi Hj. reflexivity.
  - intros z Hz. apply tc_cell2 in Hz; lia.
  - intros z Hz. rewrite F11, F10, F9 by lia. rewrite F8 by (intros HF; apply fcell_range in HF; lia).
    rewrite F7 by (intros HF; apply fcell_range in HF; lia). rewrite F6, F5, F4, F3, F2, F1 by lia. reflexivity.
Qed.

(** ** The rows of VT and the null space *)
Section Kernel.
  Context {O : Ops}.
  Hypothesis HR : is_ring O.
  Notation T := (car O).
  Add Ring NullRing : (ir_rt O HR).

  Variables (m n : Z) (A U VT : Z -> Z -> T) (s : Z -> T).
  Hypothesis OU : orthogonal m U.
  Hypothesis OV : orthogonal n VT.
  Hypothesis EA : forall i j, 0 <= i < m -> 0 <= j < n ->
    A i j = zsum (Z.min m n) (fun k => omul (U i k) (omul (s k) (VT k j))).

  Lemma rows_orthonormal : orthonormal_rows n n VT.
  Proof. intros i k Hi Hk. apply (proj1 OV i k Hi Hk). Qed.

  Lemma norm_one : forall i, 0 <= i < n -> fold_left (fun s k => oadd s (omul (VT i k) (VT i k))) (zrange n) o0 = o1.
  Proof.
    intros i Hi. rewrite (fold_left_lsum O HR Z (zrange n) (fun k => omul (VT i k) (VT i k))).
    assert (E := rows_orthonormal i i Hi Hi). unfold zsum in E. rewrite E, Z.eqb_refl. ring.
  Qed.

  (** A x in terms of the coordinates VT x. *)
  Let D : Z -> Z -> T := fun k j => omul (s k) (VT k j).
  Let col (x : Z -> T) : Z -> Z -> T := fun j _ => x j.

  Lemma A_col : forall x p, 0 <= p < m ->
    zsum n (fun j => omul (A p j) (x j)) = mmul (Z.min m n) U (mmul n D (col x)) p 0.
  Proof.
    intros x p Hp. rewrite <- (mmul_assoc HR). unfold mmul at 1. apply zsum_ext. intros j Hj. unfold col at 1.
    f_equal. apply EA; auto.
  Qed.
  Lemma D_col : forall x k, mmul n D (col x) k 0 = omul (s k) (zsum n (fun j => omul (VT k j) (x j))).
  Proof.
    intros x k. unfold mmul, D, col, zsum. rewrite <- (lsum_mul_l O HR). apply lsum_ext. intros j _. ring.
  Qed.

  (** Coordinates of a vector of the null space. *)
  Lemma kernel_coord : forall x k, in_kernel m n A x -> 0 <= k < Z.min m n ->
    omul (s k) (zsum n (fun j => omul (VT k j) (x j))) = o0.
  Proof.
    intros x k HK Hk. rewrite <- D_col. set (Y := mmul n D (col x)).
    rewrite <- (mmul_ident_l HR (Z.min m n) 1 Y k 0 Hk ltac:(lia)).
    assert (E : mmul (Z.min m n) ident Y k 0 = mmul (Z.min m n) (mmul m (trn U) U) Y k 0).
    { apply (mmul_ext (Z.min m n) (Z.min m n) 1); try lia; [|apply agree_refl].
      intros i j Hi Hj. symmetry. apply (proj2 OU i j); lia. }
    rewrite E, (mmul_assoc HR). unfold mmul at 1. apply (zsum_zero O HR). intros p Hp. unfold Y. rewrite <- A_col by auto.
    rewrite HK by auto. ring.
  Qed.

  Lemma row_in_kernel : forall i, 0 <= i < n -> (i < Z.min m n -> s i = o0) -> in_kernel m n A (VT i).
  Proof.
    intros i Hi Hs p Hp. rewrite A_col by auto. unfold mmul at 1. apply (zsum_zero O HR). intros k Hk.
    rewrite D_col. assert (E := rows_orthonormal k i ltac:(lia) Hi). rewrite E.
    destruct (Z.eqb_spec k i) as [->|N]; [rewrite Hs by lia|]; ring.
  Qed.

  Lemma expand : forall x j, 0 <= j < n -> x j = zsum n (fun i => omul (zsum n (fun l => omul (VT i l) (x l))) (VT i j)).
  Proof.
    intros x j Hj. assert (E := mmul_ident_l HR n 1 (col x) j 0 Hj ltac:(lia)). unfold col at 2 in E. rewrite <- E. clear E.
    assert (E : mmul n ident (col x) j 0 = mmul n (mmul n (trn VT) VT) (col x) j 0).
    { apply (mmul_ext n n 1); try lia; [|apply agree_refl]. apply agree_sym. apply (proj2 OV). }
    rewrite E, (mmul_assoc HR). unfold mmul at 1. apply zsum_ext. intros i Hi. unfold trn. unfold mmul, col. ring.
  Qed.

  Hypothesis ND : forall a b : T, omul a b = o0 -> a = o0 \/ b = o0.
  Lemma tail_basis : forall r, 0 <= r <= Z.min m n ->
    (forall k, 0 <= k < r -> s k <> o0) -> (forall k, r <= k < Z.min m n -> s k = o0) ->
    null_basis m n A (n - r) (fun i => VT (r + i)).
  Proof.
    intros r Hr H1 H2. split; [|split].
    - intros i k Hi Hk. rewrite (rows_orthonormal (r + i) (r + k)) by lia.
      destruct (Z.eqb_spec (r + i) (r + k)), (Z.eqb_spec i k); auto; lia.
    - intros i Hi. apply row_in_kernel; [lia|]. intros. apply H2. lia.
    - intros x HK. exists (fun i => zsum n (fun l => omul (VT (r + i) l) (x l))). intros j Hj.
      rewrite (expand x j Hj) at 1.
      apply (zsum_window O HR n r (n - r) (fun i => omul (zsum n (fun l => omul (VT i l) (x l))) (VT i j))); try lia.
      intros p Hp Hnp. assert (Hp' : 0 <= p < r) by lia.
      destruct (ND _ _ (kernel_coord x p HK ltac:(lia))) as [Z0|Z0].
      + exfalso. apply (H1 p Hp' Z0).
      + rewrite Z0. ring.
  Qed.

  Lemma all_rows_zero : (forall i, 0 <= i < n -> in_kernel m n A (VT i)) -> forall p j, 0 <= p < m -> 0 <= j < n -> A p j = o0.
  Proof.
    intros HK p j Hp Hj. rewrite (expand (A p) j Hj). apply (zsum_zero O HR). intros i Hi.
    replace (zsum n (fun l => omul (VT i l) (A p l))) with (zsum n (fun l => omul (A p l) (VT i l))).
    2:{ apply zsum_ext. intros l Hl. ring. }
    rewrite (HK i Hi p Hp). ring.
  Qed.
End Kernel.

(** gesvd as LAPACK describes it. *)
Definition gesvd_contract {O : Ops} (lt : car O -> car O -> bool) (L : lapack) (m n : Z) (A : Z -> Z -> car O) : Prop :=
  let '(info, _, s, U, VT, _) := x_gesvd L m n A in info = 0 /\ svd_of lt m n A U s VT.

(** If the element behind [superb] can be written: the last n - r rows of what
    is returned are an orthonormal basis of the null space, r being the number
    of nonzero singular values. *)
Theorem C120_basis_partial :
  forall (O : Ops) (lt : car O -> car O -> bool) (sqrt : car O -> car O) (L : lapack) (A : desc) (m n ld base extra : Z)
         (a : list Z -> car O) (h : heap (car O)),
    is_ring O -> (forall x y : car O, omul x y = o0 -> x = o0 \/ y = o0) -> sqrt o1 = o1 ->
    2 <= m -> 2 <= n -> 1 <= extra -> mat A m n ld -> holds h A a -> (forall z, base <= z -> h z = None) ->
    (forall M, agree m n M (mx a) -> gesvd_contract lt L m n M) ->
    exists M N h' nv, agree m n M (mx a) /\
      la_svd_nullspace extra sqrt L A base h = Ok (N, h') /\ mat N n n n /\ holds h' N nv /\
      (let '(_, _, s, _, _, _) := x_gesvd L m n M in
       forall r, 0 <= r <= Z.min m n -> (forall k, 0 <= k < r -> s k <> o0) -> (forall k, r <= k < Z.min m n -> s k = o0) ->
       null_basis m n (mx a) (n - r) (fun i => mx nv (r + i))).
Proof.
  intros O lt sqrt L A m n ld base extra a h HR ND H1 Hm Hn Hex MA HA Hfr HC.
  destruct (C120_value O sqrt L A m n ld base extra a h Hm Hn Hex MA HA Hfr) as (M & N & h' & nv & AM & E & MN & HN & V & _).
  { intros M HM. specialize (HC M HM). unfold gesvd_contract in HC.
    destruct (x_gesvd L m n M) as [[[[[info A'] sv] U'] VT'] work]. apply HC. }
  exists M, N, h', nv. split; [exact AM|]. split; [exact E|]. split; [exact MN|]. split; [exact HN|].
  specialize (HC M AM). unfold gesvd_contract in HC.
  destruct (x_gesvd L m n M) as [[[[[info A'] sv] U'] VT'] work]. destruct HC as (_ & OU & OV & ES & _).
  intros r Hr S1 S2.
  assert (EA : forall i j, 0 <= i < m -> 0 <= j < n -> mx a i j = zsum (Z.min m n) (fun k => omul (U' i k) (omul (sv k) (VT' k j)))).
  { intros i j Hi Hj. rewrite <- AM by auto. apply ES; auto. }
  assert (EN : forall i j, 0 <= i < n -> 0 <= j < n -> mx nv i j = VT' i j).
  { intros i j Hi Hj. unfold mx. rewrite V by auto. rewrite (norm_one HR n VT' OV i Hi), H1.
    assert (R := ir_rt O HR). apply (Rmul_1_l R). }
  destruct (tail_basis HR m n (mx a) U' VT' sv OU OV EA ND r Hr S1 S2) as (B1 & B2 & B3).
  split; [|split].
  - intros i k Hi Hk. rewrite <- B1 by auto. apply zsum_ext. intros j Hj. cbv beta. rewrite !EN by lia. reflexivity.
  - intros i Hi p Hp. rewrite <- (B2 i Hi p Hp). apply zsum_ext. intros j Hj. cbv beta. rewrite EN by lia. reflexivity.
  - intros x HK. destruct (B3 x HK) as (c & Hc). exists c. intros j Hj. rewrite (Hc j Hj) at 1.
    apply zsum_ext. intros i Hi. cbv beta. rewrite EN by lia. reflexivity.
Qed.

(** All n rows are returned: for no matrix other than zero are they a basis of
    the null space. *)
Theorem C120_rows_refuted :
  forall (O : Ops) (lt : car O -> car O -> bool) (sqrt : car O -> car O) (L : lapack) (A : desc) (m n ld base extra : Z)
         (a : list Z -> car O) (h : heap (car O)),
    is_ring O -> sqrt o1 = o1 ->
    2 <= m -> 2 <= n -> 1 <= extra -> mat A m n ld -> holds h A a -> (forall z, base <= z -> h z = None) ->
    (forall M, agree m n M (mx a) -> gesvd_contract lt L m n M) ->
    (exists p j, 0 <= p < m /\ 0 <= j < n /\ a [p; j] <> o0) ->
    exists N h' nv, la_svd_nullspace extra sqrt L A base h = Ok (N, h') /\ mat N n n n /\ holds h' N nv /\
      ~ null_basis m n (mx a) n (mx nv).
Proof.
  intros O lt sqrt L A m n ld base extra a h HR H1 Hm Hn Hex MA HA Hfr HC (p & j & Hp & Hj & HNZ).
  destruct (C120_value O sqrt L A m n ld base extra a h Hm Hn Hex MA HA Hfr) as (M & N & h' & nv & AM & E & MN & HN & V & _).
  { intros M HM. specialize (HC M HM). unfold gesvd_contract in HC.
    destruct (x_gesvd L m n M) as [[[[[info A'] sv] U'] VT'] work]. apply HC. }
  exists N, h', nv. split; [exact E|]. split; [exact MN|]. split; [exact HN|].
  specialize (HC M AM). unfold gesvd_contract in HC.
  destruct (x_gesvd L m n M) as [[[[[info A'] sv] U'] VT'] work]. destruct HC as (_ & OU & OV & ES & _).
  assert (EN : forall i j, 0 <= i < n -> 0 <= j < n -> mx nv i j = VT' i j).
  { intros i l Hi Hl. unfold mx. rewrite V by auto. rewrite (norm_one HR n VT' OV i Hi), H1.
    assert (R := ir_rt O HR). apply (Rmul_1_l R). }
  intros (_ & B2 & _). apply HNZ. change (mx a p j = o0).
  apply (all_rows_zero HR m n (mx a) VT' OV); auto.
  intros i Hi q Hq. rewrite <- (B2 i Hi q Hq). apply zsum_ext. intros l Hl. rewrite EN by lia. reflexivity.
Qed.

(** A 2 x 3 matrix of rank one. *)
Definition idm (i j : Z) : Z := if i =? j then 1 else 0.
Definition Lnull : @lapack ZOps := Lsvd 0 idm (fun k => if k =? 0 then 2 else 0) idm.
Definition anull (i : list Z) : Z := if (nth 0 i 0 =? 0) && (nth 1 i 0 =? 0) then 2 else 0.
Definition hnull : heap Z := buf 0 [2; 0; 0; 0; 0; 0].
Lemma small3 : forall i, 0 <= i < 3 -> i = 0 \/ i = 1 \/ i = 2.
Proof. lia. Qed.
Lemma small2 : forall i, 0 <= i < 2 -> i = 0 \/ i = 1.
Proof. lia. Qed.
Lemma Lnull_contract : forall M, agree (O := ZOps) 2 3 M (mx (O := ZOps) anull) -> gesvd_contract (O := ZOps) Z.ltb Lnull 2 3 M.
Proof.
  intros M HM. unfold gesvd_contract, Lnull, Lsvd. cbn [x_gesvd]. split; [reflexivity|].
  split; [|split; [|split; [|split]]].
  - split; intros i j Hi Hj; apply small2 in Hi as [-> | ->]; apply small2 in Hj as [-> | ->]; reflexivity.
  - split; intros i j Hi Hj; apply small3 in Hi as [-> | [-> | ->]]; apply small3 in Hj as [-> | [-> | ->]]; reflexivity.
  - intros i j Hi Hj. rewrite HM by auto. apply small2 in Hi as [-> | ->]; apply small3 in Hj as [-> | [-> | ->]]; reflexivity.
  - intros k Hk. change (Z.min 2 3) with 2 in Hk. apply small2 in Hk as [-> | ->]; reflexivity.
  - intros k Hk. change (Z.min 2 3 - 1) with 1 in Hk. replace k with 0 by lia. reflexivity.
Qed.
Example C120_case :
  mat (tensor_ctor 0 [2; 3]) 2 3 3 /\ holds hnull (tensor_ctor 0 [2; 3]) anull /\
  (forall z, 100 <= z -> hnull z = None) /\
  (forall M, agree (O := ZOps) 2 3 M (mx (O := ZOps) anull) -> gesvd_contract (O := ZOps) Z.ltb Lnull 2 3 M) /\
  match la_svd_nullspace (O := ZOps) 1 (fun v => v) Lnull (tensor_ctor 0 [2; 3]) 100 hnull with
  | Ok (N, h') => map (fun idx => h' (addr N idx)) (indices (ddims N)) = map Some [1; 0; 0; 0; 1; 0; 0; 0; 1]
  | _ => False
  end /\
  la_svd_nullspace (O := ZOps) 0 (fun v => v) Lnull (tensor_ctor 0 [2; 3]) 100 hnull = UB /\
  null_basis (O := ZOps) 2 3 (mx (O := ZOps) anull) 2 (fun i => idm (1 + i)) /\
  ~ null_basis (O := ZOps) 2 3 (mx (O := ZOps) anull) 3 idm.
Proof.
  split; [apply tc_mat|]. split.
  { intros idx Hi. apply inb2_inv in Hi as (i & j & -> & Hi & Hj).
    apply small2 in Hi as [-> | ->]; apply small3 in Hj as [-> | [-> | ->]]; reflexivity. }
  split.
  { intros z Hz. unfold hnull, buf. destruct (Z.leb_spec 0 z); [|lia].
    cbn [andb]. destruct (Z.ltb_spec z (0 + Z.of_nat (length [2; 0; 0; 0; 0; 0]))) as [Hl|_]; [cbn in Hl; lia|reflexivity]. }
  split; [exact Lnull_contract|].
  split; [vm_compute; reflexivity|]. split; [vm_compute; reflexivity|].
  split.
  - split; [|split].
    + intros i k Hi Hk. apply small2 in Hi as [-> | ->]; apply small2 in Hk as [-> | ->]; reflexivity.
    + intros i Hi p Hp. apply small2 in Hi as [-> | ->]; apply small2 in Hp as [-> | ->]; reflexivity.
    + intros x HK. exists (fun i => x (1 + i)). intros j Hj.
      assert (K := HK 0 ltac:(lia)). change (2 * x 0 + (0 * x 1 + (0 * x 2 + 0)) = 0) in K.
      apply small3 in Hj as [-> | [-> | ->]];
        [change (x 0 = x 1 * 0 + (x 2 * 0 + 0))|change (x 1 = x 1 * 1 + (x 2 * 0 + 0))|change (x 2 = x 1 * 0 + (x 2 * 1 + 0))]; lia.
  - intros (_ & B & _). specialize (B 0 ltac:(lia) 0 ltac:(lia)). vm_compute in B. discriminate.
Qed.

Print Assumptions C120_overflow_refuted.
Print Assumptions C120_value.
Print Assumptions C120_basis_partial.
Print Assumptions C120_rows_refuted.
Print Assumptions C120_case.
