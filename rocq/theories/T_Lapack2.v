(** * T_Lapack2: theorems about SVD, QR, the Lyapunov solver and geev (C61-C64). *)
From Coq Require Import List ZArith Lia Bool Ring.
From Verif Require Import Base Heap Conc M_Addr L_Addr M_Elt L_Elt M_Einsum S_Einsum M_Blas S_Blas L_Blas
  M_Lapack S_Lapack L_Lapack T_Blas T_Lapack.
Import ListNotations.
Open Scope Z_scope.

Lemma fcell_range : forall a c r z, 0 <= c -> fcell a c r c z -> a <= z < a + r * c.
Proof. intros a c r z Hc (i & j & Hi & Hj & ->). nia. Qed.
Lemma set_zero : forall T (zero : T) b n (h : heap T), exists h',
  set_all b n zero (alloc_buffer zero b n h) = Ok h' /\
  (forall z, b <= z < b + n -> h' z = Some zero) /\ (forall z, ~ (b <= z < b + n) -> h' z = h z).
Proof.
  intros T zero b n h. destruct (set_all_spec T b n zero (alloc_buffer zero b n h)) as (h' & E & V & F).
  - intros k Hk. exists zero. apply alloc_buffer_cell. lia.
  - exists h'. split; auto. split.
    + intros z Hz. rewrite <- (V (z - b)) by lia. f_equal. lia.
    + intros z Hz. rewrite F by auto. apply alloc_buffer_other. auto.
Qed.
Lemma tc_rows : forall T b r c (h : heap T) a, holds h (tensor_ctor b [r; c]) a ->
  forall i j, 0 <= i < r -> 0 <= j < c -> h (b + i * c + j) = Some (a [i; j]).
Proof. intros T b r c h a H i j Hi Hj. apply (mat_holds T h (tensor_ctor b [r; c]) r c c a (tc_mat b r c) H i j Hi Hj). Qed.
Lemma rows_tc : forall T b r c (h : heap T) (f : Z -> Z -> T),
  (forall i j, 0 <= i < r -> 0 <= j < c -> h (b + i * c + j) = Some (f i j)) ->
  holds h (tensor_ctor b [r; c]) (fun idx => f (nth 0 idx 0) (nth 1 idx 0)).
Proof. intros. apply (holds_mat T h (tensor_ctor b [r; c]) r c c f (tc_mat b r c)). auto. Qed.
Lemma cells_tc1 : forall T b n (h : heap T) (f : Z -> T),
  (forall i, 0 <= i < n -> h (b + i) = Some (f i)) ->
  holds h (tensor_ctor b [n]) (fun idx => f (nth 0 idx 0)).
Proof.
  intros T b n h f H idx Hi. apply inb1_inv in Hi as (i & -> & Hi). rewrite (vect_addr _ n 1) by apply tc_vect.
  simpl. rewrite <- H by auto. f_equal. lia.
Qed.

(** C61.  svd_dd: for every m x n matrix (any leading stride) on which LAPACK
    converges, U and Vt are orthogonal, S descending and nonnegative, and
    A = U diag(S) Vt. *)
Theorem C61_svd_dd_partial :
  forall (O : Ops) (lt : car O -> car O -> bool) (L : lapack) (A : desc) (m n ld base : Z)
         (a : list Z -> car O) (h : heap (car O)),
    0 <= m -> 0 <= n -> mat A m n ld -> holds h A a ->
    (forall M, agree m n M (mx a) ->
       gesdd_contract lt L m n M /\ fst (fst (fst (fst (x_gesdd L m n M)))) = 0) ->
    (forall z, base <= z < base + m * n + m * m + Z.min m n + n * n -> h z = None) ->
    exists U S Vt h' u s v, la_svd_dd L A base h = Ok (U, S, Vt, h') /\
      mat U m m m /\ vect S (Z.min m n) 1 /\ mat Vt n n n /\
      holds h' U u /\ holds h' S s /\ holds h' Vt v /\
      svd_of lt m n (mx a) (mx u) (fun k => s [k]) (mx v) /\
      (forall z, cell U z \/ cell S z \/ cell Vt z -> base <= z < base + m * n + m * m + Z.min m n + n * n) /\
      (forall z, ~ (base <= z < base + m * n + m * m + Z.min m n + n * n) -> h' z = h z).
Proof.
  intros O lt L A m n ld base a h Hm Hn MA HA HC Hfr.
  unfold la_svd_dd. destruct (tdim2 _ _ _ _ MA) as (-> & -> & _).
  destruct (copy2 _ o0 base A m n ld a h MA Hm Hn HA) as (h1 & E1 & C1 & F1 & _).
  { intros z Hz. apply Hfr. nia. }
  rewrite E1. cbn [bind].
  set (pu := base + m * n). set (ps := pu + m * m). set (pv := ps + Z.min m n).
  set (k := Z.min m n) in *. assert (Hk : 0 <= k) by lia.
  assert (P1 : 0 <= m * n) by nia. assert (P2 : 0 <= m * m) by nia. assert (P3 : 0 <= n * n) by nia.
  destruct (set_zero _ o0 pu (m * m) h1) as (h2 & E2 & V2 & F2). rewrite E2. cbn [bind].
  destruct (set_zero _ o0 ps k h2) as (h3 & E3 & V3 & F3). rewrite E3. cbn [bind].
  destruct (set_zero _ o0 pv (n * n) h3) as (h4 & E4 & V4 & F4). rewrite E4. cbn [bind].
  unfold vgesdd. fold k. rewrite !Z.ltb_irrefl. cbn [dbase tensor_ctor].
  assert (R4 : forall i j, 0 <= i < m -> 0 <= j < n -> h4 (base + i * n + j) = Some (a [i; j])).
  { intros i j Hi Hj. assert (base <= base + i * n + j < base + m * n) by nia.
    rewrite F4, F3, F2 by lia. apply (tc_rows _ _ _ _ _ _ C1); auto. }
  destruct (xpose_fread m n h4 base n (mx a) Hm Hn (Z.le_refl n) R4) as (at0 & M & EX & EM & AM & At). 
  rewrite EX. cbn [bind]. rewrite EM. cbn [bind].
  destruct (HC M AM) as (CC & C0). unfold gesdd_contract in CC.
  destruct (x_gesdd L m n M) as [[[[info A'] sv] U'] VT']. cbn [fst] in C0. subst info.
  destruct (CC eq_refl) as (OU & OV & ES & NS & DS). clear CC.
  destruct (fvwrite_ok k ps h4 sv) as (h5 & E5 & V5 & F5).
  { intros i Hi. rewrite F4, V3 by lia. discriminate. }
  destruct (xpose_out m n at0 A' h5 base n Hm Hn (Z.le_refl n) At) as (at1 & h6 & E6 & E6' & _ & F6).
  { intros i j Hi Hj. assert (base <= base + i * n + j < base + m * n) by nia.
    rewrite F5 by lia. rewrite R4 by auto. discriminate. }
  rewrite E6. cbn [bind]. rewrite E5. cbn [bind].
  destruct (xpose_out m m (fresh_vec (Z.max 1 m * Z.max 1 m)) U' h6 pu m Hm Hm (Z.le_refl m) (fresh_cells m m Hm Hm))
    as (ut & h7 & E7 & E7' & V7 & F7).
  { intros i j Hi Hj. assert (pu <= pu + i * m + j < pu + m * m) by nia.
    rewrite F6. - rewrite F5, F4, F3, V2 by lia. discriminate.
    - intros HF. apply fcell_range in HF; lia. }
  rewrite E7. cbn [bind].
  destruct (xpose_out n n (fresh_vec (Z.max 1 n * Z.max 1 n)) VT' h7 pv n Hn Hn (Z.le_refl n) (fresh_cells n n Hn Hn))
    as (vt & h8 & E8 & E8' & V8 & F8).
  { intros i j Hi Hj. assert (pv <= pv + i * n + j < pv + n * n) by nia.
    rewrite F7. - rewrite F6. + rewrite F5, V4 by lia. discriminate.
      + intros HF. apply fcell_range in HF; lia.
    - intros HF. apply fcell_range in HF; lia. }
  rewrite E8. cbn [bind]. rewrite E6'. cbn [bind]. rewrite E7'. cbn [bind]. rewrite E8'. cbn [bind fst snd Z.eqb].
  exists (tensor_ctor pu [m; m]), (tensor_ctor ps [k]), (tensor_ctor pv [n; n]), h8,
    (fun idx => U' (nth 0 idx 0) (nth 1 idx 0)), (fun idx => sv (nth 0 idx 0)), (fun idx => VT' (nth 0 idx 0) (nth 1 idx 0)).
  split; [reflexivity|]. split; [apply tc_mat|]. split; [apply tc_vect|]. split; [apply tc_mat|].
  split; [|split; [|split; [|split; [|split]]]].
  - apply rows_tc. intros i j Hi Hj. assert (pu <= pu + i * m + j < pu + m * m) by nia.
    rewrite F8; auto. intros HF. apply fcell_range in HF; lia.
  - apply cells_tc1. intros i Hi.
    rewrite F8 by (intros HF; apply fcell_range in HF; lia). rewrite F7 by (intros HF; apply fcell_range in HF; lia).
    rewrite F6 by (intros HF; apply fcell_range in HF; lia). apply V5. auto.
  - apply rows_tc. auto.
  - split; [exact OU|]. split; [exact OV|]. split; [|split; [exact NS|exact DS]].
    intros i j Hi Hj. rewrite <- AM by auto. cbn [nth]. apply ES; auto.
  - intros z [Hz|[Hz|Hz]]; [apply tc_cell2 in Hz|apply tc_cell1 in Hz|apply tc_cell2 in Hz]; lia.
  - intros z Hr. rewrite F8 by (intros HF; apply fcell_range in HF; lia). rewrite F7 by (intros HF; apply fcell_range in HF; lia).
    rewrite F6 by (intros HF; apply fcell_range in HF; lia). rewrite F5, F4, F3, F2, F1 by lia. auto.
Qed.

(** svd: [superb] is one element too short: whatever the matrix and whatever
    LAPACK returns, the call does not return (it throws for a single row or
    column and writes behind the buffer otherwise). *)
Lemma forM_none : forall X T (l : list X) (body : X -> heap T -> res (heap T)) h h' z,
  (forall x h h', body x h = Ok h' -> h z = None -> h' z = None) ->
  forM l body h = Ok h' -> h z = None -> h' z = None.
Proof.
  induction l as [|x l IH]; intros body h h' z HB E Hz; simpl in E.
  - injection E as <-. auto.
  - destruct (body x h) as [h1| |] eqn:E1; try discriminate. simpl in E. eapply IH; eauto.
Qed.
Lemma wr_none : forall T (h h' : heap T) a v z, wr h a v = Ok h' -> h z = None -> h' z = None.
Proof.
  intros T h h' a v z E Hz. unfold wr in E. destruct (h a) eqn:Ea; try discriminate. injection E as <-.
  rewrite upd_other; auto. congruence.
Qed.
Lemma fwrite_none : forall (O : Ops) m n a ld f (h h' : heap (car O)) z,
  fwrite m n a ld f h = Ok h' -> h z = None -> h' z = None.
Proof.
  intros O m n a ld f h h' z. unfold fwrite. apply forM_none. intros x h1 h2 E Hz. cbv beta in E. eapply wr_none; [exact E|exact Hz].
Qed.
Lemma xpose_none : forall (O : Ops) x y hin pin ldin pout ldout (h h' : heap (car O)) z,
  xpose x y hin pin ldin pout ldout h = Ok h' -> h z = None -> h' z = None.
Proof.
  intros O x y hin pin ldin pout ldout h h' z. unfold xpose. apply forM_none. intros ij h1 h2 E Hz.
  cbv beta zeta in E. destruct (rd _ _); try discriminate. cbn [bind] in E. eapply wr_none; [exact E|exact Hz].
Qed.
Lemma forM_wr_ub : forall T n p f (h h' : heap T) i,
  0 <= i < n -> h (p + i) = None -> forM (zrange n) (fun i h => wr h (p + i) (f i)) h <> Ok h'.
Proof.
  intros T n p f h h' i Hi Hz E.
  assert (Hin : In i (zrange n)) by (now apply zrange_in).
  apply in_split in Hin as (l1 & l2 & El). rewrite El, forM_app in E.
  destruct (forM l1 _ h) as [h1| |] eqn:E1; try discriminate. simpl in E.
  assert (H1 : h1 (p + i) = None).
  { eapply forM_none; [|exact E1|exact Hz]. intros x ha hb Eb Hb. cbv beta in Eb. eapply wr_none; [exact Eb|exact Hb]. }
  unfold wr at 1 in E. rewrite H1 in E. discriminate.
Qed.

Theorem C61_svd_refuted :
  forall (O : Ops) (L : lapack) (A : desc) (m n ld base : Z) (a : list Z -> car O) (h : heap (car O)) r,
    0 < m -> 0 < n -> mat A m n ld -> holds h A a -> (forall z, base <= z -> h z = None) ->
    la_svd L A base h <> Ok r.
Proof.
  intros O L A m n ld base a h r Hm Hn MA HA Hfr.
  unfold la_svd. destruct (tdim2 _ _ _ _ MA) as (-> & -> & _).
  destruct (copy2 _ o0 base A m n ld a h MA ltac:(lia) ltac:(lia) HA) as (h1 & E1 & C1 & F1 & _).
  { intros z Hz. apply Hfr. lia. }
  rewrite E1. cbn [bind].
  set (pu := base + m * n). set (ps := pu + m * m). set (pv := ps + Z.min m n). set (sb := pv + n * n).
  set (k := Z.min m n) in *. assert (Hk : 0 < k) by lia.
  assert (P1 : 0 <= m * n) by nia. assert (P2 : 0 <= m * m) by nia. assert (P3 : 0 <= n * n) by nia.
  destruct (set_zero _ o0 pu (m * m) h1) as (h2 & E2 & V2 & F2). rewrite E2. cbn [bind].
  destruct (set_zero _ o0 ps k h2) as (h3 & E3 & V3 & F3). rewrite E3. cbn [bind].
  destruct (set_zero _ o0 pv (n * n) h3) as (h4 & E4 & V4 & F4). rewrite E4. cbn [bind].
  destruct (Z.ltb_spec k 2) as [Hk2|Hk2]; [discriminate|].
  destruct (set_zero _ o0 sb (k - 2) h4) as (h5 & E5 & V5 & F5). rewrite E5. cbn [bind].
  assert (N5 : h5 (sb + (k - 2)) = None). { rewrite F5, F4, F3, F2, F1 by lia. apply Hfr. lia. }
  clearbody pu ps pv. intros E. revert E. unfold vgesvd. fold k.
  destruct (tstride _ 0 <? n); [discriminate|]. destruct (m <? m); [discriminate|]. destruct (n <? n); [discriminate|].
  destruct (xpose_row _ _ _ _ _ _ _ _) as [at0| |]; try discriminate. cbn [bind].
  destruct (fread _ _ _ _ at0) as [M| |]; try discriminate. cbn [bind].
  destruct (x_gesvd L m n M) as [[[[[info A'] sv] U'] VT'] work].
  destruct (fwrite _ _ _ _ A' at0) as [at1| |]; try discriminate. cbn [bind].
  destruct (fvwrite k ps sv h5) as [h6| |] eqn:E6; try discriminate. cbn [bind].
  destruct (fwrite _ _ _ _ U' _) as [ut| |]; try discriminate. cbn [bind].
  destruct (fwrite _ _ _ _ VT' _) as [vt| |]; try discriminate. cbn [bind].
  destruct (info <? 0); [discriminate|].
  destruct (xpose_col m n at1 _ _ _ _ h6) as [h7| |] eqn:E7; try discriminate. cbn [bind].
  destruct (xpose_col m m ut _ _ _ _ h7) as [h8| |] eqn:E8; try discriminate. cbn [bind].
  destruct (xpose_col n n vt _ _ _ _ h8) as [h9| |] eqn:E9; try discriminate. cbn [bind].
  assert (N9 : h9 (sb + (k - 2)) = None).
  { eapply xpose_none; [exact E9|]. eapply xpose_none; [exact E8|]. eapply xpose_none; [exact E7|].
    eapply fwrite_none; [exact E6|]. exact N5. }
  destruct (forM (zrange (k - 1)) _ h9) as [h10| |] eqn:E10; try discriminate.
  exfalso. revert E10. apply (forM_wr_ub _ _ sb (fun i => work (i + 1)) h9 h10 (k - 2)); [lia|auto].
Qed.

(** svd_dd: a failure to converge is not reported. *)
Definition Lsvd (info : Z) (U : Z -> Z -> Z) (s : Z -> Z) (V : Z -> Z -> Z) : @lapack ZOps :=
  @mkLapack ZOps (fun m n A => (0, A, [])) (fun n A p => (0, A)) (fun n k A B => (0, A, B))
    (fun n A => (0, A, s)) (fun m n A => (info, A, s, U, V))
    (fun m n A => (info, A, s, U, V, fun _ => 0)) (fun m n A => (0, A, fun _ => 0))
    (fun m n k A t => (0, A)) (fun n A => (0, A, fun _ => 0, fun _ => 0, A))
    (fun m n A B C => (0, C, 1)) (fun n A => (0, A, fun _ => 0, A, A)).
Theorem C61_no_convergence_refuted :
  exists (L : lapack) (A : desc) (a : list Z -> Z) (h : heap Z),
    mat A 2 2 2 /\ @holds Z h A a /\
    (forall M, gesdd_contract (O := ZOps) Z.ltb L 2 2 M /\ 0 < fst (fst (fst (fst (x_gesdd L 2 2 M))))) /\
    exists U Sg Vt h', la_svd_dd (O := ZOps) L A 100 h = Ok (U, Sg, Vt, h').
Proof.
  set (L := Lsvd 1 (fun _ _ => 0) (fun _ => 0) (fun _ _ => 0)).
  exists L, (tensor_ctor 0 [2; 2]), (fun i => 2 * nth 0 i 0 + nth 1 i 0 + 1), (buf 0 [1; 2; 3; 4]).
  split; [apply tc_mat|]. split; [|split].
  - intros idx Hi. apply inb2_inv in Hi as (i & j & -> & Hi & Hj). two i Hi; two j Hj; reflexivity.
  - intros M. unfold gesdd_contract. simpl. split; [discriminate|lia].
  - destruct (la_svd_dd (O := ZOps) L (tensor_ctor 0 [2; 2]) 100 (buf 0 [1; 2; 3; 4])) as [[[[U Sg] Vt] h']| |] eqn:E;
      [eauto| |]; vm_compute in E; discriminate.
Qed.

(** [[0, 2, 0], [-3, 0, 0]] = I diag(3,2) ... with signed permutations. *)
Definition Usvd (i j : Z) : Z := if i =? j then 0 else if i =? 0 then 1 else -1.
Definition Vsvd (i j : Z) : Z := if (i =? j) then 1 else 0.
Lemma Lsvd_contract : forall M, @agree ZOps 2 3 M (mx (O := ZOps) (fun i =>
    nth (Z.to_nat (3 * nth 0 i 0 + nth 1 i 0)) [0; 2; 0; -3; 0; 0] 0)) ->
  gesdd_contract (O := ZOps) Z.ltb (Lsvd 0 Usvd (fun k => 3 - k) Vsvd) 2 3 M.
Proof.
  intros M HM. unfold gesdd_contract. cbn [Lsvd x_gesdd]. intros _.
  assert (T3 : forall i, 0 <= i < 3 -> i = 0 \/ i = 1 \/ i = 2) by lia.
  split; [|split; [|split; [|split]]].
  - split; intros i j Hi Hj; two i Hi; two j Hj; reflexivity.
  - split; intros i j Hi Hj; destruct (T3 i Hi) as [-> | [-> | ->]]; destruct (T3 j Hj) as [-> | [-> | ->]]; reflexivity.
  - intros i j Hi Hj. rewrite HM by auto. two i Hi; destruct (T3 j Hj) as [-> | [-> | ->]]; reflexivity.
  - intros k Hk. two k Hk; reflexivity.
  - intros k Hk. assert (k = 0) by lia. subst. reflexivity.
Qed.
Example C61_case :
  match la_svd_dd (O := ZOps) (Lsvd 0 Usvd (fun k => 3 - k) Vsvd) (mkDesc 0 [2; 3] [4; 1]) 100
          (buf 0 [0; 2; 0; 77; -3; 0; 0]) with
  | Ok (U, Sg, Vt, h') =>
      map (fun i => h' (addr U i)) (indices [2; 2]) = map Some [0; 1; -1; 0] /\
      map (fun i => h' (addr Sg i)) (indices [2]) = map Some [3; 2] /\
      map (fun i => h' (addr Vt i)) (indices [3; 3]) = map Some [1; 0; 0; 0; 1; 0; 0; 0; 1] /\
      map h' [0; 1; 2; 3; 4; 5; 6] = map Some [0; 2; 0; 77; -3; 0; 0]
  | _ => False end.
Proof. repeat split; reflexivity. Qed.

(** C62.  qr followed by q on a square matrix with any leading stride: Q is
    orthogonal, and A = Q R with R the upper triangle of what qr returns. *)
Theorem C62_qr_partial :
  forall (O : Ops) (L : lapack) (A : desc) (n ld base base' : Z) (a : list Z -> car O) (h : heap (car O)),
    0 <= n -> mat A n n ld -> holds h A a ->
    (forall M, agree n n M (mx a) -> qr_contract L n M) ->
    (forall z, base <= z < base + n * n + n -> h z = None) ->
    base + n * n + n <= base' -> (forall z, base' <= z < base' + n * n -> h z = None) ->
    exists F tau Q h1 h2 f q,
      la_qr L A base h = Ok (F, tau, h1) /\ la_q L F tau base' h1 = Ok (Q, h2) /\
      ddims F = [n; n] /\ ddims Q = [n; n] /\ holds h2 F f /\ holds h2 Q q /\
      orthogonal n (mx q) /\ agree n n (mx a) (mmul n (mx q) (upper (mx f))) /\
      (forall z, h z <> None -> h2 z = h z).
Proof.
  intros O L A n ld base base' a h Hn MA HA HC Hfr Hb Hfr'.
  unfold la_qr. destruct (tdim2 _ _ _ _ MA) as (-> & -> & _).
  assert (P1 : 0 <= n * n) by nia.
  destruct (copy2 _ o0 base A n n ld a h MA Hn Hn HA) as (h1 & E1 & C1 & F1 & _).
  { intros z Hz. apply Hfr. lia. }
  rewrite E1. cbn [bind]. rewrite Z.min_id. cbn [dbase tensor_ctor].
  set (pt := base + n * n). set (h2 := alloc_buffer o0 pt n h1).
  assert (R2 : forall i j, 0 <= i < n -> 0 <= j < n -> h2 (base + i * n + j) = Some (a [i; j])).
  { intros i j Hi Hj. assert (base <= base + i * n + j < base + n * n) by nia. unfold h2.
    rewrite alloc_buffer_other by lia. apply (tc_rows _ _ _ _ _ _ C1); auto. }
  unfold vgeqrf. rewrite Z.ltb_irrefl, Z.min_id.
  destruct (xpose_fread n n h2 base n (mx a) Hn Hn (Z.le_refl n) R2) as (at0 & M & EX & EM & AM & At).
  rewrite EX. cbn [bind]. rewrite EM. cbn [bind].
  specialize (HC M AM). unfold qr_contract in HC.
  destruct (x_geqrf L n n M) as [[info F] tv]. destruct HC as (-> & HC).
  destruct (fvwrite_ok n pt h2 tv) as (h3 & E3 & V3 & F3).
  { intros i Hi. unfold h2. rewrite alloc_buffer_cell by lia. discriminate. }
  destruct (xpose_out n n at0 F h3 base n Hn Hn (Z.le_refl n) At) as (at1 & h4 & E4 & E4' & V4 & F4).
  { intros i j Hi Hj. assert (base <= base + i * n + j < base + n * n) by nia.
    rewrite F3 by lia. rewrite R2 by auto. discriminate. }
  rewrite E4. cbn [bind]. rewrite E3. cbn [bind Z.ltb Z.compare]. rewrite E4'. cbn [bind fst snd Z.eqb].
  set (dF := tensor_ctor base [n; n]). set (dt := tensor_ctor pt [n]).
  set (f := fun idx => F (nth 0 idx 0) (nth 1 idx 0)).
  assert (HF4 : holds h4 dF f) by (apply rows_tc; auto).
  assert (Out4 : forall z, ~ (base <= z < base + n * n) -> ~ (pt <= z < pt + n) -> h4 z = h1 z).
  { intros z Hz1 Hz2. rewrite F4 by (intros HF; apply fcell_range in HF; lia). rewrite F3 by auto.
    unfold h2. apply alloc_buffer_other. auto. }
  destruct (copy2 _ o0 base' dF n n n f h4 (tc_mat base n n) Hn Hn HF4) as (h5 & E5 & C5 & F5 & _).
  { intros z Hz. rewrite Out4 by lia. rewrite F1 by lia. apply Hfr'. lia. }
  assert (R5 : forall i j, 0 <= i < n -> 0 <= j < n -> h5 (base' + i * n + j) = Some (F i j)).
  { intros i j Hi Hj. apply (tc_rows _ _ _ _ _ _ C5); auto. }
  destruct (xpose_fread n n h5 base' n F Hn Hn (Z.le_refl n) R5) as (qt0 & M' & EX' & EM' & AM' & At').
  destruct (fvread_ok n pt h5 tv) as (tv' & ET & AT).
  { intros i Hi. rewrite F5 by lia. rewrite F4 by (intros HF; apply fcell_range in HF; lia). auto. }
  specialize (HC M' tv' AM' AT).
  destruct (x_orgqr L n n n M' tv') as [info2 Q] eqn:EQ. destruct HC as (-> & HO & HM).
  destruct (xpose_out n n qt0 Q h5 base' n Hn Hn (Z.le_refl n) At') as (qt1 & h6 & E6 & E6' & V6 & F6).
  { intros i j Hi Hj. rewrite R5 by auto. discriminate. }
  exists dF, dt, (tensor_ctor base' [n; n]), h4, h6, f, (fun idx => Q (nth 0 idx 0) (nth 1 idx 0)).
  split; [reflexivity|]. split.
  { unfold la_q. change (tdim dF 1) with n. change (tdim dF 0) with n. rewrite E5. cbn [bind].
    cbn [dbase tensor_ctor]. change (dbase dt) with pt. unfold vorgqr. rewrite Z.ltb_irrefl.
    rewrite (proj2 (Z.ltb_ge n 0)) by lia. cbn [orb].
    rewrite EX'. cbn [bind]. rewrite EM'. cbn [bind]. rewrite ET. cbn [bind]. rewrite EQ.
    rewrite E6. cbn [bind Z.ltb Z.compare]. rewrite E6'. reflexivity. }
  split; [reflexivity|]. split; [reflexivity|]. split; [|split; [|split; [|split]]].
  - intros idx Hi. assert (Hz : cell dF (addr dF idx)) by (exists idx; auto). apply tc_cell2 in Hz; try lia.
    rewrite F6 by (intros HF; apply fcell_range in HF; lia). rewrite F5 by lia. apply HF4. auto.
  - apply rows_tc. auto.
  - exact HO.
  - intros i j Hi Hj. rewrite <- AM by auto. apply HM; auto.
  - intros z Hz. assert (Hr : ~ (base <= z < base + n * n + n)). { intros Hr. apply Hz, Hfr. auto. }
    assert (Hr' : ~ (base' <= z < base' + n * n)). { intros Hr'. apply Hz, Hfr'. auto. }
    rewrite F6 by (intros HF; apply fcell_range in HF; lia). rewrite F5, Out4, F1 by lia. auto.
Qed.

(** q of a factorisation with more rows than columns: LAPACK is called with
    k > n and rejects the arguments (the program stops), whatever the data. *)
Theorem C62_tall_refuted :
  forall (O : Ops) (L : lapack) (F tau : desc) (p m ld base : Z) (f : list Z -> car O) (h : heap (car O)),
    0 < m < p -> mat F p m ld -> holds h F f -> (forall z, base <= z < base + p * m -> h z = None) ->
    la_q L F tau base h = Throw.
Proof.
  intros O L F tau p m ld base f h Hm MF HF Hfr. unfold la_q.
  destruct (tdim2 _ _ _ _ MF) as (-> & -> & _).
  destruct (copy2 _ o0 base F p m ld f h MF ltac:(lia) ltac:(lia) HF Hfr) as (h1 & E1 & _).
  rewrite E1. cbn [bind]. unfold vorgqr. rewrite !Z.ltb_irrefl.
  rewrite (proj2 (Z.ltb_lt m p)) by lia. rewrite !orb_true_r. reflexivity.
Qed.

Lemma xpose_rd_ub : forall (O : Ops) x y (hin : heap (car O)) pin ldin pout ldout h r j i,
  0 <= i < Z.min y ldin -> 0 <= j < Z.min x ldout -> hin (pin + j * ldin + i) = None ->
  xpose x y hin pin ldin pout ldout h <> Ok r.
Proof.
  intros O x y hin pin ldin pout ldout h r j i Hi Hj Hz. unfold xpose.
  assert (Hin := idx2_in _ _ _ _ Hi Hj). apply in_split in Hin as (l1 & l2 & ->).
  rewrite forM_app. destruct (forM l1 _ h) as [h1| |]; try discriminate. cbn [bind forM nth].
  unfold rd at 1. rewrite Hz. discriminate.
Qed.
(** q of a factorisation with fewer rows than columns reads past the end of
    the p x m copy: it never returns normally when what follows is not allocated. *)
Theorem C62_wide_refuted :
  forall (O : Ops) (L : lapack) (F tau : desc) (p m ld base : Z) (f : list Z -> car O) (h : heap (car O)) r,
    0 <= p < m -> mat F p m ld -> holds h F f -> (forall z, base <= z < base + m * m -> h z = None) ->
    la_q L F tau base h <> Ok r.
Proof.
  intros O L F tau p m ld base f h r Hp MF HF Hfr. unfold la_q.
  destruct (tdim2 _ _ _ _ MF) as (-> & -> & _).
  destruct (copy2 _ o0 base F p m ld f h MF ltac:(lia) ltac:(lia) HF) as (h1 & E1 & _ & F1 & _).
  { intros z Hz. apply Hfr. nia. }
  rewrite E1. cbn [bind dbase tensor_ctor]. unfold vorgqr. rewrite !Z.ltb_irrefl.
  rewrite (proj2 (Z.ltb_ge m 0)), (proj2 (Z.ltb_ge p 0)), (proj2 (Z.ltb_ge m p)) by lia. cbn [orb].
  assert (U : forall r', xpose_row m m h1 base m 0 (Z.max 1 m) (fresh_vec (Z.max 1 m * Z.max 1 m)) <> Ok r').
  { intros r'. unfold xpose_row. apply (xpose_rd_ub O m m h1 base m 0 (Z.max 1 m) _ r' p 0); try lia.
    rewrite F1 by nia. apply Hfr. nia. }
  destruct (xpose_row _ _ _ _ _ _ _ _) as [x| |]; try discriminate. now elim (U x).
Qed.

(** [[0, 2], [-1, 3]] = [[0, 1], [-1, 0]] [[1, -3], [0, 2]]. *)
Definition Lqr : @lapack ZOps :=
  @mkLapack ZOps (fun m n A => (0, A, [])) (fun n A p => (0, A)) (fun n k A B => (0, A, B))
    (fun n A => (0, A, fun _ => 0)) (fun m n A => (0, A, fun _ => 0, A, A))
    (fun m n A => (0, A, fun _ => 0, A, A, fun _ => 0))
    (fun m n A => (0, fun i j => if i =? 0 then (if j =? 0 then 1 else -3) else (if j =? 0 then 7 else 2), fun k => 5 + k))
    (fun m n k A t => (0, Usvd)) (fun n A => (0, A, fun _ => 0, fun _ => 0, A))
    (fun m n A B C => (0, C, 1)) (fun n A => (0, A, fun _ => 0, A, A)).
Lemma Lqr_contract : forall M, @agree ZOps 2 2 M (mx (O := ZOps) (fun i =>
    nth (Z.to_nat (2 * nth 0 i 0 + nth 1 i 0)) [0; 2; -1; 3] 0)) ->
  qr_contract (O := ZOps) Lqr 2 M.
Proof.
  intros M HM. unfold qr_contract. cbn [Lqr x_geqrf x_orgqr]. split; [reflexivity|].
  intros F' tau' _ _. split; [reflexivity|]. split.
  - split; intros i j Hi Hj; two i Hi; two j Hj; reflexivity.
  - intros i j Hi Hj. rewrite HM by auto. two i Hi; two j Hj; reflexivity.
Qed.
Example C62_case :
  match la_qr (O := ZOps) Lqr (mkDesc 0 [2; 2] [3; 1]) 100 (buf 0 [0; 2; 77; -1; 3]) with
  | Ok (F, tau, h1) =>
      match la_q (O := ZOps) Lqr F tau 200 h1 with
      | Ok (Q, h2) =>
          map (fun i => h2 (addr F i)) (indices [2; 2]) = map Some [1; -3; 7; 2] /\
          map (fun i => h2 (addr Q i)) (indices [2; 2]) = map Some [0; 1; -1; 0] /\
          map (fun i => h2 (addr tau i)) (indices [2]) = map Some [5; 6]
      | _ => False end
  | _ => False end.
Proof. repeat split; reflexivity. Qed.

(** ** The Lyapunov solver *)
Section Lyap.
  Context {O : Ops}.
  Hypothesis HR : is_ring O.
  Notation T := (car O).
  Add Ring LyRing : (ir_rt O HR).
  Variable n : Z.
  Notation "A == B" := (@agree O n n A B) (at level 70).
  Notation "A ** B" := (@mmul O n A B) (at level 40, left associativity).
  Definition msc (s : T) (A : Z -> Z -> T) : Z -> Z -> T := fun i j => omul s (A i j).
  Local Instance agree_eqv : RelationClasses.Equivalence (@agree O n n).
  Proof.
    split. - intros A i j _ _. reflexivity. - intros A B H i j Hi Hj. symmetry. auto.
    - intros A B C H1 H2 i j Hi Hj. rewrite H1 by auto. auto.
  Qed.
  Local Instance mmul_prp : Morphisms.Proper (Morphisms.respectful (@agree O n n) (Morphisms.respectful (@agree O n n) (@agree O n n))) (@mmul O n).
  Proof. intros A A' HA B B' HB. apply mmul_ext; auto. Qed.
  Local Instance madd_prp : Morphisms.Proper (Morphisms.respectful (@agree O n n) (Morphisms.respectful (@agree O n n) (@agree O n n))) (@madd O).
  Proof. intros A A' HA B B' HB i j Hi Hj. unfold madd. rewrite HA, HB; auto. Qed.
  Local Instance msc_prp : Morphisms.Proper (Morphisms.respectful eq (Morphisms.respectful (@agree O n n) (@agree O n n))) msc.
  Proof. intros s s' <- A A' HA i j Hi Hj. unfold msc. rewrite HA; auto. Qed.
  Lemma assoc : forall A B C, A ** B ** C == A ** (B ** C).
  Proof. intros A B C i j _ _. apply (mmul_assoc HR). Qed.
  Lemma idl : forall A, ident ** A == A.
  Proof. intros A. apply (mmul_ident_l HR). Qed.
  Lemma idr : forall A, A ** ident == A.
  Proof. intros A. apply (mmul_ident_r HR). Qed.
  Lemma msc_l : forall s A B, msc s A ** B == msc s (A ** B).
  Proof.
    intros s A B i j _ _. unfold msc, mmul, zsum. rewrite <- (lsum_mul_l O HR). apply lsum_ext. intros. ring.
  Qed.
  Lemma msc_r : forall s A B, A ** msc s B == msc s (A ** B).
  Proof.
    intros s A B i j _ _. unfold msc, mmul, zsum. rewrite <- (lsum_mul_l O HR). apply lsum_ext. intros. ring.
  Qed.
  Lemma madd_l : forall A B C, madd A B ** C == madd (A ** C) (B ** C).
  Proof.
    intros A B C i j _ _. unfold madd, mmul, zsum. rewrite <- (lsum_add O HR). apply lsum_ext. intros. ring.
  Qed.
  Lemma madd_r : forall A B C, C ** madd A B == madd (C ** A) (C ** B).
  Proof.
    intros A B C i j _ _. unfold madd, mmul, zsum. rewrite <- (lsum_add O HR). apply lsum_ext. intros. ring.
  Qed.
  Lemma madd_msc : forall s A B, madd (msc s A) (msc s B) == msc s (madd A B).
  Proof. intros s A B i j _ _. unfold madd, msc. ring. Qed.
  Lemma msc_msc : forall s t A, msc s (msc t A) == msc (omul s t) A.
  Proof. intros s t A i j _ _. unfold msc. ring. Qed.

  Lemma lyapunov_algebra : forall A U R Y F Q X s,
    orthogonal n U -> A ** U == U ** R -> madd (R ** Y) (Y ** R) == msc s F ->
    F == trn U ** Q ** U -> X == msc s (U ** Y) ** trn U ->
    madd (A ** X) (X ** A) == msc (omul s s) Q.
  Proof.
    intros A U R Y F Q X s (O1 & O2) HS HT HF HX.
    assert (HL : trn U ** A == R ** trn U).
    { rewrite <- (idr (trn U ** A)). rewrite <- O1. rewrite <- assoc. rewrite (assoc (trn U) A U). rewrite HS.
      rewrite <- (assoc (trn U) U R), O2, idl. reflexivity. }
    rewrite HX. rewrite msc_l, msc_r, msc_l, madd_msc.
    assert (E1 : A ** (U ** Y ** trn U) == U ** (R ** Y) ** trn U).
    { rewrite <- !assoc. rewrite HS. reflexivity. }
    assert (E2 : U ** Y ** trn U ** A == U ** (Y ** R) ** trn U).
    { rewrite assoc, HL. rewrite <- !assoc. reflexivity. }
    rewrite E1, E2, <- madd_l, <- madd_r, HT, msc_r, msc_l, msc_msc.
    apply msc_prp; auto. rewrite HF.
    rewrite <- !assoc. rewrite O1, idl. rewrite assoc, O1, idr. reflexivity.
  Qed.
  Lemma one_l : forall x : T, omul o1 x = x.
  Proof. intros. ring. Qed.
  Lemma add_00 : forall x : T, oadd x (omul o0 o0) = x.
  Proof. intros. ring. Qed.
  Lemma madd_agree : forall A A' B B', A == A' -> B == B' -> madd A B == madd A' B'.
  Proof. intros A A' B B' H1 H2. now apply madd_prp. Qed.
End Lyap.

(** [gemm] into a new tensor. *)
Lemma gemm_new_ok : forall (O : Ops), is_ring O ->
  forall (ta tb : bool) (alpha : car O) (A B : desc) (n lda ldb base : Z) (a b : list Z -> car O) (h : heap (car O)),
    0 < n -> mat A n n lda -> mat B n n ldb -> holds h A a -> holds h B b ->
    (forall z, cell A z -> ~ (base <= z < base + n * n)) -> (forall z, cell B z -> ~ (base <= z < base + n * n)) ->
    exists h' c, la_gemm_new ta tb alpha A B base h = Ok (tensor_ctor base [n; n], h') /\
      holds h' (tensor_ctor base [n; n]) c /\
      (forall i j, 0 <= i < n -> 0 <= j < n ->
         c [i; j] = omul alpha (zsum n (fun p => omul (op ta a i p) (op tb b p j)))) /\
      (forall z, ~ (base <= z < base + n * n) -> h' z = h z).
Proof.
  intros O HR ta tb alpha A B n lda ldb base a b h Hn MA MB HA HB DA DB.
  unfold la_gemm_new. destruct (tdim2 _ _ _ _ MA) as (-> & -> & _). destruct (tdim2 _ _ _ _ MB) as (-> & -> & _).
  replace (if ta then n else n) with n by (destruct ta; auto).
  replace (if tb then n else n) with n by (destruct tb; auto).
  change (ddims (tensor_ctor base [n; n])) with [n; n]. rewrite data_size_eq by discriminate.
  replace (zprod [n; n]) with (n * n) by (simpl; lia).
  set (C := tensor_ctor base [n; n]). set (h0 := alloc_buffer o0 base (n * n) h).
  assert (CC : forall z, cell C z <-> base <= z < base + n * n) by (intros; apply tc_cell2; lia).
  assert (KA : forall z, cell A z -> h0 z = h z) by (intros z Hz; apply alloc_buffer_other; auto).
  assert (KB : forall z, cell B z -> h0 z = h z) by (intros z Hz; apply alloc_buffer_other; auto).
  destruct (C19_gemm_partial O HR ta tb alpha o0 A B C n n n lda ldb n a b (fun _ => o0) h0)
    as (h' & E & V & F); try lia.
  - destruct ta; auto.
  - destruct tb; auto.
  - apply tc_mat.
  - intros idx Hi. rewrite KA by (exists idx; auto). auto.
  - intros idx Hi. rewrite KB by (exists idx; auto). auto.
  - intros idx Hi. apply alloc_buffer_cell. apply CC. exists idx. auto.
  - apply disj_cells. intros z Hz1 Hz2. apply CC in Hz1. apply (DA z); auto.
  - apply disj_cells. intros z Hz1 Hz2. apply CC in Hz1. apply (DB z); auto.
  - rewrite E. cbn [bind].
    exists h', (fun idx => oadd (omul alpha (zsum n (fun p => omul (op ta a (nth 0 idx 0) p) (op tb b p (nth 1 idx 0))))) (omul o0 o0)).
    split; [reflexivity|]. split; [|split].
    + intros idx Hi. change (ddims C) with [n; n] in Hi. apply inb2_inv in Hi as (i & j & -> & Hi & Hj).
      apply (V i j); auto.
    + intros i j Hi Hj. cbn [nth]. apply (add_00 HR).
    + intros z Hz. rewrite F by (rewrite CC; auto). apply alloc_buffer_other. auto.
Qed.

(** The Schur form and the Schur vectors that gees computes. *)
Definition schur_form {O : Ops} (L : @lapack O) (n : Z) (M : Z -> Z -> car O) : Z -> Z -> car O :=
  let '(_, R, _, _, _) := x_gees L n M in R.
Definition schur_vectors {O : Ops} (L : @lapack O) (n : Z) (M : Z -> Z -> car O) : Z -> Z -> car O :=
  let '(_, _, _, _, U) := x_gees L n M in U.

(** C63.  For every square A and Q (any leading strides), when the Schur
    factorisation converges and trsyl returns the scale factor s, the result
    satisfies A X + X A = s^2 Q. *)
Theorem C63_lyapunov_general_partial :
  forall (O : Ops), is_ring O ->
  forall (L : lapack) (A Q : desc) (n lda ldq base : Z) (s : car O) (a q : list Z -> car O) (h : heap (car O)),
    0 < n -> mat A n n lda -> mat Q n n ldq -> holds h A a -> holds h Q q ->
    (forall M, agree n n M (mx a) ->
       gees_contract L n M /\
       (forall R R' F, agree n n R (schur_form L n M) -> agree n n R' (schur_form L n M) ->
          agree n n F (mmul n (mmul n (trn (schur_vectors L n M)) (mx q)) (schur_vectors L n M)) ->
          trsyl_contract L n R R' F /\ snd (x_trsyl L n n R R' F) = s)) ->
    (forall z, base <= z < base + 8 * (n * n) -> h z = None) ->
    exists X h' x, la_lyapunov L A Q base h = Ok (X, h') /\ ddims X = [n; n] /\ holds h' X x /\
      agree n n (madd (mmul n (mx a) (mx x)) (mmul n (mx x) (mx a))) (fun i j => omul (omul s s) (q [i; j])) /\
      (forall z, h z <> None -> h' z = h z).
Proof.
  intros O HR L A Q n lda ldq base s a q h Hn MA MQ HA HQ HC Hfr.
  unfold la_lyapunov. destruct (tdim2 _ _ _ _ MA) as (-> & -> & _). destruct (tdim2 _ _ _ _ MQ) as (-> & -> & _).
  rewrite !Z.eqb_refl. cbn [negb].
  assert (Hsz : n <= n * n) by nia. set (sz := n * n) in *.
  assert (Hn0 : 0 <= n) by lia.
  destruct (copy2 _ o0 base A n n lda a h MA Hn0 Hn0 HA) as (h1 & E1 & C1 & F1 & _).
  { intros z Hz. apply Hfr. fold sz in Hz. lia. }
  fold sz in F1. rewrite E1. cbn [bind dbase tensor_ctor].
  set (h2 := alloc_buffer o0 (base + sz) (3 * sz) h1).
  set (U := tensor_ctor (base + 3 * sz) [n; n]).
  assert (Hrow : forall i j, 0 <= i < n -> 0 <= j < n -> 0 <= i * n + j < sz) by (intros; unfold sz; nia).
  assert (FR : forall p z, fcell p n n n z -> p <= z < p + sz) by (intros p z HF; apply fcell_range in HF; unfold sz; lia).
  assert (R2 : forall i j, 0 <= i < n -> 0 <= j < n -> h2 (base + i * n + j) = Some (a [i; j])).
  { intros i j Hi Hj. specialize (Hrow i j Hi Hj). unfold h2.
    rewrite alloc_buffer_other by lia. apply (tc_rows _ _ _ _ _ _ C1); auto. }
  assert (Q2 : forall z, cell Q z -> h2 z = h z /\ ~ (base <= z < base + 8 * sz)).
  { intros z (idx & Hi & ->). assert (~ (base <= addr Q idx < base + 8 * sz)).
    { intros Hr. apply Hfr in Hr. rewrite (HQ idx Hi) in Hr. discriminate. }
    split; auto. unfold h2. rewrite alloc_buffer_other by lia. apply F1. lia. }
  unfold vgees. rewrite !Z.ltb_irrefl.
  destruct (xpose_fread n n h2 base n (mx a) Hn0 Hn0 (Z.le_refl n) R2) as (at0 & M & EX & EM & AM & At).
  rewrite EX. cbn [bind]. rewrite EM. cbn [bind].
  destruct (HC M AM) as (CG & CT). clear HC. unfold gees_contract, schur_form, schur_vectors in *.
  destruct (x_gees L n M) as [[[[info R] re] im] V]. destruct CG as (OV & HS).
  destruct (fvwrite_ok n (base + sz) h2 re) as (h3 & E3 & _ & F3).
  { intros i Hi. unfold h2. rewrite alloc_buffer_cell by lia. discriminate. }
  destruct (fvwrite_ok n (base + 2 * sz) h3 im) as (h4 & E4 & _ & F4).
  { intros i Hi. rewrite F3 by lia. unfold h2. rewrite alloc_buffer_cell by lia. discriminate. }
  destruct (xpose_out n n at0 R h4 base n Hn0 Hn0 (Z.le_refl n) At) as (at1 & h5 & E5 & E5' & V5 & F5).
  { intros i j Hi Hj. assert (Hr := Hrow i j Hi Hj). rewrite F4, F3 by lia. rewrite R2 by auto. discriminate. }
  destruct (xpose_out n n (fresh_vec (Z.max 1 n * Z.max 1 n)) V h5 (base + 3 * sz) n Hn0 Hn0 (Z.le_refl n)
              (fresh_cells n n Hn0 Hn0)) as (vt & h6 & E6 & E6' & V6 & F6).
  { intros i j Hi Hj. assert (Hr := Hrow i j Hi Hj). rewrite F5 by (intros HF; apply FR in HF; lia).
    rewrite F4, F3 by lia. unfold h2. rewrite alloc_buffer_cell by lia. discriminate. }
  rewrite E5. cbn [bind]. rewrite E3. cbn [bind]. rewrite E4. cbn [bind]. rewrite E6. cbn [bind].
  rewrite E5'. cbn [bind]. change (dbase U) with (base + 3 * sz). rewrite E6'. cbn [bind snd].
  set (v := fun idx => V (nth 0 idx 0) (nth 1 idx 0)).
  assert (HU : holds h6 U v) by (apply rows_tc; auto).
  assert (HR6 : forall i j, 0 <= i < n -> 0 <= j < n -> h6 (base + i * n + j) = Some (R i j)).
  { intros i j Hi Hj. assert (Hr := Hrow i j Hi Hj). rewrite F6 by (intros HF; apply FR in HF; lia). auto. }
  assert (O6 : forall z, ~ (base <= z < base + 4 * sz) -> h6 z = h1 z).
  { intros z Hz. rewrite F6 by (intros HF; apply FR in HF; lia). rewrite F5 by (intros HF; apply FR in HF; lia).
    rewrite F4, F3 by lia. unfold h2. apply alloc_buffer_other. lia. }
  assert (HQ6 : holds h6 Q q).
  { intros idx Hi. destruct (Q2 (addr Q idx)) as (_ & Hr); [exists idx; auto|].
    rewrite O6 by lia. rewrite F1 by lia. auto. }
  assert (CU : forall z, cell U z -> base + 3 * sz <= z < base + 3 * sz + sz) by (intros z Hz; apply tc_cell2 in Hz; lia).
  assert (MU : mat U n n n) by apply tc_mat.
  (* F = U^T Q U *)
  destruct (gemm_new_ok O HR true false o1 U Q n n ldq (base + 4 * sz) v q h6) as (h7 & f1 & E7 & V7 & W7 & F7); auto.
  { intros z Hz. apply CU in Hz. fold sz. lia. } { intros z Hz. apply Q2 in Hz. fold sz. lia. }
  fold sz in F7. rewrite E7. cbn [bind fst snd].
  assert (HU7 : holds h7 U v).
  { intros idx Hi. assert (cell U (addr U idx)) by (exists idx; auto). apply CU in H. rewrite F7 by lia. auto. }
  set (D4 := tensor_ctor (base + 4 * sz) [n; n]) in *.
  assert (CD4 : forall z, cell D4 z -> base + 4 * sz <= z < base + 4 * sz + sz) by (intros z Hz; apply tc_cell2 in Hz; lia).
  destruct (gemm_new_ok O HR false false o1 D4 U n n n (base + 5 * sz) f1 v h7) as (h8 & f & E8 & V8 & W8 & F8); auto; try apply tc_mat.
  { intros z Hz. apply CD4 in Hz. fold sz. lia. } { intros z Hz. apply CU in Hz. fold sz. lia. }
  fold sz in F8. rewrite E8. cbn [bind fst snd dbase tensor_ctor].
  assert (AF : agree n n (mx f) (mmul n (mmul n (trn V) (mx q)) V)).
  { intros i j Hi Hj. unfold mx at 1. rewrite W8 by auto. unfold mmul. rewrite (one_l HR).
    apply zsum_ext. intros p Hp. cbn [op]. rewrite W7 by auto. rewrite (one_l HR). reflexivity. }
  (* trsyl *)
  unfold vtrsyl. rewrite Z.ltb_irrefl.
  assert (HR8 : forall i j, 0 <= i < n -> 0 <= j < n -> h8 (base + i * n + j) = Some (R i j)).
  { intros i j Hi Hj. assert (Hr := Hrow i j Hi Hj). rewrite F8, F7 by lia. auto. }
  destruct (xpose_fread n n h8 base n R Hn0 Hn0 (Z.le_refl n) HR8) as (rt & R1 & EXr & EMr & AR & _).
  destruct (xpose_fread n n h8 (base + 5 * sz) n (mx f) Hn0 Hn0 (Z.le_refl n)) as (ct & F0 & EXc & EMc & AFc & Atc).
  { intros i j Hi Hj. apply (tc_rows _ _ _ _ _ _ V8); auto. }
  rewrite EXr. cbn [bind]. rewrite EXc. cbn [bind]. rewrite EMr. cbn [bind]. rewrite EMc. cbn [bind].
  destruct (CT R1 R1 F0 AR AR) as (CS & Es). { eapply agree_trans; [exact AFc|exact AF]. }
  unfold trsyl_contract in CS. destruct (x_trsyl L n n R1 R1 F0) as [[info2 Y] sc]. cbn [snd] in Es. subst sc.
  destruct CS as (I2 & CS).
  destruct (xpose_out n n ct Y h8 (base + 5 * sz) n Hn0 Hn0 (Z.le_refl n) Atc) as (ct1 & h9 & E9 & E9' & V9 & F9).
  { intros i j Hi Hj. rewrite (tc_rows _ _ _ _ _ _ V8) by auto. discriminate. }
  rewrite E9. cbn [bind]. rewrite (proj2 (Z.ltb_ge info2 0)) by lia. rewrite E9'. cbn [bind].
  set (D5 := tensor_ctor (base + 5 * sz) [n; n]) in *. set (y := fun idx => Y (nth 0 idx 0) (nth 1 idx 0)).
  assert (HD5 : holds h9 D5 y) by (apply rows_tc; auto).
  assert (HU9 : holds h9 U v).
  { intros idx Hi. assert (cell U (addr U idx)) by (exists idx; auto). apply CU in H.
    rewrite F9 by (intros HF; apply FR in HF; lia). rewrite F8 by lia. auto. }
  assert (CD5 : forall z, cell D5 z -> base + 5 * sz <= z < base + 5 * sz + sz) by (intros z Hz; apply tc_cell2 in Hz; lia).
  destruct (gemm_new_ok O HR false false s U D5 n n n (base + 6 * sz) v y h9) as (h10 & x1 & E10 & V10 & W10 & F10); auto; try apply tc_mat.
  { intros z Hz. apply CU in Hz. fold sz. lia. } { intros z Hz. apply CD5 in Hz. fold sz. lia. }
  fold sz in F10. rewrite E10. cbn [bind fst snd].
  set (D6 := tensor_ctor (base + 6 * sz) [n; n]) in *.
  assert (CD6 : forall z, cell D6 z -> base + 6 * sz <= z < base + 6 * sz + sz) by (intros z Hz; apply tc_cell2 in Hz; lia).
  assert (HU10 : holds h10 U v).
  { intros idx Hi. assert (cell U (addr U idx)) by (exists idx; auto). apply CU in H. rewrite F10 by lia. auto. }
  destruct (gemm_new_ok O HR false true o1 D6 U n n n (base + 7 * sz) x1 v h10) as (h11 & x & E11 & V11 & W11 & F11); auto; try apply tc_mat.
  { intros z Hz. apply CD6 in Hz. fold sz. lia. } { intros z Hz. apply CU in Hz. fold sz. lia. }
  fold sz in F11.
  exists (tensor_ctor (base + 7 * sz) [n; n]), h11, x. split; [exact E11|]. split; [reflexivity|]. split; [exact V11|]. split.
  - apply (lyapunov_algebra HR n (mx a) V R Y (mx f) (mx q) (mx x) s); auto.
    + eapply agree_trans; [|exact HS]. apply mmul_ext; [now apply agree_sym|apply agree_refl].
    + eapply agree_trans; [|eapply agree_trans; [exact CS|]].
      * apply madd_agree; apply mmul_ext; try apply agree_refl; now apply agree_sym.
      * intros i j Hi Hj. unfold msc. rewrite AFc; auto.
    + intros i j Hi Hj. unfold mx at 1. rewrite W11 by auto. rewrite (one_l HR). unfold mmul at 1.
      apply zsum_ext. intros p Hp. cbn [op]. rewrite W10 by auto. reflexivity.
  - intros z Hz. assert (Hr : ~ (base <= z < base + 8 * sz)). { intros Hr. apply Hz, Hfr. auto. }
    rewrite F11, F10 by lia. rewrite F9 by (intros HF; apply FR in HF; lia).
    rewrite F8, F7, O6, F1 by lia. auto.
Qed.

(** Full statement: A X + X A^T = Q for every A.  Proved for symmetric A and
    when trsyl does not have to scale. *)
Theorem C63_lyapunov_partial :
  forall (O : Ops), is_ring O ->
  forall (L : lapack) (A Q : desc) (n lda ldq base : Z) (a q : list Z -> car O) (h : heap (car O)),
    0 < n -> mat A n n lda -> mat Q n n ldq -> holds h A a -> holds h Q q ->
    (forall i j, 0 <= i < n -> 0 <= j < n -> a [i; j] = a [j; i]) ->
    (forall M, agree n n M (mx a) ->
       gees_contract L n M /\
       (forall R R' F, agree n n R (schur_form L n M) -> agree n n R' (schur_form L n M) ->
          agree n n F (mmul n (mmul n (trn (schur_vectors L n M)) (mx q)) (schur_vectors L n M)) ->
          trsyl_contract L n R R' F /\ snd (x_trsyl L n n R R' F) = o1)) ->
    (forall z, base <= z < base + 8 * (n * n) -> h z = None) ->
    exists X h' x, la_lyapunov L A Q base h = Ok (X, h') /\ ddims X = [n; n] /\ holds h' X x /\
      agree n n (madd (mmul n (mx a) (mx x)) (mmul n (mx x) (trn (mx a)))) (mx q) /\
      (forall z, h z <> None -> h' z = h z).
Proof.
  intros O HR L A Q n lda ldq base a q h Hn MA MQ HA HQ HS HC Hfr.
  destruct (C63_lyapunov_general_partial O HR L A Q n lda ldq base o1 a q h Hn MA MQ HA HQ HC Hfr)
    as (X & h' & x & E & D & Hx & HE & HF).
  exists X, h', x. split; [exact E|]. split; [exact D|]. split; [exact Hx|]. split; [|exact HF].
  intros i j Hi Hj. assert (E1 := HE i j Hi Hj). cbv beta in E1. rewrite !(one_l HR) in E1.
  change (mx q i j) with (q [i; j]). rewrite <- E1.
  refine (madd_agree n _ _ _ _ _ _ i j Hi Hj). - apply agree_refl.
  - apply mmul_ext; [apply agree_refl|]. intros k l Hk Hl. unfold trn, mx. apply HS; auto.
Qed.

(** A = [[1, 1], [0, 1]] (already in Schur form), Q = [[2, 1], [0, 0]]: the
    result is [[1, 0], [0, 0]], for which A X + X A^T = [[2, 0], [0, 0]]. *)
Definition Lly (s : Z) (Y : Z -> Z -> Z) : @lapack ZOps :=
  @mkLapack ZOps (fun m n A => (0, A, [])) (fun n A p => (0, A)) (fun n k A B => (0, A, B))
    (fun n A => (0, A, fun _ => 0)) (fun m n A => (0, A, fun _ => 0, A, A))
    (fun m n A => (0, A, fun _ => 0, A, A, fun _ => 0)) (fun m n A => (0, A, fun _ => 0))
    (fun m n k A t => (0, A)) (fun n A => (0, A, fun _ => 1, fun _ => 0, Vsvd))
    (fun m n A B C => (0, Y, s)) (fun n A => (0, A, fun _ => 0, A, A)).
Definition m2 (l : list Z) (idx : list Z) : Z := nth (Z.to_nat (2 * nth 0 idx 0 + nth 1 idx 0)) l 0.
Lemma Lly_contract : forall s y al ql,
  (forall i j, 0 <= i < 2 -> 0 <= j < 2 ->
     (m2 al [i; 0] * m2 y [0; j] + (m2 al [i; 1] * m2 y [1; j] + 0)) +
     (m2 y [i; 0] * m2 al [0; j] + (m2 y [i; 1] * m2 al [1; j] + 0)) = s * m2 ql [i; j]) ->
  let L := Lly s (fun i j => m2 y [i; j]) in
  forall M, @agree ZOps 2 2 M (mx (O := ZOps) (m2 al)) ->
    gees_contract (O := ZOps) L 2 M /\
    (forall R R' F, @agree ZOps 2 2 R (schur_form L 2 M) -> @agree ZOps 2 2 R' (schur_form L 2 M) ->
       @agree ZOps 2 2 F (mmul (O := ZOps) 2 (mmul (O := ZOps) 2 (trn (O := ZOps) (schur_vectors L 2 M)) (mx (O := ZOps) (m2 ql))) (schur_vectors L 2 M)) ->
       trsyl_contract (O := ZOps) L 2 R R' F /\ snd (x_trsyl (O := ZOps) L 2 2 R R' F) = s).
Proof.
  intros s y al ql HY L M HM. unfold gees_contract, trsyl_contract, schur_form, schur_vectors, L.
  cbn [Lly x_gees x_trsyl snd]. split.
  - split.
    + split; intros i j Hi Hj; two i Hi; two j Hj; reflexivity.
    + intros i j Hi Hj. unfold mmul. rewrite !sumZ2. two i Hi; two j Hj; cbn; lia.
  - intros R R' F HR1 HR2 HF. split; [|reflexivity]. split; [lia|].
    intros i j Hi Hj. rewrite HF by auto. unfold madd, mmul. rewrite !sumZ2. cbn [omul oadd ZOps].
    rewrite !HR1, !HR2, !HM by lia. unfold mx. cbn beta.
    change (@oadd ZOps) with Z.add. change (@omul ZOps) with Z.mul.
    rewrite HY by auto. f_equal. two i Hi; two j Hj; cbn [trn Vsvd Z.eqb m2 nth]; cbn; lia.
Qed.
Theorem C63_transpose_refuted :
  exists (L : lapack) (A Q : desc) (a q : list Z -> Z) (h : heap Z),
    mat A 2 2 2 /\ mat Q 2 2 2 /\ @holds Z h A a /\ @holds Z h Q q /\
    (forall M, @agree ZOps 2 2 M (mx (O := ZOps) a) ->
      gees_contract (O := ZOps) L 2 M /\
      (forall R R' F, @agree ZOps 2 2 R (schur_form L 2 M) -> @agree ZOps 2 2 R' (schur_form L 2 M) ->
         @agree ZOps 2 2 F (mmul (O := ZOps) 2 (mmul (O := ZOps) 2 (trn (O := ZOps) (schur_vectors L 2 M)) (mx (O := ZOps) q)) (schur_vectors L 2 M)) ->
         trsyl_contract (O := ZOps) L 2 R R' F /\ snd (x_trsyl (O := ZOps) L 2 2 R R' F) = 1)) /\
    exists X h' x, la_lyapunov (O := ZOps) L A Q 100 h = Ok (X, h') /\ @holds Z h' X x /\
      ~ @agree ZOps 2 2 (madd (O := ZOps) (mmul (O := ZOps) 2 (mx (O := ZOps) a) (mx (O := ZOps) x))
                           (mmul (O := ZOps) 2 (mx (O := ZOps) x) (trn (O := ZOps) (mx (O := ZOps) a)))) (mx (O := ZOps) q).
Proof.
  exists (Lly 1 (fun i j => m2 [1; 0; 0; 0] [i; j])), (tensor_ctor 0 [2; 2]), (tensor_ctor 4 [2; 2]),
    (m2 [1; 1; 0; 1]), (m2 [2; 1; 0; 0]), (buf 0 [1; 1; 0; 1; 2; 1; 0; 0]).
  split; [apply tc_mat|]. split; [apply tc_mat|].
  split. { intros idx Hi. apply inb2_inv in Hi as (i & j & -> & Hi & Hj). two i Hi; two j Hj; reflexivity. }
  split. { intros idx Hi. apply inb2_inv in Hi as (i & j & -> & Hi & Hj). two i Hi; two j Hj; reflexivity. }
  split. { apply Lly_contract. intros i j Hi Hj. two i Hi; two j Hj; reflexivity. }
  assert (G : match la_lyapunov (O := ZOps) (Lly 1 (fun i j => m2 [1; 0; 0; 0] [i; j])) (tensor_ctor 0 [2; 2]) (tensor_ctor 4 [2; 2]) 100
        (buf 0 [1; 1; 0; 1; 2; 1; 0; 0]) with
      | Ok (X, h') => X = tensor_ctor 128 [2; 2] /\ map h' [128; 129; 130; 131] = map Some [1; 0; 0; 0]
      | _ => False end) by (vm_compute; split; reflexivity).
  destruct (la_lyapunov (O := ZOps) _ _ _ 100 _) as [[X h']| |]; try contradiction.
  destruct G as (-> & EH).
  exists (tensor_ctor 128 [2; 2]), h', (m2 [1; 0; 0; 0]). split; [reflexivity|]. split.
  - injection EH as G1 G2 G3 G4.
    intros idx Hi. apply inb2_inv in Hi as (i & j & -> & Hi & Hj). two i Hi; two j Hj; assumption.
  - intros HE. specialize (HE 0 1 ltac:(lia) ltac:(lia)). vm_compute in HE. discriminate.
Qed.
(** When trsyl scales the right-hand side, the factor is applied twice instead
    of being removed: X is not a solution unless s^2 Q = Q. *)
Theorem C63_scale_refuted :
  forall (O : Ops), is_ring O ->
  forall (L : lapack) (A Q : desc) (n lda ldq base : Z) (s : car O) (a q : list Z -> car O) (h : heap (car O)),
    0 < n -> mat A n n lda -> mat Q n n ldq -> holds h A a -> holds h Q q ->
    (forall i j, 0 <= i < n -> 0 <= j < n -> a [i; j] = a [j; i]) ->
    (forall M, agree n n M (mx a) ->
       gees_contract L n M /\
       (forall R R' F, agree n n R (schur_form L n M) -> agree n n R' (schur_form L n M) ->
          agree n n F (mmul n (mmul n (trn (schur_vectors L n M)) (mx q)) (schur_vectors L n M)) ->
          trsyl_contract L n R R' F /\ snd (x_trsyl L n n R R' F) = s)) ->
    (forall z, base <= z < base + 8 * (n * n) -> h z = None) ->
    (exists i j, 0 <= i < n /\ 0 <= j < n /\ omul (omul s s) (q [i; j]) <> q [i; j]) ->
    exists X h' x, la_lyapunov L A Q base h = Ok (X, h') /\ holds h' X x /\
      ~ agree n n (madd (mmul n (mx a) (mx x)) (mmul n (mx x) (trn (mx a)))) (mx q).
Proof.
  intros O HR L A Q n lda ldq base s a q h Hn MA MQ HA HQ HS HC Hfr (i & j & Hi & Hj & Hne).
  destruct (C63_lyapunov_general_partial O HR L A Q n lda ldq base s a q h Hn MA MQ HA HQ HC Hfr)
    as (X & h' & x & E & D & Hx & HE & HF).
  exists X, h', x. split; [exact E|]. split; [exact Hx|]. intros HG. apply Hne.
  rewrite <- (HE i j Hi Hj). change (q [i; j]) with (mx q i j). rewrite <- (HG i j Hi Hj).
  refine (madd_agree n _ _ _ _ _ _ i j Hi Hj). - apply agree_refl.
  - apply mmul_ext; [apply agree_refl|]. intros k l Hk Hl. unfold trn, mx. apply HS; auto.
Qed.

(** A = [[1, 2], [2, 1]], X = [[1, 1], [0, 3]]: Q = A X + X A^T = [[4, 10], [8, 8]]. *)
Example C63_case :
  match la_lyapunov (O := ZOps) (Lly 1 (fun i j => m2 [1; 1; 0; 3] [i; j])) (mkDesc 0 [2; 2] [2; 1]) (mkDesc 4 [2; 2] [3; 1])
          100 (buf 0 [1; 2; 2; 1; 4; 10; 77; 8; 8]) with
  | Ok (X, h') => map (fun i => h' (addr X i)) (indices [2; 2]) = map Some [1; 1; 0; 3]
  | _ => False end.
Proof. vm_compute. reflexivity. Qed.
Example C63_case_contract : forall M, @agree ZOps 2 2 M (mx (O := ZOps) (m2 [1; 2; 2; 1])) ->
  let L := Lly 1 (fun i j => m2 [1; 1; 0; 3] [i; j]) in
  gees_contract (O := ZOps) L 2 M /\
    (forall R R' F, @agree ZOps 2 2 R (schur_form L 2 M) -> @agree ZOps 2 2 R' (schur_form L 2 M) ->
       @agree ZOps 2 2 F (mmul (O := ZOps) 2 (mmul (O := ZOps) 2 (trn (O := ZOps) (schur_vectors L 2 M)) (mx (O := ZOps) (m2 [4; 10; 8; 8]))) (schur_vectors L 2 M)) ->
       trsyl_contract (O := ZOps) L 2 R R' F /\ snd (x_trsyl (O := ZOps) L 2 2 R R' F) = 1).
Proof. intros M HM. apply (Lly_contract 1 [1; 1; 0; 3] [1; 2; 2; 1] [4; 10; 8; 8]); auto.
  intros i j Hi Hj. two i Hi; two j Hj; reflexivity. Qed.
(** The hypotheses of [C63_scale_refuted]: A = Q = 1, scale 2. *)
Example C63_scale_case : forall M, @agree ZOps 2 2 M (mx (O := ZOps) (m2 [1; 0; 0; 1])) ->
  let L := Lly 2 (fun i j => m2 [1; 0; 0; 1] [i; j]) in
  gees_contract (O := ZOps) L 2 M /\
    (forall R R' F, @agree ZOps 2 2 R (schur_form L 2 M) -> @agree ZOps 2 2 R' (schur_form L 2 M) ->
       @agree ZOps 2 2 F (mmul (O := ZOps) 2 (mmul (O := ZOps) 2 (trn (O := ZOps) (schur_vectors L 2 M)) (mx (O := ZOps) (m2 [1; 0; 0; 1]))) (schur_vectors L 2 M)) ->
       trsyl_contract (O := ZOps) L 2 R R' F /\ snd (x_trsyl (O := ZOps) L 2 2 R R' F) = 2).
Proof. intros M HM. apply (Lly_contract 2 [1; 0; 0; 1] [1; 0; 0; 1] [1; 0; 0; 1]); auto.
  intros i j Hi Hj. two i Hi; two j Hj; reflexivity. Qed.

(** C64.  geev for complex element types, contiguous W: the columns of rvecs and
    lvecs are right and left eigenvectors for the entries of W. *)
Theorem C64_geev_partial :
  forall (O : Ops) (conj : car O -> car O) (L : lapack) (A W VL VR : desc) (n lda ldl ldr : Z)
         (a : list Z -> car O) (h : heap (car O)),
    0 < n -> mat A n n lda -> vect W n 1 -> mat VL n n ldl -> mat VR n n ldr ->
    holds h A a -> alloc h W -> alloc h VL -> alloc h VR ->
    disj A W -> disj A VL -> disj A VR -> disj W VL -> disj W VR -> disj VL VR ->
    (forall M, agree n n M (mx a) ->
       geev_contract conj L n M /\ fst (fst (fst (fst (x_geev L n M)))) = 0) ->
    exists h' w l r, la_geev L A W VL VR h = Ok h' /\ holds h' W w /\ holds h' VL l /\ holds h' VR r /\
      (forall k, 0 <= k < n -> eigenpair n (mx a) (w [k]) (fun i => r [i; k])) /\
      (forall k j, 0 <= k < n -> 0 <= j < n ->
         zsum n (fun i => omul (conj (l [i; k])) (a [i; j])) = omul (w [k]) (conj (l [j; k]))) /\
      (forall z, ~ cell A z -> ~ cell W z -> ~ cell VL z -> ~ cell VR z -> h' z = h z).
Proof.
  intros O conj L A W VL VR n lda ldl ldr a h Hn MA VW MVL MVR HA AW AL AR D1 D2 D3 D4 D5 D6 HC.
  assert (Hn0 : 0 <= n) by lia.
  assert (La := proj2 (proj2 MA)). assert (Ll := proj2 (proj2 MVL)). assert (Lr := proj2 (proj2 MVR)).
  unfold la_geev. destruct (tdim2 _ _ _ _ MA) as (-> & _ & ->).
  destruct (tdim2 _ _ _ _ MVL) as (_ & _ & ->). destruct (tdim2 _ _ _ _ MVR) as (_ & _ & ->).
  unfold vgeev. rewrite (proj2 (Z.ltb_ge lda n)), (proj2 (Z.ltb_ge ldl 1)), (proj2 (Z.ltb_ge ldl n)),
    (proj2 (Z.ltb_ge ldr 1)), (proj2 (Z.ltb_ge ldr n)) by lia. cbn [orb].
  destruct (xpose_fread n n h (dbase A) lda (mx a) Hn0 Hn0 ltac:(lia)) as (at0 & M & EX & EM & AM & At).
  { intros i j Hi Hj. apply (mat_holds _ h A n n lda a); auto. }
  rewrite EX. cbn [bind]. rewrite EM. cbn [bind].
  destruct (HC M AM) as (CC & C0). unfold geev_contract in CC.
  destruct (x_geev L n M) as [[[[info A'] w] vl] vr]. cbn [fst] in C0. subst info.
  destruct (CC eq_refl) as (Cr & Cl). clear CC HC.
  assert (Wc : forall z, cell W z <-> dbase W <= z < dbase W + n).
  { intros z. split.
    - intros (idx & Hi & ->). rewrite (proj1 VW) in Hi. apply inb1_inv in Hi as (i & -> & Hi).
      rewrite (vect_addr W n 1) by auto. lia.
    - intros Hz. exists [z - dbase W]. rewrite (proj1 VW), (vect_addr W n 1) by auto. split; [apply inb1|]; lia. }
  assert (Cof : forall d idx, inb idx (ddims d) -> cell d (addr d idx)) by (intros d idx Hi; exists idx; auto).
  assert (Sep : forall d e z, disj d e -> cell d z -> cell e z -> False).
  { intros d e z D (i & Hi & ->) (j & Hj & E). apply (D i j); auto. }
  destruct (fvwrite_ok n (dbase W) h w) as (h1 & E1 & V1 & F1).
  { intros i Hi. destruct (AW [i]) as (x & Hx). { rewrite (proj1 VW). apply inb1. auto. }
    rewrite (vect_addr W n 1), Z.mul_1_r in Hx by auto. rewrite Hx. discriminate. }
  assert (F1' : forall z, ~ cell W z -> h1 z = h z) by (intros z Hz; apply F1; rewrite <- Wc; auto).
  destruct (xpose_out n n at0 A' h1 (dbase A) lda Hn0 Hn0 ltac:(lia) At) as (at1 & h2 & E2 & E2' & V2 & F2).
  { intros i j Hi Hj.
    assert (CA : cell A (dbase A + i * lda + j)) by (apply (cell_fcell A n n lda); auto; exists j, i; repeat split; lia).
    rewrite F1' by (intros HW; apply (Sep A W _ D1 CA HW)).
    rewrite (mat_holds _ h A n n lda a) by auto. discriminate. }
  assert (F2' : forall z, ~ cell A z -> h2 z = h1 z) by (intros z Hz; apply F2; rewrite <- (cell_fcell A n n lda); auto).
  destruct (xpose_out n n (fresh_vec (Z.max 1 n * Z.max 1 n)) vl h2 (dbase VL) ldl Hn0 Hn0 ltac:(lia)
              (fresh_cells n n Hn0 Hn0)) as (lt1 & h3 & E3 & E3' & V3 & F3).
  { intros i j Hi Hj.
    assert (CA : cell VL (dbase VL + i * ldl + j)) by (apply (cell_fcell VL n n ldl); auto; exists j, i; repeat split; lia).
    rewrite F2' by (intros HX; apply (Sep A VL _ D2 HX CA)). rewrite F1' by (intros HX; apply (Sep W VL _ D4 HX CA)).
    destruct CA as (idx & Hi' & ->). destruct (AL idx Hi') as (x & ->). discriminate. }
  assert (F3' : forall z, ~ cell VL z -> h3 z = h2 z) by (intros z Hz; apply F3; rewrite <- (cell_fcell VL n n ldl); auto).
  destruct (xpose_out n n (fresh_vec (Z.max 1 n * Z.max 1 n)) vr h3 (dbase VR) ldr Hn0 Hn0 ltac:(lia)
              (fresh_cells n n Hn0 Hn0)) as (rt1 & h4 & E4 & E4' & V4 & F4).
  { intros i j Hi Hj.
    assert (CA : cell VR (dbase VR + i * ldr + j)) by (apply (cell_fcell VR n n ldr); auto; exists j, i; repeat split; lia).
    rewrite F3' by (intros HX; apply (Sep VL VR _ D6 HX CA)).
    rewrite F2' by (intros HX; apply (Sep A VR _ D3 HX CA)). rewrite F1' by (intros HX; apply (Sep W VR _ D5 HX CA)).
    destruct CA as (idx & Hi' & ->). destruct (AR idx Hi') as (x & ->). discriminate. }
  assert (F4' : forall z, ~ cell VR z -> h4 z = h3 z) by (intros z Hz; apply F4; rewrite <- (cell_fcell VR n n ldr); auto).
  rewrite E2. cbn [bind]. rewrite E1. cbn [bind]. rewrite E3. cbn [bind]. rewrite E4. cbn [bind Z.ltb Z.compare].
  rewrite E2'. cbn [bind]. rewrite E3'. cbn [bind]. rewrite E4'. cbn [bind snd].
  exists h4, (fun idx => w (nth 0 idx 0)), (fun idx => vl (nth 0 idx 0) (nth 1 idx 0)), (fun idx => vr (nth 0 idx 0) (nth 1 idx 0)).
  split; [reflexivity|]. split; [|split; [|split; [|split; [|split]]]].
  - intros idx Hi. assert (CW := Cof _ _ Hi). rewrite F4' by (intros HX; apply (Sep W VR _ D5 CW HX)).
    rewrite F3' by (intros HX; apply (Sep W VL _ D4 CW HX)). rewrite F2' by (intros HX; apply (Sep A W _ D1 HX CW)).
    rewrite (proj1 VW) in Hi. apply inb1_inv in Hi as (i & -> & Hi). rewrite (vect_addr W n 1), Z.mul_1_r by auto.
    cbn [nth]. auto.
  - apply (holds_mat _ h4 VL n n ldl); auto. intros i j Hi Hj.
    assert (CA : cell VL (dbase VL + i * ldl + j)) by (apply (cell_fcell VL n n ldl); auto; exists j, i; repeat split; lia).
    rewrite F4' by (intros HX; apply (Sep VL VR _ D6 CA HX)). auto.
  - apply (holds_mat _ h4 VR n n ldr); auto.
  - intros k Hk i Hi. cbn [nth]. rewrite <- (Cr i k Hi Hk). unfold mmul. apply zsum_ext. intros j Hj.
    rewrite (AM i j) by auto. reflexivity.
  - intros k j Hk Hj. cbn [nth]. rewrite <- (Cl k j Hk Hj). unfold mmul. apply zsum_ext. intros i Hi.
    rewrite (AM i j) by auto. reflexivity.
  - intros z Z1 Z2 Z3 Z4. rewrite F4', F3', F2', F1'; auto.
Qed.

(** [[2, 0], [1, 3]] (eigenvalues 2 and 3). *)
Definition Lge (info : Z) : @lapack ZOps :=
  @mkLapack ZOps (fun m n A => (0, A, [])) (fun n A p => (0, A)) (fun n k A B => (0, A, B))
    (fun n A => (0, A, fun _ => 0)) (fun m n A => (0, A, fun _ => 0, A, A))
    (fun m n A => (0, A, fun _ => 0, A, A, fun _ => 0)) (fun m n A => (0, A, fun _ => 0))
    (fun m n k A t => (0, A)) (fun n A => (0, A, fun _ => 1, fun _ => 0, A))
    (fun m n A B C => (0, C, 1))
    (fun n A => (info, A, fun k => 2 + k, fun i j => m2 [1; 1; 0; 1] [i; j], fun i j => m2 [1; 0; -1; 1] [i; j])).
Lemma Lge_contract : forall M, @agree ZOps 2 2 M (mx (O := ZOps) (m2 [2; 0; 1; 3])) ->
  geev_contract (O := ZOps) (fun x => x) (Lge 0) 2 M /\ fst (fst (fst (fst (x_geev (Lge 0) 2 M)))) = 0.
Proof.
  intros M HM. split; [|reflexivity]. unfold geev_contract. cbn [Lge x_geev]. intros _.
  split; intros i k Hi Hk; unfold mmul; rewrite sumZ2; rewrite !HM by lia; two i Hi; two k Hk; reflexivity.
Qed.
Example C64_case :
  match la_geev (O := ZOps) (Lge 0) (mkDesc 0 [2; 2] [3; 1]) (tensor_ctor 10 [2]) (tensor_ctor 20 [2; 2]) (tensor_ctor 30 [2; 2])
          (hor (buf 0 [2; 0; 77; 1; 3]) (hor (buf 10 [0; 0]) (hor (buf 20 [0; 0; 0; 0]) (buf 30 [0; 0; 0; 0])))) with
  | Ok h' => map h' [10; 11; 20; 21; 22; 23; 30; 31; 32; 33; 2] = map Some [2; 3; 1; 1; 0; 1; 1; 0; -1; 1; 77]
  | _ => False end.
Proof. vm_compute. reflexivity. Qed.

(** The stride of W is ignored. *)
Theorem C64_strided_values_refuted :
  exists (L : lapack) (A W VL VR : desc) (a : list Z -> Z) (h h' : heap Z),
    mat A 2 2 2 /\ vect W 2 2 /\ mat VL 2 2 2 /\ mat VR 2 2 2 /\ @holds Z h A a /\ alloc h W /\
    (forall M, @agree ZOps 2 2 M (mx (O := ZOps) a) ->
       geev_contract (O := ZOps) (fun x => x) L 2 M /\ fst (fst (fst (fst (x_geev L 2 M)))) = 0) /\
    la_geev (O := ZOps) L A W VL VR h = Ok h' /\
    ~ (exists r w, @holds Z h' VR r /\ @holds Z h' W w /\
         @eigenpair ZOps 2 (mx (O := ZOps) a) (w [1]) (fun i => r [i; 1])).
Proof.
  set (A := tensor_ctor 0 [2; 2]). set (W := mkDesc 10 [2] [2]). set (VL := tensor_ctor 20 [2; 2]). set (VR := tensor_ctor 30 [2; 2]).
  set (h := hor (buf 0 [2; 0; 1; 3]) (hor (buf 10 [0; 0; 0]) (hor (buf 20 [0; 0; 0; 0]) (buf 30 [0; 0; 0; 0])))).
  exists (Lge 0), A, W, VL, VR, (m2 [2; 0; 1; 3]), h.
  assert (C : match la_geev (O := ZOps) (Lge 0) A W VL VR h with
              | Ok h' => map h' [31; 33; 12] = [Some 0; Some 1; Some 0] | _ => False end) by (vm_compute; reflexivity).
  destruct (la_geev (O := ZOps) (Lge 0) A W VL VR h) as [h'| |]; try contradiction.
  exists h'. split; [apply tc_mat|]. split; [repeat split; simpl; lia|]. split; [apply tc_mat|]. split; [apply tc_mat|].
  split; [|split; [|split; [|split]]].
  - intros idx Hi. apply inb2_inv in Hi as (i & j & -> & Hi & Hj). two i Hi; two j Hj; reflexivity.
  - intros idx Hi. apply inb1_inv in Hi as (i & -> & Hi). exists 0. two i Hi; reflexivity.
  - apply Lge_contract.
  - reflexivity.
  - intros (r & w & Hr & Hw & HE).
    assert (V0 := Hr [0; 1] ltac:(apply inb2; lia)). assert (V1 := Hr [1; 1] ltac:(apply inb2; lia)).
    assert (W0 := Hw [1] ltac:(apply inb1; lia)).
    change (addr VR [0; 1]) with 31 in V0. change (addr VR [1; 1]) with 33 in V1. change (addr W [1]) with 12 in W0.
    injection C as C0 C1 C2. rewrite V0 in C0. rewrite V1 in C1. rewrite W0 in C2.
    injection C0 as C0. injection C1 as C1. injection C2 as C2.
    specialize (HE 1 ltac:(lia)). rewrite sumZ2 in HE. simpl in HE. rewrite C0, C1, C2 in HE. discriminate.
Qed.

(** A failure to converge is not reported. *)
Theorem C64_no_convergence_refuted :
  exists (L : lapack) (A W VL VR : desc) (a : list Z -> Z) (h h' : heap Z),
    mat A 2 2 2 /\ vect W 2 1 /\ mat VL 2 2 2 /\ mat VR 2 2 2 /\ @holds Z h A a /\
    (forall M, geev_contract (O := ZOps) (fun x => x) L 2 M /\ 0 < fst (fst (fst (fst (x_geev L 2 M))))) /\
    la_geev (O := ZOps) L A W VL VR h = Ok h'.
Proof.
  set (A := tensor_ctor 0 [2; 2]). set (W := tensor_ctor 10 [2]). set (VL := tensor_ctor 20 [2; 2]). set (VR := tensor_ctor 30 [2; 2]).
  set (h := hor (buf 0 [2; 0; 1; 3]) (hor (buf 10 [0; 0]) (hor (buf 20 [0; 0; 0; 0]) (buf 30 [0; 0; 0; 0])))).
  exists (Lge 1), A, W, VL, VR, (m2 [2; 0; 1; 3]), h.
  assert (C : match la_geev (O := ZOps) (Lge 1) A W VL VR h with Ok _ => True | _ => False end) by (vm_compute; exact I).
  destruct (la_geev (O := ZOps) (Lge 1) A W VL VR h) as [h'| |]; try contradiction.
  exists h'. split; [apply tc_mat|]. split; [apply tc_vect|]. split; [apply tc_mat|]. split; [apply tc_mat|]. split; [|split].
  - intros idx Hi. apply inb2_inv in Hi as (i & j & -> & Hi & Hj). two i Hi; two j Hj; reflexivity.
  - intros M. unfold geev_contract. simpl. split; [discriminate|lia].
  - reflexivity.
Qed.

Print Assumptions C61_svd_dd_partial.
Print Assumptions C61_svd_refuted.
Print Assumptions C61_no_convergence_refuted.
Print Assumptions C62_qr_partial.
Print Assumptions C62_tall_refuted.
Print Assumptions C62_wide_refuted.
Print Assumptions C63_lyapunov_general_partial.
Print Assumptions C63_lyapunov_partial.
Print Assumptions C63_transpose_refuted.
Print Assumptions C63_scale_refuted.
Print Assumptions C64_geev_partial.
Print Assumptions C64_strided_values_refuted.
Print Assumptions C64_no_convergence_refuted.
