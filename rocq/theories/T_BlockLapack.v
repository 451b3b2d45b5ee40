(** * T_BlockLapack: LAPACK drivers on block-diagonal matrices (C85-C87). *)
From Coq Require Import List ZArith Lia Bool Permutation Ring.
From Verif Require Import Base Heap Conc M_Addr M_Elt M_Einsum M_Blas M_Block M_Lapack M_BlockLapack S_Addr S_Einsum S_Blas S_Block
  L_Addr L_Elt L_Einsum L_Blas L_Block S_Lapack L_Lapack L_BlockLapack T_Blas T_Addr T_Lapack.
Import ListNotations.
Open Scope Z_scope.

(** What the memory holds at the elements of [d]. *)
Definition contents {O : Ops} (h : heap (car O)) (d : desc) (idx : list Z) : car O :=
  match h (addr d idx) with Some v => v | None => o0 end.
Lemma contents_eq : forall (O : Ops) (h : heap (car O)) d v idx, holds h d v -> inb idx (ddims d) -> contents h d idx = v idx.
Proof. intros O h d v idx H Hi. unfold contents. now rewrite (H idx Hi). Qed.
Lemma contents_holds : forall (O : Ops) (h : heap (car O)) d v, holds h d v -> holds h d (contents h d).
Proof. intros O h d v H idx Hi. rewrite (contents_eq O h d v idx H Hi). auto. Qed.
Lemma contents_agree : forall (O : Ops) (h : heap (car O)) d v m n, ddims d = [m; n] -> holds h d v ->
  agree m n (mx v) (mx (contents h d)).
Proof. intros O h d v m n D H i j Hi Hj. unfold mx. symmetry. apply contents_eq; auto. rewrite D. apply inb2; auto. Qed.
Lemma holds_cells : forall T (h h' : heap T) d f, (forall z, cell d z -> h' z = h z) -> holds h d f -> holds h' d f.
Proof. intros T h h' d f H Hd idx Hi. rewrite H; [auto|exists idx; auto]. Qed.
Lemma contents_cells : forall (O : Ops) (h h' : heap (car O)) d idx, (forall z, cell d z -> h' z = h z) -> inb idx (ddims d) ->
  contents h' d idx = contents h d idx.
Proof. intros O h h' d idx H Hi. unfold contents. rewrite H; auto. exists idx; auto. Qed.

Lemma slice_vec : forall W n lo hi, vect W n 1 -> 0 <= hi ->
  slice W [SRange lo hi] = mkDesc (dbase W + lo) [hi - lo] [1].
Proof.
  intros W n lo hi (D & St & _) H. unfold slice. rewrite D, St. cbn [length repeat slice_loop set_at nth app].
  rewrite (proj2 (Z.ltb_ge hi 0)) by lia. unfold dotp. simpl. f_equal. lia.
Qed.
Lemma slice_vec_cell : forall b n z, cell (mkDesc b [n] [1]) z <-> b <= z < b + n.
Proof.
  intros b n z. split.
  - intros (idx & Hi & ->). apply inb1_inv in Hi as (i & -> & Hi). unfold addr. simpl. lia.
  - intros Hz. exists [z - b]. split; [apply inb1; lia|]. unfold addr. simpl. lia.
Qed.

(** ** C85.  syev on a block-diagonal matrix: every row becomes an eigenvector
    of the whole matrix for the entry of W at the same position; the rows are
    orthonormal.  Within a block the eigenvalues ascend. *)
Theorem C85_syev_partial :
  forall (O : Ops), is_ring O ->
  forall (lt : car O -> car O -> bool) (L : lapack) (A : bt) (W : desc) (sizes : list Z) (a : nat -> list Z -> car O)
         (h : heap (car O)) (order : list nat),
    bt_ok 2 A sizes -> bt_holds h A a -> bt_sep A ->
    vect W (bt_dim A) 1 -> alloc h W -> (forall z, bt_cell A z -> ~ cell W z) ->
    Permutation order (seq 0 (length sizes)) ->
    (forall k M, (k < length sizes)%nat -> 0 < nth k sizes 0 -> agree (nth k sizes 0) (nth k sizes 0) M (upper (trn (mx (a k)))) ->
       syev_contract lt L (nth k sizes 0) M /\ fst (fst (x_syev L (nth k sizes 0) M)) = 0) ->
    exists h' v w, bt_syev L A W order h = Ok h' /\ bt_holds h' A v /\ holds h' W w /\
      orthogonal (bt_dim A) (mx (dense sizes v)) /\
      (forall r, 0 <= r < bt_dim A ->
         eigenpair (bt_dim A) (from_lower (mx (dense sizes a))) (w [r]) (fun j => dense sizes v [r; j])) /\
      (forall k r, (k < length sizes)%nat -> off sizes k <= r < off sizes (S k) - 1 -> lt (w [r + 1]) (w [r]) = false) /\
      (forall z, ~ bt_cell A z -> ~ cell W z -> h' z = h z).
Proof.
  intros O HR lt L A W sizes a h order OA HA SA VW AW DW HP HC.
  assert (HN : Forall (fun n => 0 <= n) sizes) by (destruct OA; auto).
  assert (DA : bt_dim A = off sizes (length sizes)) by (destruct OA as (_ & _ & _ & _ & _ & E); auto).
  assert (RA : forall k, (k < length sizes)%nat -> nth k (bt_ranges A) (0, 0) = (off sizes k, off sizes (S k)))
    by (destruct OA as (_ & _ & _ & _ & E & _); auto).
  assert (IN : forall i, In i order <-> (i < length sizes)%nat).
  { intros i. split; intros H.
    - apply (Permutation_in _ HP) in H. apply in_seq in H. lia.
    - apply (Permutation_in _ (Permutation_sym HP)). apply in_seq. lia. }
  assert (CW : forall z, cell W z <-> dbase W <= z < dbase W + bt_dim A).
  { intros z. split.
    - intros (idx & Hi & ->). rewrite (proj1 VW) in Hi. apply inb1_inv in Hi as (i & -> & Hi).
      rewrite (vect_addr W (bt_dim A) 1) by auto. lia.
    - intros Hz. exists [z - dbase W]. rewrite (proj1 VW), (vect_addr W (bt_dim A) 1) by auto. split; [apply inb1; lia|lia]. }
  set (wk := fun i => mkDesc (dbase W + off sizes i) [nth i sizes 0] [1]).
  assert (WK : forall i z, (i < length sizes)%nat -> cell (wk i) z <-> dbase W + off sizes i <= z < dbase W + off sizes i + nth i sizes 0)
    by (intros; apply slice_vec_cell).
  assert (WKW : forall i z, (i < length sizes)%nat -> cell (wk i) z -> cell W z).
  { intros i z Hi Hz. apply WK in Hz; auto. destruct (off_bounds sizes i HN Hi) as (B1 & B2 & B3 & B4).
    apply CW. lia. }
  set (own := fun i z => (exists d, nth_error (bt_blocks A) i = Some d /\ cell d z) \/ cell (wk i) z).
  set (P := fun i (h1 : heap (car O)) => forall d, nth_error (bt_blocks A) i = Some d ->
     holds h1 d (contents h1 d) /\ holds h1 (wk i) (contents h1 (wk i)) /\
     orthogonal (nth i sizes 0) (mx (contents h1 d)) /\
     (forall k, 0 <= k < nth i sizes 0 ->
        eigenpair (nth i sizes 0) (from_lower (mx (a i))) (contents h1 (wk i) [k]) (fun j => contents h1 d [k; j])) /\
     (forall k, 0 <= k < nth i sizes 0 - 1 -> lt (contents h1 (wk i) [k + 1]) (contents h1 (wk i) [k]) = false)).
  unfold bt_syev. match goal with |- context [forM order ?g h] => set (f := g) end.
  destruct (forM_regions nat (car O) own P f order h) as (h' & E & H1 & H2).
  - apply (Permutation_NoDup (Permutation_sym HP)). apply seq_NoDup.
  - intros i j z Hi Hj Oi Oj. apply IN in Hi, Hj. destruct (Nat.eq_dec i j) as [|Hne]; auto. exfalso.
    destruct Oi as [(d & Ed & (x & Hx & Ex))|Wi], Oj as [(e & Ee & (y & Hy & Ey))|Wj].
    + apply (SA i j d e Ed Ee Hne x y Hx Hy). congruence.
    + apply (DW z); [exists i, d; split; auto; exists x; auto|]. apply (WKW j); auto.
    + apply (DW z); [exists j, e; split; auto; exists y; auto|]. apply (WKW i); auto.
    + apply WK in Wi, Wj; auto. apply Hne. apply (off_unique sizes (z - dbase W)); auto; rewrite ?off_S; lia.
  - intros i h1 h2 Hi Hag HPi d Ed. destruct (HPi d Ed) as (Q1 & Q2 & Q3 & Q4 & Q5). apply IN in Hi.
    destruct (bt_block 2 A sizes i OA Hi) as (d' & Ed' & Dd & _). assert (d' = d) by congruence. subst d'. cbn [repeat] in Dd.
    assert (Ag1 : forall z, cell d z -> h2 z = h1 z) by (intros z Hz; symmetry; apply Hag; left; eauto).
    assert (Ag2 : forall z, cell (wk i) z -> h2 z = h1 z) by (intros z Hz; symmetry; apply Hag; now right).
    assert (C1 : forall p q, 0 <= p < nth i sizes 0 -> 0 <= q < nth i sizes 0 -> contents h2 d [p; q] = contents h1 d [p; q]).
    { intros p q Hp Hq. apply contents_cells; auto. rewrite Dd. apply inb2; auto. }
    assert (C2 : forall p, 0 <= p < nth i sizes 0 -> contents h2 (wk i) [p] = contents h1 (wk i) [p]).
    { intros p Hp. apply contents_cells; auto. apply inb1; auto. }
    split; [apply (contents_holds O h2 d (contents h1 d)); apply (holds_cells _ h1); auto|].
    split; [apply (contents_holds O h2 (wk i) (contents h1 (wk i))); apply (holds_cells _ h1); auto|].
    split; [|split].
    + apply (orthogonal_ext (nth i sizes 0) (mx (contents h1 d))); auto. intros p q Hp Hq. unfold mx. symmetry. apply C1; auto.
    + intros k Hk p Hp. rewrite C2, C1 by auto. rewrite <- (Q4 k Hk p Hp). apply zsum_ext. intros q Hq. now rewrite C1 by auto.
    + intros k Hk. rewrite !C2 by lia. apply Q5; auto.
  - intros i h1 Hi Hag. apply IN in Hi. destruct (bt_block 2 A sizes i OA Hi) as (d & Ed & Dd & Rd). cbn [repeat] in Dd.
    destruct (off_bounds sizes i HN Hi) as (B1 & B2 & B3 & B4).
    unfold f. rewrite Ed. unfold tdim. rewrite Dd. cbn [nth]. set (n0 := nth i sizes 0) in *.
    destruct (Z.eqb_spec n0 0) as [Ez|Ez].
    + exists h1. split; auto. split; auto. intros e Ee. assert (e = d) by congruence. subst e. fold n0. rewrite Ez.
      split; [|split; [|split; [|split]]].
      * intros idx Hx. rewrite Dd, Ez in Hx. apply inb2_inv in Hx as (p & q & _ & Hp & _). lia.
      * intros idx Hx. unfold wk in Hx. cbn [ddims] in Hx. apply inb1_inv in Hx as (p & _ & Hp). fold n0 in Hp. lia.
      * split; intros p q Hp; lia.
      * intros k Hk. lia.
      * intros k Hk. lia.
    + rewrite (RA i Hi). rewrite (slice_vec W (bt_dim A)) by (auto; lia).
      replace (off sizes (S i) - off sizes i) with n0 by lia.
      change (mkDesc (dbase W + off sizes i) [n0] [1]) with (wk i).
      assert (HA1 : holds h1 d (a i)).
      { intros x Hx. rewrite Hag; [now apply (HA i d)|]. left. left. exists d. split; auto. exists x; auto. }
      destruct (C58_syev_partial O HR lt L d (wk i) n0 n0 (a i) h1) as (h2 & v & w & E2 & V2 & W2 & O2 & P2 & S2 & F2); auto; try lia.
      * now apply sq_mat.
      * split; [reflexivity|split; [reflexivity|lia]].
      * intros idx Hx. assert (Hc : cell (wk i) (addr (wk i) idx)) by (exists idx; auto).
        rewrite Hag by (left; now right). assert (Hc' := WKW i _ Hi Hc). destruct Hc' as (y & Hy & ->). now apply AW.
      * intros x y Hx Hy Exy. apply (DW (addr d x)).
        -- exists i, d. split; auto. exists x; auto.
        -- rewrite Exy. apply (WKW i); auto. exists y; auto.
      * intros M HM. apply HC; auto. fold n0. lia.
      * exists h2. split; auto. split; [|intros z Hz; apply F2; intros Hc; apply Hz; [left; eauto|now right]].
        intros e Ee. assert (e = d) by congruence. subst e. fold n0.
        split; [now apply (contents_holds O h2 d v)|]. split; [now apply (contents_holds O h2 (wk i) w)|].
        assert (C1 : forall p q, 0 <= p < n0 -> 0 <= q < n0 -> contents h2 d [p; q] = v [p; q]).
        { intros p q Hp Hq. apply contents_eq; auto. rewrite Dd. apply inb2; auto. }
        assert (C2 : forall p, 0 <= p < n0 -> contents h2 (wk i) [p] = w [p]).
        { intros p Hp. apply contents_eq; auto. apply inb1; auto. }
        split; [|split].
        -- apply (orthogonal_ext n0 (mx v)); auto. now apply contents_agree.
        -- intros k Hk p Hp. rewrite C2, C1 by auto. rewrite <- (P2 k Hk p Hp). apply zsum_ext. intros q Hq. now rewrite C1 by auto.
        -- intros k Hk. rewrite !C2 by lia. apply S2; auto.
  - set (v := fun k => match nth_error (bt_blocks A) k with Some d => contents h' d | None => fun _ => o0 end).
    assert (W' : forall k r, (k < length sizes)%nat -> 0 <= r < nth k sizes 0 -> contents h' (wk k) [r] = contents h' W [off sizes k + r]).
    { intros k r Hk Hr. unfold contents. replace (addr (wk k) [r]) with (addr W [off sizes k + r]); auto.
      rewrite (vect_addr W (bt_dim A) 1) by auto. unfold addr, wk, dotp. simpl. ring. }
    assert (PB : forall k, (k < length sizes)%nat -> exists d, nth_error (bt_blocks A) k = Some d /\ v k = contents h' d /\
       ddims d = [nth k sizes 0; nth k sizes 0] /\ P k h').
    { intros k Hk. destruct (bt_block 2 A sizes k OA Hk) as (d & Ed & Dd & _). exists d. split; auto. split; [unfold v; now rewrite Ed|].
      split; auto. apply H1. now apply IN. }
    exists h', v, (contents h' W). split; auto. split; [|split; [|split; [|split; [|split]]]].
    + intros k d Ed. assert (Hk : (k < length sizes)%nat).
      { destruct OA as (_ & HL & _). rewrite <- HL. apply nth_error_Some. congruence. }
      destruct (PB k Hk) as (e & Ee & -> & _ & Pk). assert (e = d) by congruence. subst e. apply (Pk d Ed).
    + intros idx Hi. rewrite (proj1 VW) in Hi. apply inb1_inv in Hi as (r & -> & Hr). rewrite DA in Hr.
      destruct (split_blk sizes HN r Hr) as (k & r' & Hk & Hr' & ->). rewrite <- W' by auto.
      destruct (PB k Hk) as (d & Ed & _ & _ & Pk). destruct (Pk d Ed) as (_ & HW & _).
      rewrite <- (HW [r']) by (apply inb1; auto). f_equal. rewrite (vect_addr W (bt_dim A) 1) by auto. unfold addr, wk, dotp. simpl. ring.
    + rewrite DA. apply (dense_orthogonal HR); auto. intros k Hk. destruct (PB k Hk) as (d & Ed & -> & _ & Pk). apply (Pk d Ed).
    + rewrite DA. intros r Hr i Hi. destruct (split_blk sizes HN r Hr) as (k & r' & Hk & Hr' & ->).
      destruct (PB k Hk) as (d & Ed & EV & Dd & Pk). destruct (Pk d Ed) as (_ & _ & _ & HE & _).
      destruct (off_bounds sizes k HN Hk) as (B1 & B2 & B3 & B4). rewrite <- W' by auto.
      rewrite (zsum_window O HR _ (off sizes k) (nth k sizes 0)); try lia.
      2:{ intros p Hp Hn. rewrite (dense_off_row sizes HN v k r' p) by auto. apply (omul_0_r HR). }
      destruct (Z_le_gt_dec (off sizes k) i) as [L1|L1]; [destruct (Z_lt_ge_dec i (off sizes k + nth k sizes 0)) as [L2|L2]|].
      * replace i with (off sizes k + (i - off sizes k)) by lia. rewrite (dense_at sizes HN) by lia. rewrite EV.
        rewrite <- (HE r' Hr' (i - off sizes k)) by lia. apply zsum_ext. intros p Hp.
        rewrite (dense_at sizes HN) by lia. rewrite EV. f_equal. unfold from_lower, mx.
        destruct (Z.leb_spec (off sizes k + p) (off sizes k + (i - off sizes k))), (Z.leb_spec p (i - off sizes k)); try lia;
          apply (dense_at sizes HN); lia.
      * rewrite (dense_off_row sizes HN v k r' i) by lia. rewrite (omul_0_r HR). apply (zsum_zero O HR). intros p Hp.
        unfold from_lower, mx. rewrite (proj2 (Z.leb_le (off sizes k + p) i)) by lia.
        rewrite (dense_off_col sizes HN) by lia. apply (omul_0_l HR).
      * rewrite (dense_off_row sizes HN v k r' i) by lia. rewrite (omul_0_r HR). apply (zsum_zero O HR). intros p Hp.
        unfold from_lower, mx. rewrite (proj2 (Z.leb_gt (off sizes k + p) i)) by lia.
        rewrite (dense_off_row sizes HN) by lia. apply (omul_0_l HR).
    + intros k r Hk Hr. destruct (PB k Hk) as (d & Ed & _ & _ & Pk). destruct (Pk d Ed) as (_ & _ & _ & _ & HS).
      destruct (off_bounds sizes k HN Hk) as (B1 & B2 & B3 & B4). specialize (HS (r - off sizes k) ltac:(lia)).
      rewrite !W' in HS by lia. replace (off sizes k + (r - off sizes k + 1)) with (r + 1) in HS by lia.
      replace (off sizes k + (r - off sizes k)) with r in HS by lia. exact HS.
    + intros z Hz1 Hz2. apply H2. intros i Hi [(d & Ed & Hc)|Hc].
      * apply Hz1. exists i, d. auto.
      * apply Hz2. apply (WKW i); auto. now apply IN.
Qed.
Print Assumptions C85_syev_partial.

(** A LAPACK for 1 x 1 matrices of integers. *)
Definition L1 : @lapack ZOps :=
  @mkLapack ZOps (fun m n A => (if A 0 0 =? 0 then 1 else 0, A, [1])) (fun n A p => (0, A))
    (fun n k A B => (if A 0 0 =? 0 then 1 else 0, A, fun i j => B i j / A 0 0))
    (fun n A => (0, idZ, fun i => A i i)) (fun m n A => (0, A, fun _ => 0, A, A))
    (fun m n A => (0, A, fun _ => 0, A, A, fun _ => 0)) (fun m n A => (0, A, fun _ => 0))
    (fun m n k A t => (0, A)) (fun n A => (0, A, fun _ => 0, fun _ => 0, A))
    (fun m n A B C => (0, C, 1)) (fun n A => (0, A, fun _ => 0, A, A)).
Lemma sumZ1 : forall f, @zsum ZOps 1 f = f 0 + 0.
Proof. reflexivity. Qed.
Lemma L1_syev : forall M, syev_contract (O := ZOps) Z.ltb L1 1 M.
Proof.
  intros M. unfold syev_contract, L1. cbn [x_syev]. split; [lia|]. intros _. split; [|split].
  - split; intros i j Hi Hj; assert (i = 0) by lia; assert (j = 0) by lia; subst; reflexivity.
  - intros i k Hi Hk. assert (i = 0) by lia. assert (k = 0) by lia. subst. unfold mmul, from_upper. rewrite sumZ1. simpl. ring.
  - intros k Hk. lia.
Qed.

(** Two blocks of size 1 at [x] and [y]. *)
Definition two1 (x y : Z) : bt := bt_ctor 2 100 [x; y] [1; 1].
Lemma two1_ok : forall x y, bt_ok 2 (two1 x y) [1; 1].
Proof.
  intros x y. split; [repeat constructor; lia|]. split; [reflexivity|]. split.
  - intros [|[|k]] d H; simpl in H; try (destruct k; discriminate); injection H as <-; repeat split; reflexivity.
  - split; [reflexivity|]. split; [|reflexivity]. intros [|[|k]] Hk; try reflexivity. simpl in Hk. lia.
Qed.
Lemma two1_cell : forall x y z, bt_cell (two1 x y) z <-> z = x \/ z = y.
Proof.
  intros x y z. split.
  - intros (k & d & E & Hc). destruct k as [|[|k]]; simpl in E; try (destruct k; discriminate); injection E as <-;
      destruct Hc as (idx & Hi & ->); apply inb2_inv in Hi as (i & j & -> & Hi & Hj); unfold addr; simpl; lia.
  - intros [-> | ->]; [exists 0%nat|exists 1%nat]; eexists; (split; [reflexivity|]); exists [0; 0];
      (split; [repeat constructor; lia|]); unfold addr; simpl; lia.
Qed.
Lemma two1_sep : forall x y, x <> y -> bt_sep (two1 x y).
Proof.
  intros x y Hxy [|[|i]] [|[|j]] d e H1 H2 Hne; simpl in H1, H2; try congruence; try (destruct i; discriminate);
    try (destruct j; discriminate); injection H1 as <-; injection H2 as <-; intros p q Hp Hq;
    apply inb2_inv in Hp as (p1 & p2 & -> & P1 & P2); apply inb2_inv in Hq as (q1 & q2 & -> & Q1 & Q2); unfold addr; simpl; lia.
Qed.
Lemma two1_holds : forall T (h : heap T) x y u v, h x = Some u -> h y = Some v ->
  bt_holds h (two1 x y) (fun k _ => match k with 0%nat => u | _ => v end).
Proof.
  intros T h x y u v Hx Hy [|[|k]] d E; simpl in E; try (destruct k; discriminate); injection E as <-; intros idx Hi;
    apply inb2_inv in Hi as (i & j & -> & Hi & Hj); assert (i = 0) by lia; assert (j = 0) by lia; subst; unfold addr; simpl;
    rewrite Z.add_0_r; auto.
Qed.
Lemma perm2 : Permutation [0%nat; 1%nat] (seq 0 (length [1; 1])).
Proof. apply Permutation_refl. Qed.

(** C85 fails for the order of the eigenvalues: for diag(2, 1) in two blocks W is
    [2, 1]; [syev] of the same matrix in one piece gives ascending values. *)
Theorem C85_order_refuted :
  exists (L : @lapack ZOps) (A : bt) (W : desc) (a : nat -> list Z -> Z) (h h' : heap Z),
    bt_ok 2 A [1; 1] /\ bt_holds h A a /\ bt_sep A /\ vect W (bt_dim A) 1 /\ alloc h W /\ (forall z, bt_cell A z -> ~ cell W z) /\
    (forall M, syev_contract (O := ZOps) Z.ltb L 1 M /\ fst (fst (x_syev L 1 M)) = 0) /\
    bt_syev (O := ZOps) L A W [0; 1]%nat h = Ok h' /\
    ~ (exists w, @holds Z h' W w /\ forall r, 0 <= r < bt_dim A - 1 -> (w [r + 1] <? w [r]) = false).
Proof.
  exists L1, (two1 0 1), (tensor_ctor 10 [2]), (fun k _ => match k with 0%nat => 2 | _ => 1 end), (hor (buf 0 [2; 1]) (buf 10 [0; 0])).
  assert (C : match bt_syev (O := ZOps) L1 (two1 0 1) (tensor_ctor 10 [2]) [0; 1]%nat (hor (buf 0 [2; 1]) (buf 10 [0; 0])) with
              | Ok h' => map h' [10; 11] = [Some 2; Some 1] | _ => False end) by reflexivity.
  destruct (bt_syev L1 _ _ _ _) as [h'| |] eqn:E; try contradiction.
  exists h'. split; [apply two1_ok|]. split; [now apply two1_holds|]. split; [apply two1_sep; lia|]. split; [apply tc_vect|].
  split; [|split; [|split; [|split; [reflexivity|]]]].
  - intros idx Hi. apply inb1_inv in Hi as (i & -> & Hi). exists 0. two i Hi; reflexivity.
  - intros z Hz Hc. apply two1_cell in Hz. apply tc_cell1 in Hc; lia.
  - intros M. split; [apply L1_syev|reflexivity].
  - intros (w & Hw & H). injection C as C0 C1.
    assert (W0 := Hw [0] ltac:(apply inb1; lia)). assert (W1 := Hw [1] ltac:(apply inb1; lia)).
    change (addr (tensor_ctor 10 [2]) [0]) with 10 in W0. change (addr (tensor_ctor 10 [2]) [1]) with 11 in W1.
    rewrite C0 in W0. rewrite C1 in W1. injection W0 as W0. injection W1 as W1.
    specialize (H 0 ltac:(change (bt_dim (two1 0 1)) with 2; lia)). change (0 + 1) with 1 in H. rewrite <- W0, <- W1 in H. discriminate.
Qed.
Print Assumptions C85_order_refuted.

(** diag([[1, 2], [2, 3]] -- here already diagonal: diag(1, 3) -- , 7), and an empty block. *)
Example C85_case :
  let L := @mkLapack ZOps (fun m n A => (0, A, [])) (fun n A p => (0, A)) (fun n k A B => (0, A, B))
    (fun n A => (0, idZ, fun i => A i i)) (fun m n A => (0, A, fun _ => 0, A, A))
    (fun m n A => (0, A, fun _ => 0, A, A, fun _ => 0)) (fun m n A => (0, A, fun _ => 0))
    (fun m n k A t => (0, A)) (fun n A => (0, A, fun _ => 0, fun _ => 0, A))
    (fun m n A B C => (0, C, 1)) (fun n A => (0, A, fun _ => 0, A, A)) in
  match bt_syev (O := ZOps) L (bt_ctor 2 100 [0; 4; 4] [2; 0; 1]) (tensor_ctor 10 [3]) [2; 1; 0]%nat
          (hor (buf 0 [1; 0; 0; 3; 7]) (buf 10 [0; 0; 0])) with
  | Ok h' => map h' [0; 1; 2; 3; 4; 10; 11; 12] = map Some [1; 0; 0; 1; 1; 1; 3; 7]
  | _ => False end.
Proof. reflexivity. Qed.

(** ** C86.  gesv and invert on block-diagonal matrices. *)
Lemma order_in : forall order n, Permutation order (seq 0 n) -> forall i, In i order <-> (i < n)%nat.
Proof.
  intros order n HP i. split; intros H.
  - apply (Permutation_in _ HP) in H. apply in_seq in H. lia.
  - apply (Permutation_in _ (Permutation_sym HP)). apply in_seq. lia.
Qed.
Lemma bt_index : forall rank t sizes k d, bt_ok rank t sizes -> nth_error (bt_blocks t) k = Some d -> (k < length sizes)%nat.
Proof. intros rank t sizes k d (_ & HL & _) E. rewrite <- HL. apply nth_error_Some. congruence. Qed.

(** One thread: the rows of B are replaced by the solutions x of x A = b, or a
    positive number is returned and A is singular. *)
Theorem C86_gesv_partial :
  forall (O : Ops), is_ring O ->
  forall (L : lapack) (A B : bt) (sizes : list Z) (a b : nat -> list Z -> car O) (h : heap (car O)) (order : list nat),
    bt_ok 2 A sizes -> bt_ok 2 B sizes -> bt_holds h A a -> bt_holds h B b -> bt_sep A -> bt_sep B -> bt_disj A B ->
    Permutation order (seq 0 (length sizes)) ->
    (forall k M N, (k < length sizes)%nat -> 0 < nth k sizes 0 ->
       agree (nth k sizes 0) (nth k sizes 0) M (trn (mx (a k))) -> agree (nth k sizes 0) (nth k sizes 0) N (trn (mx (b k))) ->
       gesv_contract L (nth k sizes 0) (nth k sizes 0) M N) ->
    exists info h' x, bt_gesv L A B order h = Ok (info, h') /\ 0 <= info /\ bt_holds h' B x /\
      (info = 0 -> agree (bt_dim A) (bt_dim A) (mmul (bt_dim A) (mx (dense sizes x)) (mx (dense sizes a))) (mx (dense sizes b))) /\
      (info <> 0 -> forall C, ~ inverse (bt_dim A) (mx (dense sizes a)) C) /\
      (forall z, ~ bt_cell A z -> ~ bt_cell B z -> h' z = h z).
Proof.
  intros O HR L A B sizes a b h order OA OB HA HB SA SB D HP HC.
  assert (HN : Forall (fun n => 0 <= n) sizes) by (destruct OA; auto).
  assert (DA : bt_dim A = off sizes (length sizes)) by (destruct OA as (_ & _ & _ & _ & _ & E); auto).
  assert (IN := order_in order (length sizes) HP).
  set (own := fun i z => (exists d, nth_error (bt_blocks A) i = Some d /\ cell d z) \/
                         (exists d, nth_error (bt_blocks B) i = Some d /\ cell d z)).
  set (P := fun i (ys : list Z) (h1 : heap (car O)) => forall e, nth_error (bt_blocks B) i = Some e ->
     holds h1 e (contents h1 e) /\ Forall (fun y => 0 <= y) ys /\
     (Forall (fun y => y = 0) ys -> agree (nth i sizes 0) (nth i sizes 0) (mmul (nth i sizes 0) (mx (contents h1 e)) (mx (a i))) (mx (b i))) /\
     (forall y, In y ys -> y <> 0 -> forall C, ~ inverse (nth i sizes 0) (mx (a i)) C)).
  unfold bt_gesv, bt_gesv_calls.
  assert (LAB : length (bt_blocks A) = length (bt_blocks B)).
  { destruct OA as (_ & -> & _), OB as (_ & -> & _). reflexivity. }
  rewrite LAB, Nat.eqb_refl. cbn [negb].
  match goal with |- context [forM order ?g ([], h)] => set (f := g) end.
  destruct (forM_regions_acc nat Z (car O) own P f order h) as (yss & h' & E & H1 & H2).
  - apply (Permutation_NoDup (Permutation_sym HP)). apply seq_NoDup.
  - intros i j z Hi Hj Oi Oj. destruct (Nat.eq_dec i j) as [|Hne]; auto. exfalso.
    destruct Oi as [(d & Ed & (x & Hx & Ex))|(d & Ed & (x & Hx & Ex))], Oj as [(e & Ee & (y & Hy & Ey))|(e & Ee & (y & Hy & Ey))].
    + apply (SA i j d e Ed Ee Hne x y Hx Hy). congruence.
    + apply (D i j d e Ed Ee x y Hx Hy). congruence.
    + apply (D j i e d Ee Ed y x Hy Hx). congruence.
    + apply (SB i j d e Ed Ee Hne x y Hx Hy). congruence.
  - intros i ys h1 h2 Hi Hag HPi e Ee. destruct (HPi e Ee) as (Q1 & Q2 & Q3 & Q4). apply IN in Hi.
    destruct (bt_block 2 B sizes i OB Hi) as (d' & Ed' & De & _). assert (d' = e) by congruence. subst d'. cbn [repeat] in De.
    assert (Ag1 : forall z, cell e z -> h2 z = h1 z) by (intros z Hz; symmetry; apply Hag; right; eauto).
    split; [apply (contents_holds O h2 e (contents h1 e)); apply (holds_cells _ h1); auto|]. split; auto. split; auto.
    intros Hy p q Hp Hq. rewrite <- (Q3 Hy p q Hp Hq). unfold mmul. apply zsum_ext. intros r Hr. f_equal. unfold mx.
    apply contents_cells; auto. rewrite De. apply inb2; auto.
  - intros i acc h1 Hi Hag. apply IN in Hi. destruct (bt_block 2 A sizes i OA Hi) as (d & Ed & Dd & Rd). cbn [repeat] in Dd.
    destruct (bt_block 2 B sizes i OB Hi) as (e & Ee & De & Re). cbn [repeat] in De.
    destruct (off_bounds sizes i HN Hi) as (B1 & B2 & B3 & B4).
    unfold f. rewrite Ed, Ee. unfold tdim. rewrite Dd. cbn [nth fst snd]. set (n0 := nth i sizes 0) in *.
    destruct (Z.eqb_spec n0 0) as [Ez|Ez].
    + exists [], h1. rewrite app_nil_r. split; auto. split; auto. intros e' Ee'. assert (e' = e) by congruence. subst e'. fold n0. rewrite Ez.
      split; [|split; [constructor|split]].
      * intros idx Hx. rewrite De, Ez in Hx. apply inb2_inv in Hx as (p & q & _ & Hp & _). lia.
      * intros _ p q Hp. lia.
      * intros y [].
    + assert (HA1 : holds h1 d (a i)).
      { intros x Hx. rewrite Hag; [now apply (HA i d)|]. left. left. exists d. split; auto. exists x; auto. }
      assert (HB1 : holds h1 e (b i)).
      { intros x Hx. rewrite Hag; [now apply (HB i e)|]. left. right. exists e. split; auto. exists x; auto. }
      destruct (C56_gesv_partial O HR L d e n0 n0 (a i) (b i) h1) as (info & h2 & x & E2 & I2 & X2 & S2 & N2 & F2); auto; try lia.
      * now apply sq_mat.
      * now apply sq_mat.
      * apply (D i i d e Ed Ee).
      * intros M N HM HN'. apply HC; auto. fold n0. lia.
      * exists [info], h2. rewrite E2. cbn [bind fst snd]. split; auto. split; [|intros z Hz; apply F2; intros Hc; apply Hz; [left|right]; eauto].
        intros e' Ee'. assert (e' = e) by congruence. subst e'. fold n0.
        split; [now apply (contents_holds O h2 e x)|]. split; [repeat constructor; auto|]. split.
        -- intros Hy. inversion Hy; subst. intros p q Hp Hq. rewrite <- (S2 eq_refl p q Hp Hq). unfold mmul. apply zsum_ext.
           intros r Hr. f_equal. unfold mx. apply contents_eq; auto. rewrite De. apply inb2; auto.
        -- intros y [<-|[]] Hy. auto.
  - rewrite E. cbn [bind fst snd].
    set (x := fun k => match nth_error (bt_blocks B) k with Some d => contents h' d | None => fun _ => o0 end).
    assert (PB : forall k, (k < length sizes)%nat -> exists ys, In ys yss /\ P k ys h').
    { intros k Hk. apply IN in Hk. clear -H1 Hk. induction H1 as [|i ys l yss' Hp H IH]; [easy|]. destruct Hk as [<-|Hk].
      - exists ys. split; simpl; auto.
      - destruct (IH Hk) as (zs & Hz & Hp'). exists zs. split; simpl; auto. }
    assert (PY : forall ys, In ys yss -> exists k, (k < length sizes)%nat /\ P k ys h').
    { intros ys Hy. assert (G : exists k, In k order /\ P k ys h').
      { clear -H1 Hy. induction H1 as [|i zs l yss' Hp H IH]; [easy|]. destruct Hy as [<-|Hy].
        - exists i. split; simpl; auto.
        - destruct (IH Hy) as (k & Hk & Hp'). exists k. split; simpl; auto. }
      destruct G as (k & Hk & Hp). exists k. split; auto. now apply IN. }
    assert (NN : Forall (fun y => 0 <= y) (concat yss)).
    { apply Forall_forall. intros y Hy. apply in_concat in Hy as (ys & Hys & Hy). destruct (PY ys Hys) as (k & Hk & Hp).
      destruct (bt_block 2 B sizes k OB Hk) as (e & Ee & _). destruct (Hp e Ee) as (_ & Q & _).
      rewrite Forall_forall in Q. auto. }
    exists (fold_left Z.lor (concat yss) 0), h', x. split; auto. split; [apply fold_lor_nonneg; auto; lia|].
    split; [|split; [|split]].
    + intros k e Ee. destruct (PB k (bt_index 2 B sizes k e OB Ee)) as (ys & _ & Hp). unfold x. rewrite Ee. apply (Hp e Ee).
    + intros I0. apply fold_lor_zero in I0; auto. rewrite DA. apply (dense_mmul HR sizes HN). intros k Hk.
      destruct (PB k Hk) as (ys & Hys & Hp). destruct (bt_block 2 B sizes k OB Hk) as (e & Ee & _). unfold x. rewrite Ee.
      apply (Hp e Ee). apply Forall_forall. intros y Hy. rewrite Forall_forall in I0. apply I0. apply in_concat. eauto.
    + intros I0 C HI. apply I0. apply fold_lor_zero; auto. apply Forall_forall. intros y Hy.
      apply in_concat in Hy as (ys & Hys & Hy). destruct (PY ys Hys) as (k & Hk & Hp).
      destruct (bt_block 2 B sizes k OB Hk) as (e & Ee & _). destruct (Hp e Ee) as (_ & _ & _ & Q).
      destruct (Z.eq_dec y 0) as [|Hy0]; auto. exfalso. rewrite DA in HI.
      apply (Q y Hy Hy0 (fun i j => C (off sizes k + i) (off sizes k + j))). now apply (dense_inverse_inv HR sizes HN).
    + intros z Hz1 Hz2. apply H2. intros i Hi [(d & Ed & Hc)|(d & Ed & Hc)].
      * apply Hz1. exists i, d. auto.
      * apply Hz2. exists i, d. auto.
Qed.
Print Assumptions C86_gesv_partial.

(** Several threads: every bit of the returned number is a bit of the number some
    call returned, whatever the schedule; so the result is zero if every call
    succeeded. *)
Inductive por (Q : Z -> Prop) : prog Z unit -> Prop :=
| por_ret : por Q (PRet tt)
| por_rd : forall k, (forall v, Q v -> por Q (k v)) -> por Q (PRd 0 k)
| por_wr : forall v k, Q v -> por Q k -> por Q (PWr 0 v k).
Lemma por_bind : forall Q p q, por Q p -> por Q q -> por Q (pbind p (fun _ => q)).
Proof. intros Q p q H Hq. induction H; simpl; [auto|constructor; auto|constructor; auto]. Qed.
Lemma replace_Forall : forall A (P : A -> Prop) l i x, Forall P l -> P x -> Forall P (replace i x l).
Proof. induction l as [|y l IH]; intros [|i] x H Hx; simpl; auto; inversion H; subst; constructor; auto. Qed.
Lemma por_pool : forall Q s t, @psteps Z s t -> Forall (por Q) (fst s) -> (exists v, snd s 0 = Some v /\ Q v) ->
  Forall (por Q) (fst t) /\ exists v, snd t 0 = Some v /\ Q v.
Proof.
  intros Q s t H. induction H as [s|s t u H1 H2 IH]; intros Hp (v & Ev & Hv); eauto.
  destruct H1 as [ps h i a k w En Ea|ps h i a w k w0 En Ea]; simpl in *; assert (Hn := nth_error_In _ _ En);
    rewrite Forall_forall in Hp; specialize (Hp _ Hn) as Hi; rewrite <- Forall_forall in Hp.
  - inversion Hi as [|k' Hk|]; subst. apply IH; eauto. apply replace_Forall; auto. apply Hk. assert (w = v) by congruence. now subst.
  - inversion Hi as [| |w' k' Hw Hk]; subst. apply IH; eauto; [apply replace_Forall; auto|]. exists w. rewrite upd_same. auto.
Qed.
Theorem C86_info_partial : forall (infos : list (list Z)) (h h' : heap Z) ps,
  h 0 = Some 0 -> psteps (or_threads infos, h) (ps, h') -> pdone ps ->
  exists v, h' 0 = Some v /\
    (forall n, 0 <= n -> Z.testbit v n = true -> exists i, In i (concat infos) /\ Z.testbit i n = true) /\
    ((forall i, In i (concat infos) -> i = 0) -> v = 0).
Proof.
  intros infos h h' ps H0 Hs _.
  set (Q := fun v => forall n, 0 <= n -> Z.testbit v n = true -> exists i, In i (concat infos) /\ Z.testbit i n = true).
  destruct (por_pool Q _ _ Hs) as (_ & v & Ev & Hv).
  - simpl. apply Forall_forall. intros p Hp. apply in_map_iff in Hp as (l & <- & Hl).
    assert (G : forall r, incl r l -> por Q (pseq r or_body)).
    { induction r as [|x r IH]; intros Hi; [constructor|]. cbn [pseq]. apply por_bind; [|apply IH; intros y Hy; apply Hi; now right].
      constructor. intros v Hv. constructor; [|constructor]. intros n Hn Hb. rewrite Z.lor_spec in Hb. apply orb_true_iff in Hb as [Hb|Hb]; auto.
      exists x. split; auto. apply in_concat. exists l. split; auto. apply Hi. now left. }
    apply G. apply incl_refl.
  - exists 0. split; auto. intros n _. now rewrite Z.bits_0.
  - exists v. split; auto. split; auto. intros HZ. apply Z.bits_inj'. intros n Hn. rewrite Z.bits_0.
    destruct (Z.testbit v n) eqn:Eb; auto. destruct (Hv n Hn Eb) as (i & Hi & Hb). rewrite (HZ i Hi), Z.bits_0 in Hb. discriminate.
Qed.
Print Assumptions C86_info_partial.

(** C86 fails with two threads: one call reports a singular block (1), the other
    success; the second thread reads [info_out] before the first writes it and
    writes 0 back: the caller sees success. *)
Theorem C86_info_refuted :
  exists ps (h' : heap Z), psteps (or_threads [[1]; [0]], fun z => if z =? 0 then Some 0 else None) (ps, h') /\ pdone ps /\ h' 0 = Some 0.
Proof.
  eexists _, _. split; [|split].
  - eapply pss_step; [eapply (ps_rd _ _ 0%nat); reflexivity|]. eapply pss_step; [eapply (ps_rd _ _ 1%nat); reflexivity|].
    eapply pss_step; [eapply (ps_wr _ _ 0%nat); reflexivity|]. eapply pss_step; [eapply (ps_wr _ _ 1%nat); reflexivity|].
    apply pss_refl.
  - repeat constructor.
  - reflexivity.
Qed.
Print Assumptions C86_info_refuted.

(** No empty block: either the inverse of the whole matrix, or an error and the
    matrix is singular. *)
Theorem C86_invert_partial :
  forall (O : Ops), is_ring O ->
  forall (L : lapack) (A : bt) (sizes : list Z) (a : nat -> list Z -> car O) (h : heap (car O)) (order : list nat),
    bt_ok 2 A sizes -> Forall (fun n => 0 < n) sizes -> bt_holds h A a -> bt_sep A ->
    Permutation order (seq 0 (length sizes)) ->
    (forall k M, (k < length sizes)%nat -> agree (nth k sizes 0) (nth k sizes 0) M (trn (mx (a k))) -> inv_contract L (nth k sizes 0) M) ->
    (bt_invert L A order h = Throw /\ forall B, ~ inverse (bt_dim A) (mx (dense sizes a)) B) \/
    (exists h' b, bt_invert L A order h = Ok h' /\ bt_holds h' A b /\
       inverse (bt_dim A) (mx (dense sizes a)) (mx (dense sizes b)) /\
       (forall z, ~ bt_cell A z -> h' z = h z)).
Proof.
  intros O HR L A sizes a h order OA HPos HA SA HP HC.
  assert (HN : Forall (fun n => 0 <= n) sizes) by (destruct OA; auto).
  assert (DA : bt_dim A = off sizes (length sizes)) by (destruct OA as (_ & _ & _ & _ & _ & E); auto).
  assert (IN := order_in order (length sizes) HP).
  set (own := fun i z => exists d, nth_error (bt_blocks A) i = Some d /\ cell d z).
  set (P := fun i (h1 : heap (car O)) => forall e, nth_error (bt_blocks A) i = Some e ->
     holds h1 e (contents h1 e) /\ inverse (nth i sizes 0) (mx (a i)) (mx (contents h1 e))).
  unfold bt_invert. match goal with |- context [forM order ?g h] => set (f := g) end.
  destruct (forM_regions_or nat (car O) own P (fun i => forall C, ~ inverse (nth i sizes 0) (mx (a i)) C) f order h)
    as [(E & i & Hi & HB)|(h' & E & H1 & H2)].
  - apply (Permutation_NoDup (Permutation_sym HP)). apply seq_NoDup.
  - intros i j z Hi Hj (d & Ed & (x & Hx & Ex)) (e & Ee & (y & Hy & Ey)). destruct (Nat.eq_dec i j) as [|Hne]; auto. exfalso.
    apply (SA i j d e Ed Ee Hne x y Hx Hy). congruence.
  - intros i h1 h2 Hi Hag HPi e Ee. destruct (HPi e Ee) as (Q1 & Q2). apply IN in Hi.
    destruct (bt_block 2 A sizes i OA Hi) as (d' & Ed' & De & _). assert (d' = e) by congruence. subst d'. cbn [repeat] in De.
    assert (Ag1 : forall z, cell e z -> h2 z = h1 z) by (intros z Hz; symmetry; apply Hag; exists e; auto).
    split; [apply (contents_holds O h2 e (contents h1 e)); apply (holds_cells _ h1); auto|].
    apply (inverse_ext (nth i sizes 0) (mx (a i)) (mx (a i)) (mx (contents h1 e)) (mx (contents h2 e))); auto; [apply agree_refl|].
    intros p q Hp Hq. unfold mx. symmetry. apply contents_cells; auto. rewrite De. apply inb2; auto.
  - intros i h1 Hi Hag. apply IN in Hi. destruct (bt_block 2 A sizes i OA Hi) as (d & Ed & Dd & Rd). cbn [repeat] in Dd.
    unfold f. rewrite Ed. set (n0 := nth i sizes 0) in *.
    assert (Hn0 : 0 < n0) by (rewrite Forall_forall in HPos; apply HPos; now apply nth_In).
    assert (HA1 : holds h1 d (a i)).
    { intros x Hx. rewrite Hag; [now apply (HA i d)|]. left. exists d. split; auto. exists x; auto. }
    destruct (C57_invert O HR L d n0 n0 (a i) h1) as [(E & HS)|(h2 & b & E & HB & HI & F2)]; auto.
    + now apply sq_mat.
    + intros M HM. now apply HC.
    + right. exists h2. split; auto. split; [|intros z Hz; apply F2; intros Hc; apply Hz; exists d; auto].
      intros e Ee. assert (e = d) by congruence. subst e. split; [now apply (contents_holds O h2 d b)|]. fold n0.
      apply (inverse_ext n0 (mx (a i)) (mx (a i)) (mx b) (mx (contents h2 d))); auto; [apply agree_refl|]. now apply contents_agree.
  - left. split; auto. intros B HI. rewrite DA in HI. apply IN in Hi.
    apply (HB (fun p q => B (off sizes i + p) (off sizes i + q))). now apply (dense_inverse_inv HR sizes HN).
  - right. set (b := fun k => match nth_error (bt_blocks A) k with Some d => contents h' d | None => fun _ => o0 end).
    exists h', b. split; auto. split; [|split].
    + intros k d Ed. unfold b. rewrite Ed. apply (H1 k); auto. apply IN. now apply (bt_index 2 A sizes k d).
    + rewrite DA. apply (dense_inverse HR sizes HN). intros k Hk. destruct (bt_block 2 A sizes k OA Hk) as (d & Ed & _).
      unfold b. rewrite Ed. apply (H1 k); auto. now apply IN.
    + intros z Hz. apply H2. intros i Hi (d & Ed & Hc). apply Hz. exists i, d. auto.
Qed.
Print Assumptions C86_invert_partial.

(** C86 fails for an empty block: LAPACK rejects the leading dimension 0, whatever
    the other blocks are. *)
Theorem C86_empty_block_refuted : forall (O : Ops) (L : lapack) (x y zero : Z) (h : heap (car O)),
  bt_ok 2 (bt_ctor 2 zero [x; y] [1; 0]) [1; 0] /\ bt_invert L (bt_ctor 2 zero [x; y] [1; 0]) [1; 0]%nat h = Throw.
Proof.
  intros. split; [|reflexivity]. split; [repeat constructor; lia|]. split; [reflexivity|]. split.
  - intros [|[|k]] d E; simpl in E; try (destruct k; discriminate); injection E as <-; repeat split; reflexivity.
  - split; [reflexivity|]. split; [|reflexivity]. intros [|[|k]] Hk; simpl in Hk; try lia; reflexivity.
Qed.
Print Assumptions C86_empty_block_refuted.

Lemma L1_gesv : forall a b M N, a <> 0 -> (exists q, b = q * a) -> @agree ZOps 1 1 M (fun _ _ => a) -> @agree ZOps 1 1 N (fun _ _ => b) ->
  gesv_contract (O := ZOps) L1 1 1 M N.
Proof.
  intros a b M N Ha (q & ->) HM HN. unfold gesv_contract, L1. cbn [x_gesv]. rewrite (HM 0 0) by lia.
  rewrite (proj2 (Z.eqb_neq a 0)) by auto. split; [lia|]. split; [|lia]. intros _ i j Hi Hj.
  assert (i = 0) by lia. assert (j = 0) by lia. subst. unfold mmul. rewrite sumZ1. cbn [omul ZOps]. rewrite (HM 0 0), (HN 0 0) by lia.
  rewrite Z.div_mul by auto. change (a * q + 0 = q * a). ring.
Qed.
(** x diag(2, 5) = diag(6, 10). *)
Example C86_case :
  (forall k M N, (k < 2)%nat -> 0 < nth k [1; 1] 0 ->
     @agree ZOps (nth k [1; 1] 0) (nth k [1; 1] 0) M (fun _ _ => match k with 0%nat => 2 | _ => 5 end) ->
     @agree ZOps (nth k [1; 1] 0) (nth k [1; 1] 0) N (fun _ _ => match k with 0%nat => 6 | _ => 10 end) ->
     gesv_contract (O := ZOps) L1 (nth k [1; 1] 0) (nth k [1; 1] 0) M N) /\
  match bt_gesv (O := ZOps) L1 (two1 0 1) (two1 2 3) [1; 0]%nat (buf 0 [2; 5; 6; 10]) with
  | Ok (info, h') => info = 0 /\ map h' [2; 3] = [Some 3; Some 2]
  | _ => False end /\
  match bt_gesv (O := ZOps) L1 (two1 0 1) (two1 2 3) [1; 0]%nat (buf 0 [2; 0; 6; 10]) with
  | Ok (info, h') => info = 1 | _ => False end.
Proof.
  split; [|split; [split; reflexivity|reflexivity]].
  intros [|[|k]] M N Hk _; cbn [nth]; [| |lia]; intros HM HN;
    [apply (L1_gesv 2 6 M N)|apply (L1_gesv 5 10 M N)]; auto; try discriminate; [exists 3|exists 2]; reflexivity.
Qed.
(** diag(1, -1) is its own inverse; diag(1, 0) has none. *)
Lemma L1_inv : forall M, -1 <= M 0 0 <= 1 -> inv_contract (O := ZOps) L1 1 M.
Proof.
  intros M HM. unfold inv_contract, L1. cbn [x_getrf x_getri fst snd]. destruct (Z.eqb_spec (M 0 0) 0) as [E|E].
  - split; [lia|]. split; [|lia]. intros _ B (HI & _). specialize (HI 0 0 ltac:(lia) ltac:(lia)). unfold mmul in HI. rewrite sumZ1 in HI.
    simpl in HI. rewrite E in HI. discriminate.
  - split; [lia|]. split; [lia|]. intros _ F' HF. split; auto. assert (E1 : M 0 0 = 1 \/ M 0 0 = -1) by lia.
    split; intros i j Hi Hj; assert (i = 0) by lia; assert (j = 0) by lia; subst; unfold mmul; rewrite sumZ1; rewrite (HF 0 0) by lia;
      destruct E1 as [-> | ->]; reflexivity.
Qed.
Example C86_invert_case :
  (forall k M, (k < 2)%nat -> @agree ZOps (nth k [1; 1] 0) (nth k [1; 1] 0) M (fun _ _ => match k with 0%nat => 1 | _ => -1 end) ->
     inv_contract (O := ZOps) L1 (nth k [1; 1] 0) M) /\
  match bt_invert (O := ZOps) L1 (two1 0 1) [1; 0]%nat (buf 0 [1; -1]) with
  | Ok h' => map h' [0; 1] = [Some 1; Some (-1)] | _ => False end /\
  bt_invert (O := ZOps) L1 (two1 0 1) [1; 0]%nat (buf 0 [1; 0]) = Throw.
Proof.
  split; [|split; reflexivity].
  intros [|[|k]] M Hk; cbn [nth]; [| |lia]; intros HM; apply L1_inv; rewrite (HM 0 0) by lia; lia.
Qed.

(** ** C87.  Powers of block-diagonal matrices. *)
Lemma nth_error_combine : forall A B (l : list A) (m : list B) k x y, nth_error l k = Some x -> nth_error m k = Some y ->
  nth_error (combine l m) k = Some (x, y).
Proof. induction l as [|a l IH]; intros [|b m] [|k] x y H1 H2; simpl in *; try discriminate; [congruence|auto]. Qed.
Lemma ctor_block : forall rank zero bases sizes k, length bases = length sizes -> (k < length sizes)%nat ->
  nth_error (bt_blocks (bt_ctor rank zero bases sizes)) k = Some (tensor_ctor (nth k bases 0) (repeat (nth k sizes 0) rank)).
Proof.
  intros rank zero bases sizes k HL Hk. unfold bt_ctor.
  destruct (update_dims_tiled (mkBt (map (fun p => tensor_ctor (fst p) (repeat (snd p) rank)) (combine bases sizes)) [] [] 0 zero)) as (_ & -> & _).
  cbn [bt_blocks]. apply (map_nth_error (fun p : Z * Z => tensor_ctor (fst p) (repeat (snd p) rank)) k _ (d := (nth k bases 0, nth k sizes 0))).
  apply nth_error_combine; apply nth_error_nth'; lia.
Qed.
Lemma ctor_ok : forall rank zero bases sizes, (0 < rank)%nat -> length bases = length sizes -> Forall (fun n => 0 <= n) sizes ->
  bt_ok rank (bt_ctor rank zero bases sizes) sizes.
Proof.
  intros rank zero bases sizes Hr HL HN. split; auto.
  assert (LB : length (bt_blocks (bt_ctor rank zero bases sizes)) = length sizes).
  { unfold bt_ctor.
    destruct (update_dims_tiled (mkBt (map (fun p => tensor_ctor (fst p) (repeat (snd p) rank)) (combine bases sizes)) [] [] 0 zero)) as (_ & -> & _).
    cbn [bt_blocks]. rewrite map_length, combine_length. lia. }
  split; auto. split.
  - intros k d E. assert (Hk : (k < length sizes)%nat) by (rewrite <- LB; apply nth_error_Some; congruence).
    rewrite ctor_block in E by auto. injection E as <-. split; [reflexivity|]. apply contiguous_rowmaj. reflexivity.
  - unfold bt_ctor.
    destruct (update_dims_tiled (mkBt (map (fun p => tensor_ctor (fst p) (repeat (snd p) rank)) (combine bases sizes)) [] [] 0 zero)) as (HT & _).
    cbn [bt_blocks] in HT. rewrite map_map in HT.
    replace (map (fun x => tdim (tensor_ctor (fst x) (repeat (snd x) rank)) 0) (combine bases sizes)) with sizes in HT; auto.
    clear -HL Hr. revert bases HL. induction sizes as [|n s IH]; intros [|b bs] HL; simpl in *; try discriminate; auto.
    f_equal; [|apply IH; lia]. unfold tdim. cbn [tensor_ctor ddims]. destruct rank; [lia|reflexivity].
Qed.
Lemma fold_alloc : forall (O : Ops) l (h : heap (car O)) z,
  fold_left (fun h d => alloc_buffer o0 (dbase d) (data_size (ddims d)) h) l h z =
  if existsb (fun d => (dbase d <=? z) && (z <? dbase d + data_size (ddims d))) l then Some o0 else h z.
Proof.
  intros O. induction l as [|d l IH]; intros h z; simpl; auto. rewrite IH. unfold alloc_buffer.
  destruct (existsb _ l); [now rewrite orb_true_r|]. rewrite orb_false_r. reflexivity.
Qed.

(** The buffers of the result and the temporaries are new and do not overlap. *)
Definition out_reg (sizes outs : list Z) (k : nat) (z : Z) : Prop :=
  nth k outs 0 <= z < nth k outs 0 + nth k sizes 0 * nth k sizes 0.
Definition tmp_reg (sizes : list Z) (tmps : nat -> Z) (k : nat) (z : Z) : Prop :=
  tmps k <= z < tmps k + 3 * (nth k sizes 0 * nth k sizes 0) + nth k sizes 0.
Definition new_regions {T} (h : heap T) (sizes outs : list Z) (tmps : nat -> Z) : Prop :=
  (forall k z, (k < length sizes)%nat -> out_reg sizes outs k z \/ tmp_reg sizes tmps k z -> h z = None) /\
  (forall j k z, (j < length sizes)%nat -> (k < length sizes)%nat -> out_reg sizes outs j z -> ~ tmp_reg sizes tmps k z) /\
  (forall j k z, (j < length sizes)%nat -> (k < length sizes)%nat -> out_reg sizes outs j z -> out_reg sizes outs k z -> j = k) /\
  (forall j k z, (j < length sizes)%nat -> (k < length sizes)%nat -> tmp_reg sizes tmps j z -> tmp_reg sizes tmps k z -> j = k).

(** The value an eigenvalue is mapped to: dropped if the exponent is negative and
    the eigenvalue is small against [M], or if the power is not finite. *)
Definition powered {O : Ops} (F : @fops O) (alpha cutoff M lam : car O) : car O :=
  if f_lt F alpha o0 && f_lt F (f_abs F lam) (omul cutoff M) then o0
  else if f_finite F (f_pow F lam alpha) then f_pow F lam alpha else o0.

Theorem C87_pow_partial :
  forall (O : Ops), is_ring O -> (o1 : car O) <> o0 ->
  (forall x y : car O, omul x y = o0 -> x = o0 \/ y = o0) ->
  forall (L : lapack) (F : fops) (A : bt) (sizes : list Z) (alpha cutoff : car O) (a : nat -> list Z -> car O)
         (outs : list Z) (zero : Z) (tmps : nat -> Z) (order : list nat) (h : heap (car O)),
    bt_ok 2 A sizes -> bt_holds h A a -> (forall k i j, a k [i; j] = a k [j; i]) -> strict_order (f_lt F) ->
    Permutation order (seq 0 (length sizes)) -> length outs = length sizes -> new_regions h sizes outs tmps ->
    (forall k M, (k < length sizes)%nat -> 0 < nth k sizes 0 -> agree (nth k sizes 0) (nth k sizes 0) M (upper (trn (mx (a k)))) ->
       syev_contract (f_lt F) L (nth k sizes 0) M /\ fst (fst (x_syev L (nth k sizes 0) M)) = 0) ->
    exists P h' p, bt_pow L F A alpha cutoff outs zero tmps order h = Ok (P, h') /\ bt_ok 2 P sizes /\ bt_holds h' P p /\
      (** every block: the power of that block *)
      (forall k, (k < length sizes)%nat -> 0 < nth k sizes 0 -> exists M,
         spectral_radius (f_abs F) (f_lt F) (nth k sizes 0) (mx (a k)) M /\
         forall lam x, eigenpair (nth k sizes 0) (mx (a k)) lam x ->
           eigenpair (nth k sizes 0) (mx (p k)) (powered F alpha cutoff M lam) x) /\
      (** exponents that are not negative: the power of the whole matrix *)
      (f_lt F alpha o0 = false -> forall M lam x, eigenpair (bt_dim A) (mx (dense sizes a)) lam x ->
         eigenpair (bt_dim A) (mx (dense sizes p)) (powered F alpha cutoff M lam) x) /\
      (forall z, h z <> None -> h' z = h z).
Proof.
  intros O HR H10 HI L F A sizes alpha cutoff a outs zero tmps order h OA HA Hs HSO HP HL (R1 & R2 & R3 & R4) HC.
  assert (HN : Forall (fun n => 0 <= n) sizes) by (destruct OA; auto).
  assert (DA : bt_dim A = off sizes (length sizes)) by (destruct OA as (_ & _ & _ & _ & _ & E); auto).
  assert (IN := order_in order (length sizes) HP).
  assert (SZ : map (fun b => tdim b 0) (bt_blocks A) = sizes).
  { destruct OA as (_ & LA & BA & _). apply (nth_ext _ _ 0 0); [now rewrite map_length|]. intros k Hk. rewrite map_length in Hk.
    destruct (nth_error (bt_blocks A) k) as [d|] eqn:E; [|apply nth_error_None in E; lia].
    apply (nth_error_nth _ _ 0). rewrite (map_nth_error (fun b => tdim b 0) k _ E). unfold tdim.
    rewrite (proj1 (BA k d E)). reflexivity. }
  unfold bt_pow. rewrite SZ. set (out := bt_ctor 2 zero outs sizes).
  assert (OO : bt_ok 2 out sizes) by (apply ctor_ok; auto).
  set (h0 := fold_left _ (bt_blocks out) h).
  assert (OB : forall k, (k < length sizes)%nat -> nth_error (bt_blocks out) k = Some (tensor_ctor (nth k outs 0) [nth k sizes 0; nth k sizes 0])).
  { intros k Hk. unfold out. rewrite ctor_block by auto. reflexivity. }
  assert (N0 : forall k, (k < length sizes)%nat -> 0 <= nth k sizes 0).
  { intros k Hk. rewrite Forall_forall in HN. apply HN. now apply nth_In. }
  assert (OC : forall k z, (k < length sizes)%nat ->
     cell (tensor_ctor (nth k outs 0) [nth k sizes 0; nth k sizes 0]) z <-> out_reg sizes outs k z).
  { intros k z Hk. apply tc_cell2; auto. }
  assert (H0i : forall k z, (k < length sizes)%nat -> out_reg sizes outs k z -> h0 z = Some o0).
  { intros k z Hk Hz. unfold h0. rewrite fold_alloc.
    assert (EX : existsb (fun d => (dbase d <=? z) && (z <? dbase d + data_size (ddims d))) (bt_blocks out) = true).
    { apply existsb_exists. eexists. split; [apply (nth_error_In _ k), OB; auto|]. cbn [tensor_ctor dbase ddims].
      rewrite data_size_eq by discriminate. unfold out_reg in Hz. replace (zprod _) with (nth k sizes 0 * nth k sizes 0) by (simpl; ring).
      apply andb_true_iff. split; [apply Z.leb_le|apply Z.ltb_lt]; lia. }
    now rewrite EX. }
  assert (H0o : forall z, (forall k, (k < length sizes)%nat -> ~ out_reg sizes outs k z) -> h0 z = h z).
  { intros z Hz. unfold h0. rewrite fold_alloc. destruct (existsb _ _) eqn:EX; auto. exfalso.
    apply existsb_exists in EX as (d & Hd & Hb). apply In_nth_error in Hd as (k & Ek). assert (Hk := bt_index 2 out sizes k d OO Ek).
    rewrite OB in Ek by auto. injection Ek as <-. cbn [tensor_ctor dbase ddims] in Hb. rewrite data_size_eq in Hb by discriminate.
    apply andb_true_iff in Hb as (Hb1 & Hb2). apply Z.leb_le in Hb1. apply Z.ltb_lt in Hb2. apply (Hz k Hk). unfold out_reg. simpl in Hb2. lia. }
  set (own := fun i z => out_reg sizes outs i z \/ tmp_reg sizes tmps i z).
  assert (HK : forall z, h z <> None -> forall k, (k < length sizes)%nat -> ~ own k z).
  { intros z Hz k Hk Ho. apply Hz. apply (R1 k); auto. }
  set (P := fun i (h1 : heap (car O)) => 
     let o := tensor_ctor (nth i outs 0) [nth i sizes 0; nth i sizes 0] in
     holds h1 o (contents h1 o) /\
     (0 < nth i sizes 0 -> exists M, spectral_radius (f_abs F) (f_lt F) (nth i sizes 0) (mx (a i)) M /\
        forall lam x, eigenpair (nth i sizes 0) (mx (a i)) lam x ->
          eigenpair (nth i sizes 0) (mx (contents h1 o)) (powered F alpha cutoff M lam) x)).
  match goal with |- context [forM order ?g h0] => set (f := g) end.
  destruct (forM_regions nat (car O) own P f order h0) as (h' & E & H1 & H2).
  - apply (Permutation_NoDup (Permutation_sym HP)). apply seq_NoDup.
  - intros i j z Hi Hj Oi Oj. apply IN in Hi, Hj. destruct Oi as [Oi|Oi], Oj as [Oj|Oj].
    + now apply (R3 i j z).
    + exfalso. now apply (R2 i j z).
    + exfalso. now apply (R2 j i z).
    + now apply (R4 i j z).
  - intros i h1 h2 Hi Hag (Q1 & Q2). apply IN in Hi. set (o := tensor_ctor (nth i outs 0) [nth i sizes 0; nth i sizes 0]) in *.
    assert (Ag1 : forall z, cell o z -> h2 z = h1 z) by (intros z Hz; symmetry; apply Hag; left; now apply OC).
    split; [apply (contents_holds O h2 o (contents h1 o)); apply (holds_cells _ h1); auto|].
    intros Hn. destruct (Q2 Hn) as (M & HM & HE). exists M. split; auto. intros lam x Hx p Hp. fold o.
    rewrite <- (HE lam x Hx p Hp). apply zsum_ext. intros q Hq. f_equal. unfold mx. apply contents_cells; auto. apply inb2; auto.
  - intros i h1 Hi Hag. apply IN in Hi. destruct (bt_block 2 A sizes i OA Hi) as (d & Ed & Dd & Rd). cbn [repeat] in Dd.
    unfold f. rewrite Ed, (OB i Hi). unfold tdim. rewrite Dd. cbn [nth]. assert (N1 := N0 i Hi).
    assert (OC' := fun z => OC i z Hi).
    assert (ER : forall z, out_reg sizes outs i z <-> nth i outs 0 <= z < nth i outs 0 + nth i sizes 0 * nth i sizes 0) by (intros; reflexivity).
    assert (ET : forall z, tmp_reg sizes tmps i z <-> tmps i <= z < tmps i + 3 * (nth i sizes 0 * nth i sizes 0) + nth i sizes 0)
      by (intros; reflexivity).
    unfold P. set (n0 := nth i sizes 0) in *.
    set (o := tensor_ctor (nth i outs 0) [n0; n0]) in *.
    assert (Go : forall z, cell o z -> h1 z = Some o0).
    { intros z Hz. apply OC' in Hz. rewrite Hag by (left; now left). now apply (H0i i). }
    destruct (Z.eqb_spec n0 0) as [Ez|Ez].
    + exists h1. split; auto. split; auto. split; [|lia]. intros idx Hx. unfold o in Hx. cbn [tensor_ctor ddims] in Hx. rewrite Ez in Hx.
      apply inb2_inv in Hx as (p & q & _ & Hp & _). lia.
    + assert (HA1 : holds h1 d (a i)).
      { intros x Hx. assert (Hv := HA i d Ed x Hx). rewrite Hag.
        - rewrite H0o; auto. intros k Hk Ho. apply (HK (addr d x)) with (k := k); [congruence|auto|now left].
        - right. intros k Hk. apply IN in Hk. apply HK; [congruence|auto]. }
      destruct (C59_pow O HR H10 HI L F d n0 n0 (tmps i) alpha cutoff (a i) h1) as (Q & h2 & p & M & E2 & D2 & V2 & S2 & X2 & C2 & F2);
        auto; try lia.
      * now apply sq_mat.
      * intros M HM. apply HC; auto. fold n0. lia.
      * intros z Hz. apply ET in Hz. rewrite Hag by (left; now right). rewrite H0o.
        -- apply (R1 i); auto.
        -- intros k Hk Ho. now apply (R2 k i z).
      * rewrite E2. cbn [bind fst snd].
        assert (OT : forall z, cell o z -> ~ cell Q z).
        { intros z Hz Hq. apply OC' in Hz. apply C2 in Hq. apply (R2 i i z); auto. }
        assert (G2 : forall z, cell o z -> h2 z = h1 z).
        { intros z Hz. apply F2. intros Hq. apply OC' in Hz. apply (R2 i i z); auto. }
        destruct (C09_assign (car O) o Q h2) as ((h3 & E3 & V3 & F3) & _).
        -- apply rm_inj.
        -- rewrite D2. reflexivity.
        -- intros idx Hx. exists o0. rewrite G2 by (exists idx; auto). apply Go. exists idx; auto.
        -- intros idx Hx. exists (p idx). now apply V2.
        -- intros x y Hx Hy Exy. apply (OT (addr o x)); [exists x; auto|]. rewrite Exy. exists y; auto.
        -- exists h3. rewrite E3. split; auto.
           assert (V3' : holds h3 o p).
           { intros idx Hx. specialize (V3 idx Hx). unfold elem in V3. rewrite V3. apply V2. now rewrite D2. }
           split; [split|].
           ++ now apply (contents_holds O h3 o p).
           ++ intros _. exists M. split; auto. intros lam x Hx i0 Hi0. unfold powered. rewrite <- (X2 lam x Hx i0 Hi0).
              apply zsum_ext. intros j Hj. f_equal. unfold mx. apply contents_eq; auto. apply inb2; auto.
           ++ intros z Hz. rewrite F3 by (rewrite OC'; intros Hc; apply Hz; now left). apply F2. intros Hc. apply Hz. now right.
  - rewrite E. cbn [bind].
    set (p := fun k => contents h' (tensor_ctor (nth k outs 0) [nth k sizes 0; nth k sizes 0])).
    exists out, h', p. split; auto. split; auto. split; [|split; [|split]].
    + intros k d Ed. assert (Hk := bt_index 2 out sizes k d OO Ed). rewrite OB in Ed by auto. injection Ed as <-.
      apply (H1 k). now apply IN.
    + intros k Hk Hn. destruct (H1 k) as (_ & Q2); [now apply IN|]. apply (Q2 Hn).
    + intros Hal M lam x Hx i Hi. rewrite DA in *. destruct (split_blk sizes HN i Hi) as (k & i' & Hk & Hi' & ->).
      unfold mx. rewrite (dense_sum_l HR sizes HN p x) by auto. destruct (H1 k) as (_ & Q2); [now apply IN|].
      destruct Q2 as (M' & _ & Q2); [lia|].
      assert (Ex : eigenpair (nth k sizes 0) (mx (a k)) lam (fun q => x (off sizes k + q))).
      { intros q Hq. unfold mx. rewrite <- (dense_sum_l HR sizes HN a x) by auto. apply Hx.
        destruct (off_bounds sizes k HN Hk) as (B1 & B2 & B3 & B4). lia. }
      specialize (Q2 lam _ Ex i' Hi'). unfold powered in *. rewrite Hal in *. cbn [andb] in *. exact Q2.
    + intros z Hz. rewrite H2; [|intros k Hk; apply IN in Hk; now apply HK]. apply H0o. intros k Hk Ho. apply (HK z Hz k Hk). now left.
Qed.
Print Assumptions C87_pow_partial.

(** C87 fails for negative exponents: the cutoff is relative to the largest
    eigenvalue of each block.  diag(100, 1) in two blocks, cutoff 1: the eigenvalue
    1 is dropped for the whole matrix (1 < 100), but not here. *)
Theorem C87_cutoff_refuted :
  exists (L : @lapack ZOps) (A : bt) (a : nat -> list Z -> Z) (P : bt) (h h' : heap Z),
    bt_ok 2 A [1; 1] /\ bt_holds h A a /\ (forall k i j, a k [i; j] = a k [j; i]) /\ strict_order (f_lt ZF) /\
    new_regions h [1; 1] [10; 11] (fun k => 20 + 10 * Z.of_nat k) /\
    (forall M, syev_contract (O := ZOps) Z.ltb L 1 M /\ fst (fst (x_syev L 1 M)) = 0) /\
    bt_pow (O := ZOps) L ZF A (-1) 1 [10; 11] 99 (fun k => 20 + 10 * Z.of_nat k) [0; 1]%nat h = Ok (P, h') /\
    ~ (exists p M, bt_holds h' P p /\
         @spectral_radius ZOps Z.abs Z.ltb 2 (mx (O := ZOps) (dense (O := ZOps) [1; 1] a)) M /\
         forall lam x, @eigenpair ZOps 2 (mx (O := ZOps) (dense (O := ZOps) [1; 1] a)) lam x ->
           @eigenpair ZOps 2 (mx (O := ZOps) (dense (O := ZOps) [1; 1] p)) (powered (O := ZOps) ZF (-1) 1 M lam) x).
Proof.
  exists L1, (two1 0 1), (fun k _ => match k with 0%nat => 100 | _ => 1 end).
  assert (C : match bt_pow (O := ZOps) L1 ZF (two1 0 1) (-1) 1 [10; 11] 99 (fun k => 20 + 10 * Z.of_nat k) [0; 1]%nat (buf 0 [100; 1]) with
              | Ok (P, h') => P = bt_ctor 2 99 [10; 11] [1; 1] /\ h' 11 = Some 1 | _ => False end) by (vm_compute; split; reflexivity).
  destruct (bt_pow L1 _ _ _ _ _ _ _ _ _) as [[P h']| |] eqn:E; try contradiction. destruct C as (-> & C).
  exists (bt_ctor 2 99 [10; 11] [1; 1]), (buf 0 [100; 1]), h'. split; [apply two1_ok|]. split; [now apply two1_holds|].
  split; [reflexivity|]. split; [apply ZF_order|]. split; [|split; [|split; [auto|]]].
  - unfold new_regions, out_reg, tmp_reg. cbn [length].
    assert (S2 : forall k, (k < 2)%nat -> nth k [1; 1] 0 = 1 /\ nth k [10; 11] 0 = 10 + Z.of_nat k).
    { intros [|[|k]] Hk; try lia; split; reflexivity. }
    split; [|split; [|split]].
    + intros k z Hk Hz. destruct (S2 k Hk) as (E1 & E2). rewrite E1, E2 in Hz. unfold buf.
      destruct (Z.leb_spec 0 z), (Z.ltb_spec z (0 + Z.of_nat (length [100; 1]))); simpl in *; auto; lia.
    + intros j k z Hj Hk Hz Hz'. destruct (S2 k Hk) as (E1 & _), (S2 j Hj) as (E3 & E4). rewrite ?E1, ?E3, ?E4 in *. lia.
    + intros j k z Hj Hk Hz Hz'. destruct (S2 k Hk) as (E1 & E2), (S2 j Hj) as (E3 & E4). rewrite ?E1, ?E2, ?E3, ?E4 in *. lia.
    + intros j k z Hj Hk Hz Hz'. destruct (S2 k Hk) as (E1 & E2), (S2 j Hj) as (E3 & E4). rewrite ?E1, ?E2, ?E3, ?E4 in *. lia.
  - intros M. split; [apply L1_syev|reflexivity].
  - intros (p & M & Hp & (_ & HM) & H).
    assert (H100 := HM 100 (fun i => if i =? 0 then 1 else 0)). assert (H1 := H 1 (fun i => if i =? 0 then 0 else 1)).
    assert (M1 : 100 <= M).
    { apply Z.ltb_ge. apply H100.
      - intros i Hi. two i Hi; reflexivity.
      - exists 0. split; [lia|discriminate]. }
    specialize (H1 ltac:(intros i Hi; two i Hi; reflexivity) 1 ltac:(lia)). rewrite sumZ2 in H1.
    unfold powered in H1. cbn [f_lt f_abs f_finite f_pow ZF omul o0 ZOps] in H1.
    assert (EL : ((-1 <? 0) && (Z.abs 1 <? 1 * M)) = true) by (apply andb_true_iff; split; [reflexivity|apply Z.ltb_lt; simpl; lia]).
    assert (HP1 := Hp 1%nat (tensor_ctor 11 [1; 1]) eq_refl [0; 0] ltac:(apply inb2; lia)).
    change (addr (tensor_ctor 11 [1; 1]) [0; 0]) with 11 in HP1. rewrite C in HP1. injection HP1 as HP1.
    change ((mx (O := ZOps) (dense (O := ZOps) [1; 1] p) 1 0 * 0 + (p 1%nat [0; 0] * 1 + 0)) =
       (if (-1 <? 0) && (Z.abs 1 <? 1 * M) then 0 else 1) * 1) in H1.
    rewrite EL, <- HP1 in H1. lia.
Qed.
Print Assumptions C87_cutoff_refuted.

(** diag(9, 4, 1) in blocks diag(9, 4), an empty one and 1; the "power" is x^2. *)
Example C87_case :
  let L := @mkLapack ZOps (fun m n A => (0, A, [])) (fun n A p => (0, A)) (fun n k A B => (0, A, B))
    (fun n A => (0, if n =? 1 then idZ else swZ, fun i => A (n - 1 - i) (n - 1 - i))) (fun m n A => (0, A, fun _ => 0, A, A))
    (fun m n A => (0, A, fun _ => 0, A, A, fun _ => 0)) (fun m n A => (0, A, fun _ => 0))
    (fun m n k A t => (0, A)) (fun n A => (0, A, fun _ => 0, fun _ => 0, A))
    (fun m n A B C => (0, C, 1)) (fun n A => (0, A, fun _ => 0, A, A)) in
  match bt_pow (O := ZOps) L ZF2 (bt_ctor 2 100 [0; 4; 4] [2; 0; 1]) 2 0 [10; 14; 14] 99 (fun k => 20 + 20 * Z.of_nat k) [2; 1; 0]%nat
          (buf 0 [9; 0; 0; 4; 1]) with
  | Ok (P, h') => map h' [0; 1; 2; 3; 4; 10; 11; 12; 13; 14] = map Some [9; 0; 0; 4; 1; 81; 0; 0; 16; 1]
  | _ => False end.
Proof. vm_compute. reflexivity. Qed.
