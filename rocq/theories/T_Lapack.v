(** * T_Lapack: theorems about the LAPACK drivers (C56-C64). *)
From Coq Require Import List ZArith Lia Bool Ring QArith Qcanon.
From Verif Require Import Base Heap Conc M_Addr L_Addr M_Elt L_Elt M_Einsum S_Einsum M_Blas S_Blas L_Blas
  M_Lapack S_Lapack L_Lapack T_Blas.
Import ListNotations.
Open Scope Z_scope.

Definition QcOps : Ops := mkOps Qc 0%Qc 1%Qc Qcplus Qcmult Qcminus Qcopp Qcdiv Qc_eq_bool.

Lemma tdim2 : forall A r c ld, mat A r c ld -> tdim A 0 = r /\ tdim A 1 = c /\ tstride A 0 = ld.
Proof. intros A r c ld (H1 & H2 & _). unfold tdim, tstride. rewrite H1, H2. auto. Qed.
Lemma mat_holds : forall T (h : heap T) A r c ld a, mat A r c ld -> holds h A a ->
  forall i j, 0 <= i < r -> 0 <= j < c -> h (dbase A + i * ld + j) = Some (a [i; j]).
Proof.
  intros T h A r c ld a HM HA i j Hi Hj. rewrite <- (mat_addr A r c ld) by auto.
  apply HA. rewrite (proj1 HM). apply inb2; auto.
Qed.
Lemma holds_mat : forall T (h : heap T) A r c ld (f : Z -> Z -> T), mat A r c ld ->
  (forall i j, 0 <= i < r -> 0 <= j < c -> h (dbase A + i * ld + j) = Some (f i j)) ->
  holds h A (fun idx => f (nth 0 idx 0) (nth 1 idx 0)).
Proof.
  intros T h A r c ld f HM H idx Hi. rewrite (proj1 HM) in Hi. apply inb2_inv in Hi as (i & j & -> & Hi & Hj).
  rewrite (mat_addr A r c ld) by auto. simpl. auto.
Qed.
Lemma cell_fcell : forall A r c ld z, mat A r c ld -> cell A z <-> fcell (dbase A) c r ld z.
Proof.
  intros A r c ld z HM. split.
  - intros (idx & Hi & ->). rewrite (proj1 HM) in Hi. apply inb2_inv in Hi as (i & j & -> & Hi & Hj).
    exists j, i. rewrite (mat_addr A r c ld) by auto. repeat split; lia.
  - intros (j & i & Hj & Hi & ->). exists [i; j]. rewrite (proj1 HM), (mat_addr A r c ld) by auto.
    split; [apply inb2; auto|lia].
Qed.
Lemma agree_mx : forall (O : Ops) m n (f : Z -> Z -> car O),
  agree m n (mx (fun idx => f (nth 0 idx 0) (nth 1 idx 0))) f.
Proof. intros O m n f i j Hi Hj. reflexivity. Qed.

(** C56.  gesv with contiguous A (n x n) and B (k x n): the rows of B are
    replaced by the solutions of x A = b. *)
Theorem C56_gesv_partial :
  forall (O : Ops), is_ring O ->
  forall (L : lapack) (A B : desc) (n k : Z) (a b : list Z -> car O) (h : heap (car O)),
    0 < n -> 0 <= k -> mat A n n n -> mat B k n n -> holds h A a -> holds h B b -> disj A B ->
    (forall M N, agree n n M (trn (mx a)) -> agree n k N (trn (mx b)) -> gesv_contract L n k M N) ->
    exists info h' x, la_gesv L A B h = Ok (info, h') /\ 0 <= info /\ holds h' B x /\
      (info = 0 -> agree k n (mmul n (mx x) (mx a)) (mx b)) /\
      (info <> 0 -> forall C, ~ inverse n (mx a) C) /\
      (forall z, ~ cell A z -> ~ cell B z -> h' z = h z).
Proof.
  intros O HR L A B n k a b h Hn Hk MA MB HA HB D HC.
  unfold la_gesv. destruct (tdim2 _ _ _ _ MA) as (-> & _). destruct (tdim2 _ _ _ _ MB) as (-> & -> & _).
  unfold vgesv.
  replace ((n <? 0) || (k <? 0) || (n <? Z.max 1 n) || (n <? Z.max 1 n)) with false
    by (symmetry; repeat rewrite orb_false_iff; repeat split; apply Z.ltb_ge; lia).
  destruct (fread_ok n n (dbase A) n h (trn (mx a))) as (M & EM & AM).
  { intros i j Hi Hj. unfold trn, mx. rewrite <- (mat_holds _ h A n n n a) by auto. f_equal. lia. }
  destruct (fread_ok n k (dbase B) n h (trn (mx b))) as (N & EN & AN).
  { intros i j Hi Hj. unfold trn, mx. rewrite <- (mat_holds _ h B k n n b) by auto. f_equal. lia. }
  rewrite EM. simpl. rewrite EN. simpl.
  specialize (HC M N AM AN). unfold gesv_contract in HC.
  destruct (x_gesv L n k M N) as [[info F] X]. destruct HC as (I0 & I1 & I2).
  destruct (fwrite_ok n n (dbase A) n h F) as (h1 & E1 & V1 & F1); [lia| |].
  { intros i j Hi Hj. replace (dbase A + i + j * n) with (dbase A + j * n + i) by lia.
    rewrite (mat_holds _ h A n n n a) by auto. discriminate. }
  rewrite E1. simpl.
  destruct (fwrite_ok n k (dbase B) n h1 X) as (h2 & E2 & V2 & F2); [lia| |].
  { intros i j Hi Hj. rewrite F1.
    - replace (dbase B + i + j * n) with (dbase B + j * n + i) by lia.
      rewrite (mat_holds _ h B k n n b) by auto. discriminate.
    - intros HF. apply (cell_fcell A n n n) in HF as (idx & Hi1 & Ei); auto.
      apply (D idx [j; i]); auto.
      + rewrite (proj1 MB). apply inb2; auto.
      + rewrite (mat_addr B k n n) by auto. lia. }
  rewrite E2. simpl.
  exists info, h2, (fun idx => trn X (nth 0 idx 0) (nth 1 idx 0)).
  split; [reflexivity|]. split; [exact I0|].
  split. { apply (holds_mat _ h2 B k n n); auto. intros i j Hi Hj. unfold trn. rewrite <- V2 by auto. f_equal. lia. }
  split; [|split].
  - intros Hz. intros i j Hi Hj.
    assert (E := I1 Hz j i Hj Hi). rewrite (AN j i Hj Hi) in E. unfold trn in E. rewrite <- E.
    rewrite <- (mmul_trn HR n X M i j). unfold mmul. apply zsum_ext. intros l Hl. unfold trn, mx. simpl.
    rewrite (AM j l) by auto. reflexivity.
  - intros Hz C HI. apply (I2 ltac:(lia) (trn C)).
    apply (inverse_ext n (trn (mx a)) M (trn C) (trn C)); [now apply agree_sym|apply agree_refl|].
    apply inverse_trn; auto.
  - intros z Hz1 Hz2. rewrite F2, F1; auto.
    + intros HF. apply Hz1, (cell_fcell A n n n); auto.
    + intros HF. apply Hz2, (cell_fcell B k n n); auto.
Qed.

(** C57.  invert on a square row-major matrix or view with any leading stride. *)
Theorem C57_invert :
  forall (O : Ops), is_ring O ->
  forall (L : lapack) (A : desc) (n ld : Z) (a : list Z -> car O) (h : heap (car O)),
    0 < n -> mat A n n ld -> holds h A a ->
    (forall M, agree n n M (trn (mx a)) -> inv_contract L n M) ->
    (la_invert L A h = Throw /\ forall B, ~ inverse n (mx a) B) \/
    (exists h' b, la_invert L A h = Ok h' /\ holds h' A b /\ inverse n (mx a) (mx b) /\
       (forall z, ~ cell A z -> h' z = h z)).
Proof.
  intros O HR L A n ld a h Hn MA HA HC.
  unfold la_invert, la_getrf, la_getri. destruct (tdim2 _ _ _ _ MA) as (-> & -> & ->).
  unfold vgetrf. assert (Hld := proj2 (proj2 MA)).
  replace ((n <? 0) || (n <? 0) || (ld <? Z.max 1 n)) with false
    by (symmetry; repeat rewrite orb_false_iff; repeat split; apply Z.ltb_ge; lia).
  destruct (fread_ok n n (dbase A) ld h (trn (mx a))) as (M & EM & AM).
  { intros i j Hi Hj. unfold trn, mx. rewrite <- (mat_holds _ h A n n ld a) by auto. f_equal. lia. }
  rewrite EM. simpl. specialize (HC M AM). unfold inv_contract in HC.
  destruct (x_getrf L n n M) as [[info F] p]. destruct HC as (I0 & I1 & I2).
  destruct (fwrite_ok n n (dbase A) ld h F) as (h1 & E1 & V1 & F1); [lia| |].
  { intros i j Hi Hj. replace (dbase A + i + j * ld) with (dbase A + j * ld + i) by lia.
    rewrite (mat_holds _ h A n n ld a) by auto. discriminate. }
  rewrite E1. simpl. rewrite (proj2 (Z.ltb_ge info 0)) by lia. simpl.
  destruct (Z.ltb_spec 0 info) as [Hp|Hp].
  - left. split; auto. intros B HB. apply (I1 Hp (trn B)).
    apply (inverse_ext n (trn (mx a)) M (trn B) (trn B)); [now apply agree_sym|apply agree_refl|].
    apply inverse_trn; auto.
  - right. assert (info = 0) by lia. subst info. specialize (I2 eq_refl).
    unfold vgetri.
    replace ((n <? 0) || (ld <? Z.max 1 n)) with false
      by (symmetry; repeat rewrite orb_false_iff; repeat split; apply Z.ltb_ge; lia).
    destruct (fread_ok n n (dbase A) ld h1 F) as (F' & EF & AF); [auto|].
    rewrite EF. simpl. destruct (I2 F' AF) as (J0 & J1).
    destruct (x_getri L n F' p) as [i2 B]. simpl in J0, J1. subst i2.
    destruct (fwrite_ok n n (dbase A) ld h1 B) as (h2 & E2 & V2 & F2); [lia| |].
    { intros i j Hi Hj. rewrite V1 by auto. discriminate. }
    rewrite E2. simpl.
    exists h2, (fun idx => trn B (nth 0 idx 0) (nth 1 idx 0)). split; [reflexivity|].
    split. { apply (holds_mat _ h2 A n n ld); auto. intros i j Hi Hj. unfold trn. rewrite <- V2 by auto. f_equal. lia. }
    split.
    + apply (inverse_ext n (trn M) (mx a) (trn B)).
      * apply (agree_trans _ _ _ (trn (trn (mx a)))); [now apply agree_trn|apply agree_refl].
      * apply agree_refl.
      * apply inverse_trn; auto.
    + intros z Hz. rewrite F2, F1; auto; intros HF; apply Hz, (cell_fcell A n n ld); auto.
Qed.

(** C58.  syev: the rows of A become orthonormal eigenvectors of the symmetric
    matrix with A's lower triangle. *)
Definition from_lower {T} (a : Z -> Z -> T) : Z -> Z -> T := fun i j => if j <=? i then a i j else a j i.
Theorem C58_syev_partial :
  forall (O : Ops), is_ring O ->
  forall (lt : car O -> car O -> bool) (L : lapack) (A W : desc) (n ld : Z) (a : list Z -> car O) (h : heap (car O)),
    0 < n -> mat A n n ld -> vect W n 1 -> holds h A a -> alloc h W -> disj A W ->
    (forall M, agree n n M (upper (trn (mx a))) -> syev_contract lt L n M /\ fst (fst (x_syev L n M)) = 0) ->
    exists h' v w, la_syev L A W h = Ok h' /\ holds h' A v /\ holds h' W w /\
      orthogonal n (mx v) /\
      (forall k, 0 <= k < n -> eigenpair n (from_lower (mx a)) (w [k]) (fun j => v [k; j])) /\
      (forall k, 0 <= k < n - 1 -> lt (w [k + 1]) (w [k]) = false) /\
      (forall z, ~ cell A z -> ~ cell W z -> h' z = h z).
Proof.
  intros O HR lt L A W n ld a h Hn MA VW HA AW D HC.
  unfold la_syev. destruct (tdim2 _ _ _ _ MA) as (-> & _ & ->).
  unfold vsyev. assert (Hld := proj2 (proj2 MA)).
  replace ((n <? 0) || (ld <? Z.max 1 n)) with false
    by (symmetry; repeat rewrite orb_false_iff; repeat split; apply Z.ltb_ge; lia).
  destruct (fread_ok n n (dbase A) ld h (trn (mx a))) as (M & EM & AM).
  { intros i j Hi Hj. unfold trn, mx. rewrite <- (mat_holds _ h A n n ld a) by auto. f_equal. lia. }
  rewrite EM. simpl.
  assert (AU : agree n n (upper_part M) (upper (trn (mx a)))).
  { intros i j Hi Hj. unfold upper_part, upper. destruct (i <=? j); auto. }
  destruct (HC _ AU) as (C1 & C0). unfold syev_contract in C1.
  destruct (x_syev L n (upper_part M)) as [[info V] w]. simpl in C0. subst info.
  destruct C1 as (_ & C1). destruct (C1 eq_refl) as (HO & HE & Hasc). clear C1.
  destruct (fwrite_ok n n (dbase A) ld h V) as (h1 & E1 & V1 & F1); [lia| |].
  { intros i j Hi Hj. replace (dbase A + i + j * ld) with (dbase A + j * ld + i) by lia.
    rewrite (mat_holds _ h A n n ld a) by auto. discriminate. }
  rewrite E1. simpl.
  assert (WA : forall i, 0 <= i < n -> ~ fcell (dbase A) n n ld (dbase W + i)).
  { intros i Hi HF. apply (cell_fcell A n n ld) in HF as (idx & Hi1 & Ei); auto.
    apply (D idx [i]); auto.
    - rewrite (proj1 VW). apply inb1; auto.
    - rewrite (vect_addr W n 1) by auto. lia. }
  assert (CW : forall z, dbase W <= z < dbase W + n -> cell W z).
  { intros z Hz. exists [z - dbase W]. rewrite (proj1 VW), (vect_addr W n 1) by auto. split; [apply inb1; lia|lia]. }
  destruct (fvwrite_ok n (dbase W) h1 w) as (h2 & E2 & V2 & F2).
  { intros i Hi. rewrite F1 by auto. destruct (AW [i]) as (v & Hv).
    - rewrite (proj1 VW). apply inb1; auto.
    - rewrite (vect_addr W n 1) in Hv by auto. replace (dbase W + i) with (dbase W + i * 1) by lia. congruence. }
  rewrite E2. simpl.
  exists h2, (fun idx => trn V (nth 0 idx 0) (nth 1 idx 0)), (fun idx => w (nth 0 idx 0)).
  split; [reflexivity|]. split; [|split; [|split; [|split; [|split]]]].
  - apply (holds_mat _ h2 A n n ld); auto. intros i j Hi Hj. unfold trn. rewrite F2.
    + rewrite <- V1 by auto. f_equal. lia.
    + intros Hz. destruct (CW _ Hz) as (idx & Hi1 & Ei). apply (D [i; j] idx); auto.
      * rewrite (proj1 MA). apply inb2; auto.
      * rewrite (mat_addr A n n ld) by auto. lia.
  - intros idx Hi. rewrite (proj1 VW) in Hi. apply inb1_inv in Hi as (i & -> & Hi).
    rewrite (vect_addr W n 1) by auto. simpl. rewrite <- V2 by auto. f_equal. lia.
  - apply (orthogonal_ext n (trn V)); [apply agree_sym, agree_mx|]. now apply orthogonal_trn.
  - intros k Hk i Hi.
    change (zsum n (fun j => omul (from_lower (mx a) i j) (V j k)) = omul (w k) (V i k)).
    rewrite <- (HE i k Hi Hk). unfold mmul. apply zsum_ext. intros j Hj.
    f_equal. unfold from_lower, from_upper, upper_part, mx.
    destruct (Z.leb_spec j i), (Z.leb_spec i j); try lia.
    + rewrite AM by auto. unfold trn, mx. f_equal. f_equal; [lia|f_equal; lia].
    + rewrite AM by auto. reflexivity.
    + rewrite AM by auto. reflexivity.
  - exact Hasc.
  - intros z Hz1 Hz2. rewrite F2, F1; auto. intros HF. apply Hz1, (cell_fcell A n n ld); auto.
Qed.

(** ** Powers *)
Lemma tc_mat : forall b r c, mat (tensor_ctor b [r; c]) r c c.
Proof.
  intros. split; [reflexivity|split; [|lia]]. unfold tensor_ctor, row_major_strides.
  cbn [rev stride_scan app dstrides]. now rewrite Z.mul_1_l.
Qed.
Lemma tc_vect : forall b n, vect (tensor_ctor b [n]) n 1.
Proof. intros. repeat split; simpl; lia. Qed.
Lemma tc_cell2 : forall b r c z, 0 <= r -> 0 <= c -> cell (tensor_ctor b [r; c]) z <-> b <= z < b + r * c.
Proof. intros. rewrite tensor_cell by (repeat constructor; auto). simpl. rewrite Z.mul_1_r. tauto. Qed.
Lemma tc_cell1 : forall b n z, 0 <= n -> cell (tensor_ctor b [n]) z <-> b <= z < b + n.
Proof. intros. rewrite tensor_cell by (repeat constructor; auto). simpl. rewrite Z.mul_1_r. tauto. Qed.
Lemma disj_cells : forall d e, (forall z, cell d z -> cell e z -> False) -> disj d e.
Proof. intros d e H i j Hi Hj E. apply (H (addr d i)); [exists i; auto|exists j; auto]. Qed.
Lemma copy2 : forall T (zero : T) base src r c ld a (h : heap T),
  mat src r c ld -> 0 <= r -> 0 <= c -> holds h src a ->
  (forall z, base <= z < base + r * c -> h z = None) ->
  exists h', copy_from_view zero base src h = Ok (tensor_ctor base [r; c], h') /\
    holds h' (tensor_ctor base [r; c]) a /\
    (forall z, ~ (base <= z < base + r * c) -> h' z = h z) /\
    (forall z, cell src z -> ~ (base <= z < base + r * c)).
Proof.
  intros T zero base src r c ld a h HM Hr Hc HA HF.
  assert (Hd := proj1 HM).
  assert (EZ : zprod (ddims src) = r * c) by (rewrite Hd; simpl; lia).
  destruct (copy_from_view_spec T zero base src h) as (d & h' & E & -> & Hv & Hf & Hdis).
  - rewrite Hd. discriminate.
  - rewrite Hd. repeat constructor; auto.
  - intros idx Hi. exists (a idx). auto.
  - rewrite EZ. auto.
  - exists h'. rewrite E. rewrite Hd. split; auto. rewrite EZ in Hf. split; [|split; auto].
    + intros idx Hi. simpl in Hi. rewrite <- Hd in Hi. rewrite <- (HA idx Hi). rewrite <- Hv by auto. now rewrite Hd.
    + intros z (idx & Hi & ->) Hz.
      specialize (HA idx Hi). rewrite HF in HA by auto. discriminate.
Qed.

Section Pow.
  Context {O : Ops}.
  Hypothesis HR : is_ring O.
  Notation T := (car O).
  Add Ring PRing : (ir_rt O HR).

  Lemma max_abs_ok : forall (F : fops) n e (w : Z -> T) h,
    0 <= n -> strict_order (f_lt F) -> vect e n 1 -> (forall i, 0 <= i < n -> h (dbase e + i) = Some (w i)) ->
    exists M, max_abs F n e h = Ok M /\
      (forall k, 0 <= k < n -> f_lt F M (f_abs F (w k)) = false) /\
      (M = o0 \/ exists k, 0 <= k < n /\ M = f_abs F (w k)).
  Proof.
    intros F n e w h Hn (Irr & Tr) HV Hw. unfold max_abs.
    match goal with |- context [forM _ ?bd _] =>
    destruct (forM_zrange_inv T (fun i M => (forall k, 0 <= k < i -> f_lt F M (f_abs F (w k)) = false) /\
      (M = o0 \/ exists k, 0 <= k < i /\ M = f_abs F (w k))) bd n o0) as (M & E & H1 & H2) end; auto.
    - split; [lia|auto].
    - intros i M Hi (H1 & H2). unfold tget. rewrite subscript_inb by (rewrite (proj1 HV); apply inb1; auto).
      rewrite (vect_addr e n 1), Z.mul_1_r by auto. rewrite (rd_some _ _ _ (w i)) by auto. simpl.
      eexists. split; [reflexivity|]. destruct (f_lt F M (f_abs F (w i))) eqn:EL.
      + split.
        * intros k Hk. destruct (Z.eq_dec k i) as [->|Hne]; auto.
          destruct (f_lt F (f_abs F (w i)) (f_abs F (w k))) eqn:E2; auto.
          rewrite <- (H1 k) by lia. symmetry. eapply Tr; eauto.
        * right. exists i. split; [lia|auto].
      + split.
        * intros k Hk. destruct (Z.eq_dec k i) as [->|Hne]; auto. apply H1. lia.
        * destruct H2 as [->|(k & Hk & ->)]; auto. right. exists k. split; [lia|auto].
    - exists M. auto.
  Qed.

  (** Expansion of a vector in an orthonormal basis of eigenvectors. *)
  Definition comp (n : Z) (V : Z -> Z -> T) (x : Z -> T) (k : Z) : T := zsum n (fun j => omul (V k j) (x j)).
  Lemma expand : forall n (V : Z -> Z -> T) x i, orthogonal n V -> 0 <= i < n ->
    x i = zsum n (fun k => omul (V k i) (comp n V x k)).
  Proof.
    intros n V x i (_ & H2) Hi. unfold comp.
    transitivity (mmul n ident (fun l (_ : Z) => x l) i 0).
    - symmetry. apply (mmul_ident_l HR n (i + 1)); lia.
    - transitivity (mmul n (mmul n (trn V) V) (fun l (_ : Z) => x l) i 0).
      + apply (mmul_ext n n 1); [now apply agree_sym|apply agree_refl|auto|lia].
      + rewrite (mmul_assoc HR). reflexivity.
  Qed.
  Lemma comp_eigen : forall n (A V : Z -> Z -> T) w lam x k,
    (forall i j, 0 <= i < n -> 0 <= j < n -> A i j = A j i) ->
    0 <= k < n -> eigenpair n A (w k) (V k) -> eigenpair n A lam x ->
    omul (osub lam (w k)) (comp n V x k) = o0.
  Proof.
    intros n A V w lam x k Hs Hk HV Hx.
    assert (E : omul lam (comp n V x k) = omul (w k) (comp n V x k)).
    { unfold comp, zsum. rewrite <- !(lsum_mul_l O HR).
      transitivity (zsum n (fun j => zsum n (fun l => omul (V k j) (omul (A j l) (x l))))).
      - unfold zsum. apply lsum_ext. intros j Hj. apply zrange_in in Hj.
        rewrite (lsum_mul_l O HR). fold (zsum n (fun l => omul (A j l) (x l))). rewrite (Hx j Hj). ring.
      - unfold zsum. rewrite (lsum_swap O HR). apply lsum_ext. intros l Hl. apply zrange_in in Hl.
        transitivity (omul (zsum n (fun j => omul (A l j) (V k j))) (x l)).
        + unfold zsum. rewrite <- (lsum_mul_r O HR). apply lsum_ext. intros j Hj. apply zrange_in in Hj.
          rewrite (Hs l j) by auto. ring.
        + rewrite (HV l Hl). ring. }
    transitivity (osub (omul lam (comp n V x k)) (omul (w k) (comp n V x k))); [ring|rewrite E; ring].
  Qed.
  Lemma apply_fun : forall n (A V : Z -> Z -> T) w (g : T -> T) lam x i,
    (forall a b : T, omul a b = o0 -> a = o0 \/ b = o0) ->
    (forall i j, 0 <= i < n -> 0 <= j < n -> A i j = A j i) ->
    orthogonal n V -> (forall k, 0 <= k < n -> eigenpair n A (w k) (V k)) -> eigenpair n A lam x -> 0 <= i < n ->
    zsum n (fun j => omul (zsum n (fun k => omul (omul (g (w k)) (V k i)) (V k j))) (x j)) = omul (g lam) (x i).
  Proof.
    intros n A V w g lam x i HI Hs HO HV Hx Hi.
    rewrite (expand n V x i HO Hi). unfold zsum.
    rewrite <- (lsum_mul_l O HR).
    rewrite (lsum_ext O _ _ _ (fun j => lsum (zrange n) (fun k => omul (omul (omul (g (w k)) (V k i)) (V k j)) (x j)))).
    2: { intros. now rewrite <- (lsum_mul_r O HR). }
    rewrite (lsum_swap O HR). apply lsum_ext. intros k Hk. apply zrange_in in Hk.
    transitivity (omul (omul (g (w k)) (V k i)) (comp n V x k)).
    - unfold comp, zsum. rewrite <- (lsum_mul_l O HR). apply lsum_ext. intros; ring.
    - destruct (HI _ _ (comp_eigen n A V w lam x k Hs Hk (HV k Hk) Hx)) as [E|E].
      + assert (lam = w k). { transitivity (oadd (osub lam (w k)) (w k)); [ring|rewrite E; ring]. } subst. ring.
      + rewrite E. ring.
  Qed.
  Lemma eigenvalue_listed : forall n (A V : Z -> Z -> T) w lam x,
    (forall a b : T, omul a b = o0 -> a = o0 \/ b = o0) ->
    (forall i j, 0 <= i < n -> 0 <= j < n -> A i j = A j i) ->
    orthogonal n V -> (forall k, 0 <= k < n -> eigenpair n A (w k) (V k)) -> eigenpair n A lam x -> nonzero n x ->
    exists k, 0 <= k < n /\ lam = w k.
  Proof.
    intros n A V w lam x HI Hs HO HV Hx (i & Hi & Nz).
    assert (G : forall m, 0 <= m -> m <= n ->
      (exists k, 0 <= k < n /\ lam = w k) \/ (forall k, 0 <= k < m -> comp n V x k = o0)).
    { apply (natlike_ind (fun m => m <= n ->
        (exists k, 0 <= k < n /\ lam = w k) \/ (forall k, 0 <= k < m -> comp n V x k = o0))).
      - intros _. right. intros. lia.
      - intros m Hm IH Hmn. destruct IH as [IH|IH]; [lia|auto|].
        assert (Hk : 0 <= m < n) by lia.
        destruct (HI _ _ (comp_eigen n A V w lam x m Hs Hk (HV m Hk) Hx)) as [E|E].
        + left. exists m. split; auto. transitivity (oadd (osub lam (w m)) (w m)); [ring|rewrite E; ring].
        + right. intros k Hk'. destruct (Z.eq_dec k m) as [->|]; auto. apply IH. lia. }
    destruct (G n) as [G'|G']; auto; [lia|lia|].
    exfalso. apply Nz. rewrite (expand n V x i HO Hi). unfold zsum.
    rewrite (lsum_ext O _ _ _ (fun _ => o0)); [apply (lsum_0 O HR)|].
    intros k Hk. apply zrange_in in Hk. rewrite G' by auto. ring.
  Qed.
  Lemma row_nonzero : forall n (V : Z -> Z -> T) k, (o1 : T) <> o0 -> orthogonal n V -> 0 <= k < n -> nonzero n (V k).
  Proof.
    intros n V k H10 (H1 & _) Hk.
    assert (G : forall m, 0 <= m -> m <= n -> nonzero n (V k) \/ (forall j, 0 <= j < m -> V k j = o0)).
    { apply (natlike_ind (fun m => m <= n -> nonzero n (V k) \/ (forall j, 0 <= j < m -> V k j = o0))).
      - intros _. right. intros. lia.
      - intros m Hm IH Hmn. destruct IH as [IH|IH]; [lia|auto|].
        destruct (oeqb (V k m) o0) eqn:E.
        + right. apply (ir_eqb O HR) in E. intros j Hj. destruct (Z.eq_dec j m) as [->|]; auto. apply IH. lia.
        + left. exists m. split; [lia|]. intros E2. apply (ir_eqb O HR) in E2. congruence. }
    destruct (G n) as [G'|G']; auto; [lia|lia|].
    exfalso. apply H10. specialize (H1 k k Hk Hk). unfold ident in H1. rewrite Z.eqb_refl in H1. rewrite <- H1.
    unfold mmul, zsum. rewrite (lsum_ext O _ _ _ (fun _ => o0)); [apply (lsum_0 O HR)|].
    intros j Hj. apply zrange_in in Hj. rewrite G' by auto. ring.
  Qed.
  Lemma one_zero : forall x y : T, oadd (omul o1 x) (omul o0 y) = x.
  Proof. intros. ring. Qed.
End Pow.

(** C59.  The power of a symmetric matrix acts on every eigenvector as the
    power of the eigenvalue (zero when that is not finite or, for a negative
    exponent, when the eigenvalue is below the cutoff relative to the largest
    magnitude). *)
Theorem C59_pow :
  forall (O : Ops), is_ring O -> (o1 : car O) <> o0 ->
  (forall x y : car O, omul x y = o0 -> x = o0 \/ y = o0) ->
  forall (L : lapack) (F : fops) (A : desc) (n ld base : Z) (alpha cutoff : car O)
         (a : list Z -> car O) (h : heap (car O)),
    0 < n -> mat A n n ld -> holds h A a -> (forall i j, 0 <= i < n -> 0 <= j < n -> a [i; j] = a [j; i]) ->
    strict_order (f_lt F) ->
    (forall M, agree n n M (upper (trn (mx a))) ->
       syev_contract (f_lt F) L n M /\ fst (fst (x_syev L n M)) = 0) ->
    (forall z, base <= z < base + 3 * (n * n) + n -> h z = None) ->
    exists P h' p M, la_pow L F A alpha cutoff base h = Ok (P, h') /\ ddims P = [n; n] /\ holds h' P p /\
      spectral_radius (f_abs F) (f_lt F) n (mx a) M /\
      (forall lam x, eigenpair n (mx a) lam x ->
         eigenpair n (mx p)
           (if f_lt F alpha o0 && f_lt F (f_abs F lam) (omul cutoff M) then o0
            else if f_finite F (f_pow F lam alpha) then f_pow F lam alpha else o0) x) /\
      (forall z, cell P z -> base <= z < base + 3 * (n * n) + n) /\
      (forall z, ~ (base <= z < base + 3 * (n * n) + n) -> h' z = h z).
Proof.
  intros O HR H10 HI L F A n ld base alpha cutoff a h Hn MA HA Hs HSO HC Hfr.
  unfold la_pow. rewrite (proj1 (tdim2 _ _ _ _ MA)), (proj1 MA).
  rewrite data_size_eq by discriminate. replace (zprod [n; n]) with (n * n) by (simpl; lia).
  set (sz := n * n) in *. assert (Hsz : 0 < sz) by (unfold sz; nia).
  destruct (copy2 _ o0 base A n n ld a h MA) as (h1 & E1 & C1 & F1 & _); auto; try lia.
  { intros z Hz. apply Hfr. fold sz in Hz. lia. }
  fold sz in F1. rewrite E1. cbn [bind].
  set (a1 := tensor_ctor base [n; n]) in *. set (e := tensor_ctor (base + 3 * sz) [n]).
  set (res := tensor_ctor (base + sz) [n; n]). set (a2 := tensor_ctor (base + 2 * sz) [n; n]).
  set (h1' := alloc_buffer o0 (base + 3 * sz) n (alloc_buffer o0 (base + sz) sz h1)).
  destruct (set_all_spec _ (base + sz) sz o0 h1') as (h2 & E2 & V2 & F2).
  { intros k Hk. exists o0. unfold h1'. rewrite alloc_buffer_other by lia. apply alloc_buffer_cell. lia. }
  rewrite E2. cbn [bind].
  assert (Ca1 : forall z, cell a1 z <-> base <= z < base + sz) by (intros; apply tc_cell2; lia).
  assert (Ca2 : forall z, cell a2 z <-> base + 2 * sz <= z < base + 2 * sz + sz) by (intros; apply tc_cell2; lia).
  assert (Cr : forall z, cell res z <-> base + sz <= z < base + sz + sz) by (intros; apply tc_cell2; lia).
  assert (Ce : forall z, cell e z <-> base + 3 * sz <= z < base + 3 * sz + n) by (intros; apply tc_cell1; lia).
  assert (In1 : forall d idx, inb idx (ddims d) -> cell d (addr d idx)) by (intros d idx Hi; exists idx; auto).
  assert (H2a1 : holds h2 a1 a).
  { intros idx Hi. assert (Hz := proj1 (Ca1 _) (In1 _ _ Hi)). rewrite F2 by lia. unfold h1'.
    rewrite !alloc_buffer_other by lia. apply C1. auto. }
  assert (A2e : alloc h2 e).
  { intros idx Hi. assert (Hz := proj1 (Ce _) (In1 _ _ Hi)). exists o0. rewrite F2 by lia. unfold h1'.
    apply alloc_buffer_cell. lia. }
  assert (D1e : disj a1 e). { apply disj_cells. intros z Hz1 Hz2. apply Ca1 in Hz1. apply Ce in Hz2. lia. }
  destruct (C58_syev_partial O HR (f_lt F) L a1 e n n a h2) as (h3 & v & w & E3 & V3 & W3 & HO & HE & _ & F3); auto.
  { apply tc_mat. } { apply tc_vect. }
  rewrite E3. cbn [bind].
  assert (HE' : forall k, 0 <= k < n -> eigenpair n (mx a) (w [k]) (mx v k)).
  { intros k Hk i Hi. etransitivity; [|exact (HE k Hk i Hi)]. apply zsum_ext. intros j Hj. f_equal.
    unfold from_lower, mx. destruct (Z.leb_spec j i); auto. }
  destruct (copy2 _ o0 (base + 2 * sz) a1 n n n v h3 (tc_mat base n n)) as (h4 & E4 & V4 & F4 & _); auto; try lia.
  { fold sz. intros z Hz. rewrite F3.
    - rewrite F2 by lia. unfold h1'. rewrite !alloc_buffer_other by lia. rewrite F1 by lia. apply Hfr. lia.
    - rewrite Ca1. lia.
    - rewrite Ce. lia. }
  rewrite E4. cbn [bind]. fold sz in F4. fold a2 in V4. fold a2.
  assert (We : forall i, 0 <= i < n -> h4 (dbase e + i) = Some (w [i])).
  { intros i Hi. change (dbase e) with (base + 3 * sz). rewrite F4 by lia.
    rewrite <- (W3 [i]) by (apply inb1; auto). f_equal. rewrite (vect_addr e n 1) by apply tc_vect.
    change (dbase e) with (base + 3 * sz). lia. }
  destruct (max_abs_ok F n e (fun i => w [i]) h4) as (M & E5 & M1 & M2); auto; try lia.
  { apply tc_vect. }
  rewrite E5. cbn [bind].
  set (g := fun x => pow_value F alpha cutoff M x).
  set (st := fun i (hh : heap (car O)) =>
    (forall k, 0 <= k < n -> hh (dbase e + k) = Some (if k <? i then g (w [k]) else w [k])) /\
    (forall k j, 0 <= k < n -> 0 <= j < n ->
       hh (addr a2 [k; j]) = Some (if k <? i then omul (g (w [k])) (v [k; j]) else v [k; j])) /\
    (forall z, ~ cell e z -> ~ cell a2 z -> hh z = h4 z)).
  match goal with |- context [forM _ ?bd h4] =>
    destruct (forM_zrange_inv _ st bd n h4) as (h5 & E6 & S1 & S2 & S3) end; try lia.
  { unfold st. split; [|split; [|auto]].
    - intros k Hk. rewrite (proj2 (Z.ltb_ge k 0)) by lia. auto.
    - intros k j Hk Hj. rewrite (proj2 (Z.ltb_ge k 0)) by lia. apply V4. apply inb2; auto. }
  { intros i hh Hi (T1 & T2 & T3). unfold tget, tset.
    rewrite subscript_inb by (apply inb1; auto). rewrite (vect_addr e n 1), Z.mul_1_r by apply tc_vect.
    rewrite (rd_some _ _ _ (w [i])) by (rewrite T1, (proj2 (Z.ltb_ge i i)) by lia; auto). cbn [bind].
    fold (g (w [i])).
    rewrite (wr_some _ _ _ _ (w [i])) by (rewrite T1, (proj2 (Z.ltb_ge i i)) by lia; auto). cbn [bind].
    set (hu := upd hh (dbase e + i) (g (w [i]))).
    assert (Hua2 : forall z, cell a2 z -> hu z = hh z).
    { intros z Hz. unfold hu. apply upd_other. apply Ca2 in Hz. change (dbase e) with (base + 3 * sz). lia. }
    destruct (C22_scale_row_column O i (g (w [i])) a2 n n n 1
               (fun idx => if nth 0 idx 0 <? i then omul (g (w [nth 0 idx 0])) (v idx) else v idx) hu)
      as (CR & _); try lia.
    - reflexivity.
    - apply (tc_mat (base + 2 * sz) n n).
    - apply (mat_inj _ n n n), tc_mat.
    - intros idx Hid. rewrite Hua2 by auto. change (ddims a2) with [n; n] in Hid.
      apply inb2_inv in Hid as (k & j & -> & Hk & Hj). simpl. auto.
    - destruct (CR Hi) as (hn & En & Nv & Nf). exists hn. rewrite En. split; auto. split; [|split].
      + intros k Hk. rewrite Nf.
        * unfold hu. destruct (Z.eq_dec k i) as [->|Hne].
          -- rewrite upd_same. rewrite (proj2 (Z.ltb_lt i (i + 1))) by lia. auto.
          -- rewrite upd_other by lia. rewrite T1 by auto.
             destruct (Z.ltb_spec k i), (Z.ltb_spec k (i + 1)); auto; lia.
        * rewrite Ca2. change (dbase e) with (base + 3 * sz). lia.
      + intros k j Hk Hj. rewrite Nv by auto. cbn [nth]. destruct (Z.eqb_spec k i) as [->|Hne].
        * rewrite (proj2 (Z.ltb_ge i i)), (proj2 (Z.ltb_lt i (i + 1))) by lia. auto.
        * destruct (Z.ltb_spec k i), (Z.ltb_spec k (i + 1)); auto; lia.
      + intros z Hz1 Hz2. rewrite Nf by auto. unfold hu. rewrite upd_other; auto.
        intros ->. apply Hz1. apply Ce. change (dbase e) with (base + 3 * sz). lia. }
  cbv beta in E6. rewrite E6. cbn [bind].
  destruct (C19_gemm_partial O HR true false o1 o0 a2 a1 res n n n n n n
              (fun idx => omul (g (w [nth 0 idx 0])) (v idx)) v (fun _ => o0) h5)
    as (h6 & E7 & V7 & F7); try lia; try apply tc_mat.
  - intros idx Hi. change (ddims a2) with [n; n] in Hi. apply inb2_inv in Hi as (k & j & -> & Hk & Hj).
    rewrite S2 by auto. rewrite (proj2 (Z.ltb_lt k n)) by lia. auto.
  - intros idx Hi. assert (Hz := proj1 (Ca1 _) (In1 _ _ Hi)).
    rewrite S3 by (rewrite ?Ce, ?Ca2; lia). rewrite F4 by lia. apply V3. auto.
  - intros idx Hi. assert (Hz := proj1 (Cr _) (In1 _ _ Hi)).
    rewrite S3 by (rewrite ?Ce, ?Ca2; lia). rewrite F4 by lia.
    rewrite F3 by (rewrite ?Ca1, ?Ce; lia).
    replace (addr res idx) with (base + sz + (addr res idx - (base + sz))) by lia. apply V2. lia.
  - apply disj_cells. intros z Hz1 Hz2. apply Cr in Hz1. apply Ca2 in Hz2. lia.
  - apply disj_cells. intros z Hz1 Hz2. apply Cr in Hz1. apply Ca1 in Hz2. lia.
  - rewrite E7. cbn [bind].
    set (p := fun idx => zsum n (fun k => omul (omul (g (w [k])) (v [k; nth 0 idx 0])) (v [k; nth 1 idx 0]))).
    exists res, h6, p, M. split; [reflexivity|]. split; [reflexivity|]. split; [|split; [|split; [|split]]].
    + intros idx Hi. change (ddims res) with [n; n] in Hi. apply inb2_inv in Hi as (i & j & -> & Hi & Hj).
      rewrite V7 by auto. f_equal. unfold p. cbn [nth op].
      rewrite (one_zero HR).
      apply zsum_ext. intros k Hk. reflexivity.
    + split.
      * destruct M2 as [->|(k & Hk & ->)]; auto. right. exists (w [k]), (mx v k).
        split; [auto|]. split; [|reflexivity]. apply row_nonzero; auto.
      * intros lam x Hx Nz.
        destruct (eigenvalue_listed HR n (mx a) (mx v) (fun k => w [k]) lam x) as (k & Hk & ->); auto.
    + intros lam x Hx i Hi.
      change (zsum n (fun j => omul (zsum n (fun k => omul (omul (g (w [k])) (mx v k i)) (mx v k j))) (x j)) =
              omul (g lam) (x i)).
      apply (apply_fun HR n (mx a) (mx v) (fun k => w [k]) g lam x i); auto.
    + intros z Hz. apply Cr in Hz. lia.
    + intros z Hzr.
      rewrite F7 by (rewrite Cr; lia). rewrite S3 by (rewrite ?Ce, ?Ca2; lia). rewrite F4 by lia.
      rewrite F3 by (rewrite ?Ca1, ?Ce; lia). rewrite F2 by lia. unfold h1'. rewrite !alloc_buffer_other by lia.
      apply F1. lia.
Qed.

(** ** Norms *)
Lemma fmax_ok : forall (O : Ops) (F : @fops O) (l : list (car O)), strict_order (f_lt F) ->
  (forall x, In x l -> f_lt F (fmax F l) x = false) /\ (fmax F l = o0 \/ In (fmax F l) l).
Proof.
  intros O F l (Irr & Tr). unfold fmax. generalize (@o0 O) as z.
  assert (G : forall l m, let r := fold_left (fun m x => if f_lt F m x then x else m) l m in
    (r = m \/ f_lt F m r = true) /\ (forall x, In x l -> f_lt F r x = false) /\ (r = m \/ In r l)).
  { clear l. induction l as [|x l IH]; intros m; simpl.
    - split; auto. split; [easy|auto].
    - destruct (IH (if f_lt F m x then x else m)) as (H1 & H2 & H3). set (r := fold_left _ l _) in *.
      destruct (f_lt F m x) eqn:E.
      + split; [|split].
        * right. destruct H1 as [->|H1]; auto. eapply Tr; eauto.
        * intros y [<-|Hy]; auto. destruct H1 as [->|H1]; auto.
          destruct (f_lt F r x) eqn:E2; auto. rewrite <- (Irr x). symmetry. eapply Tr; eauto.
        * right. destruct H3 as [->|H3]; auto.
      + split; [|split]; auto.
        * intros y [<-|Hy]; auto. destruct H1 as [->|H1]; auto.
          destruct (f_lt F r x) eqn:E2; auto. rewrite <- E. symmetry. eapply Tr; eauto.
        * destruct H3 as [->|H3]; auto. }
  intros z. destruct (G l z) as (_ & H2 & H3). split; auto.
Qed.

Lemma norm_read : forall (O : Ops) (F : @fops O) ty A n ld (a : list Z -> car O) h,
  0 < n -> mat A n n ld -> holds h A a ->
  exists M, agree n n M (trn (mx a)) /\
    la_norm F ty A h = Ok match ty with
         | MaxAbs => fmax F (map (fun ij => f_abs F (M (nth 1 ij 0) (nth 0 ij 0))) (indices [n; n]))
         | One => fmax F (map (fun j => zsum n (fun i => f_abs F (M i j))) (zrange n))
         | Infinity => fmax F (map (fun i => zsum n (fun j => f_abs F (M i j))) (zrange n))
         | Frobenius => f_sqrt F (zsum n (fun j => zsum n (fun i => omul (f_abs F (M i j)) (f_abs F (M i j)))))
         end.
Proof.
  intros O F ty A n ld a h Hn MA HA. unfold la_norm. destruct (tdim2 _ _ _ _ MA) as (-> & -> & ->).
  unfold vlange. rewrite (proj2 (Z.eqb_neq n 0)) by lia. cbn [orb].
  destruct (fread_ok n n (dbase A) ld h (trn (mx a))) as (M & EM & AM).
  { intros i j Hi Hj. unfold trn, mx. rewrite <- (mat_holds _ h A n n ld a) by auto. f_equal. lia. }
  rewrite EM. exists M. split; auto.
Qed.

(** C60.  Frobenius and largest-element norm of a square matrix or view. *)
Theorem C60_norm_partial :
  forall (O : Ops) (F : fops) (A : desc) (n ld : Z) (a : list Z -> car O) (h : heap (car O)),
    strict_order (f_lt F) -> 0 < n -> mat A n n ld -> holds h A a ->
    la_norm F Frobenius A h =
      Ok (f_sqrt F (zsum n (fun i => zsum n (fun j => omul (f_abs F (a [i; j])) (f_abs F (a [i; j])))))) /\
    (exists r, la_norm F MaxAbs A h = Ok r /\
       largest (f_lt F) (fun ij => 0 <= fst ij < n /\ 0 <= snd ij < n) (fun ij => f_abs F (a [fst ij; snd ij])) r).
Proof.
  intros O F A n ld a h HS Hn MA HA. split.
  - destruct (norm_read O F Frobenius A n ld a h Hn MA HA) as (M & AM & ->). do 2 f_equal.
    apply zsum_ext. intros i Hi. apply zsum_ext. intros j Hj. now rewrite AM.
  - destruct (norm_read O F MaxAbs A n ld a h Hn MA HA) as (M & AM & ->). eexists. split; [reflexivity|].
    match goal with |- largest _ _ _ (fmax _ ?l) => destruct (fmax_ok O F l HS) as (H1 & H2) end.
    split.
    + intros [i j] (Hi & Hj). simpl in *. apply H1. apply in_map_iff. exists [i; j]. simpl. rewrite AM by auto.
      split; auto. apply idx2_in; auto.
    + destruct H2 as [->|H2]; auto. right. apply in_map_iff in H2 as (ij & E & H2).
      apply in_idx2 in H2 as (i & j & -> & Hi & Hj). simpl in E. rewrite AM in E by auto.
      exists (i, j). simpl. auto.
Qed.

(** The 1-norm (largest column sum) and the infinity norm (largest row sum)
    are exchanged, for every square matrix. *)
Theorem C60_one_infinity_partial :
  forall (O : Ops) (F : fops) (A : desc) (n ld : Z) (a : list Z -> car O) (h : heap (car O)),
    strict_order (f_lt F) -> 0 < n -> mat A n n ld -> holds h A a ->
    (exists r, la_norm F One A h = Ok r /\
       largest (f_lt F) (fun i => 0 <= i < n) (fun i => zsum n (fun j => f_abs F (a [i; j]))) r) /\
    (exists r, la_norm F Infinity A h = Ok r /\
       largest (f_lt F) (fun j => 0 <= j < n) (fun j => zsum n (fun i => f_abs F (a [i; j]))) r).
Proof.
  intros O F A n ld a h HS Hn MA HA. split.
  - destruct (norm_read O F One A n ld a h Hn MA HA) as (M & AM & ->). eexists. split; [reflexivity|].
    match goal with |- largest _ _ _ (fmax _ ?l) => destruct (fmax_ok O F l HS) as (H1 & H2) end.
    assert (E : forall i, 0 <= i < n -> zsum n (fun j => f_abs F (M j i)) = zsum n (fun j => f_abs F (a [i; j]))).
    { intros i Hi. apply zsum_ext. intros j Hj. now rewrite AM. }
    split.
    + intros i Hi. rewrite <- E by auto. apply H1. apply (in_map (fun j => zsum n (fun i => f_abs F (M i j)))). now apply zrange_in.
    + destruct H2 as [->|H2]; auto. right. apply in_map_iff in H2 as (i & E2 & H2). apply zrange_in in H2.
      exists i. split; auto. now rewrite <- E.
  - destruct (norm_read O F Infinity A n ld a h Hn MA HA) as (M & AM & ->). eexists. split; [reflexivity|].
    match goal with |- largest _ _ _ (fmax _ ?l) => destruct (fmax_ok O F l HS) as (H1 & H2) end.
    assert (E : forall j, 0 <= j < n -> zsum n (fun i => f_abs F (M j i)) = zsum n (fun i => f_abs F (a [i; j]))).
    { intros i Hi. apply zsum_ext. intros j Hj. now rewrite AM. }
    split.
    + intros i Hi. rewrite <- E by auto. apply H1. apply (in_map (fun i => zsum n (fun j => f_abs F (M i j)))). now apply zrange_in.
    + destruct H2 as [->|H2]; auto. right. apply in_map_iff in H2 as (i & E2 & H2). apply zrange_in in H2.
      exists i. split; auto. now rewrite <- E.
Qed.

(** Floating-point operations on exact integers, for examples. *)
Definition ZF : @fops ZOps := mkFops (O := ZOps) Z.abs Z.ltb (fun x _ => x) (fun _ => true) Z.sqrt.
Lemma ZF_order : strict_order (f_lt ZF).
Proof.
  split; simpl.
  - apply Z.ltb_irrefl.
  - intros x y z H1 H2. apply Z.ltb_lt in H1, H2. apply Z.ltb_lt. lia.
Qed.

Definition buf (base : Z) (l : list Z) : heap Z :=
  fun z => if (base <=? z) && (z <? base + Z.of_nat (length l)) then nth_error l (Z.to_nat (z - base)) else None.

Theorem C60_one_refuted :
  exists (A : desc) (h : heap Z) (a : list Z -> Z) (r : Z),
    mat A 2 2 2 /\ @holds Z h A a /\ @la_norm ZOps ZF One A h = Ok r /\
    ~ @largest ZOps Z Z.ltb (fun j => 0 <= j < 2) (fun j => @zsum ZOps 2 (fun i => Z.abs (a [i; j]))) r.
Proof.
  exists (tensor_ctor 0 [2; 2]), (buf 0 [1; 2; 3; 4]), (fun i => 2 * nth 0 i 0 + nth 1 i 0 + 1), 7.
  split; [apply tc_mat|]. split.
  { intros idx Hi. apply inb2_inv in Hi as (i & j & -> & Hi & Hj).
    assert (i = 0 \/ i = 1) as [-> | ->] by lia; assert (j = 0 \/ j = 1) as [-> | ->] by lia; reflexivity. }
  split; [reflexivity|]. intros (_ & [H|(j & Hj & H)]); [discriminate|].
  assert (j = 0 \/ j = 1) as [-> | ->] by lia; vm_compute in H; discriminate.
Qed.

(** A matrix with more columns than rows: the norm reads behind the buffer,
    whatever the norm. *)
Theorem C60_wide_refuted :
  forall (O : Ops) (F : fops) (ty : norm_type) (base r c : Z) (h : heap (car O)),
    0 < r < c -> (forall z, base + r * c <= z -> h z = None) ->
    la_norm F ty (tensor_ctor base [r; c]) h = UB.
Proof.
  intros O F ty base r c h Hrc Hh. unfold la_norm. destruct (tdim2 _ _ _ _ (tc_mat base r c)) as (-> & -> & ->).
  unfold vlange. rewrite (proj2 (Z.eqb_neq r 0)), (proj2 (Z.eqb_neq c 0)) by lia. cbn [orb].
  rewrite (fread_ub r c (dbase (tensor_ctor base [r; c])) c h 0 (c - 1)) by (try lia; apply Hh; simpl; nia).
  reflexivity.
Qed.

(** A matrix with more rows than columns: the largest element is missed. *)
Theorem C60_tall_refuted :
  exists (A : desc) (h : heap Z) (a : list Z -> Z) (r : Z),
    mat A 3 2 2 /\ @holds Z h A a /\ @la_norm ZOps ZF MaxAbs A h = Ok r /\ r < Z.abs (a [2; 1]).
Proof.
  exists (tensor_ctor 0 [3; 2]), (buf 0 [1; 2; 3; 4; 5; 6]), (fun i => 2 * nth 0 i 0 + nth 1 i 0 + 1), 5.
  split; [apply tc_mat|]. split.
  { intros idx Hi. apply inb2_inv in Hi as (i & j & -> & Hi & Hj).
    assert (i = 0 \/ i = 1 \/ i = 2) as [-> | [-> | ->]] by lia; assert (j = 0 \/ j = 1) as [-> | ->] by lia; reflexivity. }
  split; [reflexivity|]. simpl. lia.
Qed.

Example C60_case :
  @la_norm ZOps ZF Frobenius (mkDesc 0 [2; 2] [3; 1]) (buf 0 [1; -5; 9; 3; 1]) = Ok 6 /\
  @la_norm ZOps ZF MaxAbs (mkDesc 0 [2; 2] [3; 1]) (buf 0 [1; -5; 9; 3; 1]) = Ok 5.
Proof. split; reflexivity. Qed.

(** ** Cases and refutations for C56-C59 *)

Lemma QcOps_ring : is_ring QcOps.
Proof.
  split; simpl.
  - exact Qcrt.
  - intros x y. split; [apply Qc_eq_bool_correct|]. intros ->. unfold Qc_eq_bool. destruct (Qc_eq_dec y y); congruence.
Qed.

(** A LAPACK that is right for every 2 x 2 matrix of rational numbers. *)
Local Notation z0 := 0%Z.
Local Notation z1 := 1%Z.
Definition det2 (A : Z -> Z -> Qc) : Qc := (A z0 z0 * A z1 z1 - A z0 z1 * A z1 z0)%Qc.
Definition L2 : @lapack QcOps :=
  @mkLapack QcOps
    (fun m n A => (if Qc_eq_bool (det2 A) 0%Qc then 2 else 0, A, [1; 2]))
    (fun n A p => (0, fun i j => match i, j with
                                 | 0, 0 => (A z1 z1 / det2 A)%Qc | 0, _ => (- A z0 z1 / det2 A)%Qc
                                 | _, 0 => (- A z1 z0 / det2 A)%Qc | _, _ => (A z0 z0 / det2 A)%Qc end))
    (fun n k A B => (if Qc_eq_bool (det2 A) 0%Qc then 2 else 0, A,
                     fun i j => match i with
                                | 0 => ((B z0 j * A z1 z1 - A z0 z1 * B z1 j) / det2 A)%Qc
                                | _ => ((A z0 z0 * B z1 j - A z1 z0 * B z0 j) / det2 A)%Qc end))
    (fun n A => (0, A, fun _ => 0%Qc)) (fun m n A => (0, A, fun _ => 0%Qc, A, A))
    (fun m n A => (0, A, fun _ => 0%Qc, A, A, fun _ => 0%Qc)) (fun m n A => (0, A, fun _ => 0%Qc))
    (fun m n k A t => (0, A)) (fun n A => (0, A, fun _ => 0%Qc, fun _ => 0%Qc, A))
    (fun m n A B C => (0, C, 1%Qc)) (fun n A => (0, A, fun _ => 0%Qc, A, A)).

Lemma in2 : forall i, 0 <= i < 2 -> i = 0 \/ i = 1.
Proof. lia. Qed.
Lemma sum2 : forall f, @zsum QcOps 2 f = (f z0 + (f z1 + 0))%Qc.
Proof. reflexivity. Qed.
Lemma sumZ2 : forall f, @zsum ZOps 2 f = f 0 + (f 1 + 0).
Proof. reflexivity. Qed.
Lemma Qc_eq_bool_false : forall x y, Qc_eq_bool x y = false -> x <> y.
Proof. intros x y H E. unfold Qc_eq_bool in H. destruct (Qc_eq_dec x y); congruence. Qed.
Lemma det2_sing : forall A C, det2 A = 0%Qc -> ~ @inverse QcOps 2 A C.
Proof.
  intros A C HD (H & _).
  assert (H00 := H 0 0 ltac:(lia) ltac:(lia)). assert (H01 := H 0 1 ltac:(lia) ltac:(lia)).
  assert (H10 := H 1 0 ltac:(lia) ltac:(lia)). assert (H11 := H 1 1 ltac:(lia) ltac:(lia)).
  unfold mmul in *. rewrite sum2 in *. unfold ident in *. simpl in *.
  assert (E : (det2 A * det2 C = (A z0 z0 * C z0 z0 + (A z0 z1 * C z1 z0 + 0)) * (A z1 z0 * C z0 z1 + (A z1 z1 * C z1 z1 + 0))
             - (A z0 z0 * C z0 z1 + (A z0 z1 * C z1 z1 + 0)) * (A z1 z0 * C z0 z0 + (A z1 z1 * C z1 z0 + 0)))%Qc) by (unfold det2; ring).
  rewrite H00, H01, H10, H11, HD in E. discriminate.
Qed.
Lemma L2_gesv : forall k M N, gesv_contract L2 2 k M N.
Proof.
  intros k M N. unfold gesv_contract, L2. cbn [x_gesv].
  destruct (Qc_eq_bool (det2 M) 0%Qc) eqn:E.
  - split; [lia|]. split; [lia|]. intros _ C. apply det2_sing. now apply Qc_eq_bool_correct.
  - apply Qc_eq_bool_false in E. split; [lia|]. split; [|lia]. intros _ i j Hi Hj.
    unfold mmul. rewrite sum2. simpl. unfold det2 in *. destruct (in2 i Hi) as [-> | ->]; field; auto.
Qed.
Lemma L2_inv : forall M, inv_contract L2 2 M.
Proof.
  intros M. unfold inv_contract, L2. cbn [x_getrf x_getri].
  destruct (Qc_eq_bool (det2 M) 0%Qc) eqn:E.
  - split; [lia|]. split; [|lia]. intros _ C. apply det2_sing. now apply Qc_eq_bool_correct.
  - apply Qc_eq_bool_false in E. split; [lia|]. split; [lia|]. intros _ F' HF. split; [reflexivity|]. cbn [snd].
    assert (E00 := HF 0 0 ltac:(lia) ltac:(lia)). assert (E01 := HF 0 1 ltac:(lia) ltac:(lia)).
    assert (E10 := HF 1 0 ltac:(lia) ltac:(lia)). assert (E11 := HF 1 1 ltac:(lia) ltac:(lia)).
    unfold det2 in *.
    split; intros i j Hi Hj; unfold mmul; rewrite sum2; unfold ident; simpl;
      destruct (in2 i Hi) as [-> | ->]; destruct (in2 j Hj) as [-> | ->]; simpl; rewrite E00, E01, E10, E11; field; auto.
Qed.

Definition qbuf (base : Z) (l : list Z) : heap Qc := fun z => option_map (fun n => Q2Qc (inject_Z n)) (buf base l z).
Definition hor {T} (h g : heap T) : heap T := fun z => match h z with Some v => Some v | None => g z end.
Definition qs (h : heap Qc) (l : list Z) : list (option Q) := map (fun z => option_map this (h z)) l.

(** x [[1,2],[3,4]] = [5, 6] has the solution x = [-1, 2]. *)
Example C56_case :
  match la_gesv L2 (tensor_ctor 0 [2; 2]) (tensor_ctor 10 [1; 2]) (hor (qbuf 0 [1; 2; 3; 4]) (qbuf 10 [5; 6])) with
  | Ok (info, h') => info = 0 /\ qs h' [10; 11] = [Some (-1)%Q; Some 2%Q]
  | _ => False
  end.
Proof. vm_compute. auto. Qed.
Example C57_case :
  match la_invert L2 (mkDesc 0 [2; 2] [3; 1]) (qbuf 0 [1; 2; 77; 3; 4]) with
  | Ok h' => qs h' [0; 1; 2; 3; 4] = [Some (-2)%Q; Some 1%Q; Some 77%Q; Some (3 # 2)%Q; Some (-1 # 2)%Q]
  | _ => False
  end /\
  la_invert L2 (mkDesc 0 [2; 2] [3; 1]) (qbuf 0 [1; 2; 77; 2; 4]) = Throw.
Proof. split; vm_compute; auto. Qed.

(** gesv on a view whose leading stride is not its extent solves another
    system. *)
Theorem C56_view_refuted :
  exists (A B : desc) (a b : list Z -> Qc) (h h' : heap Qc),
    (forall k M N, gesv_contract L2 2 k M N) /\
    mat A 2 2 3 /\ mat B 1 2 2 /\ holds h A a /\ holds h B b /\ disj A B /\
    la_gesv L2 A B h = Ok (0, h') /\
    ~ (exists x, holds h' B x /\ @agree QcOps 1 2 (mmul (O := QcOps) 2 (mx (O := QcOps) x) (mx (O := QcOps) a)) (mx (O := QcOps) b)).
Proof.
  set (A := mkDesc 0 [2; 2] [3; 1]). set (B := tensor_ctor 10 [1; 2]).
  set (h := hor (qbuf 0 [1; 0; 5; 1; 1]) (qbuf 10 [3; 4])).
  exists A, B, (fun i => if nth 1 i 0 <=? nth 0 i 0 then 1%Qc else 0%Qc),
    (fun i => if nth 1 i 0 =? 0 then Q2Qc 3 else Q2Qc 4), h.
  assert (C : match la_gesv L2 A B h with
              | Ok (info, h') => info = 0 /\ qs h' [10; 11] <> [Some (-1)%Q; Some 4%Q]
              | _ => False end).
  { vm_compute. split; [reflexivity|]. discriminate. }
  destruct (la_gesv L2 A B h) as [[info h']| |] eqn:E; try contradiction.
  destruct C as (I0 & C'). subst info.
  exists h'. split; [exact L2_gesv|]. split; [repeat split; simpl; lia|]. split; [apply tc_mat|].
  split; [|split; [|split; [|split]]].
  - intros idx Hi. apply inb2_inv in Hi as (i & j & -> & Hi & Hj).
    destruct (in2 i Hi) as [-> | ->]; destruct (in2 j Hj) as [-> | ->]; reflexivity.
  - intros idx Hi. apply inb2_inv in Hi as (i & j & -> & Hi & Hj). assert (i = 0) by lia. subst.
    destruct (in2 j Hj) as [-> | ->]; reflexivity.
  - intros x y Hx Hy. apply inb2_inv in Hx as (i & j & -> & Hi & Hj). apply inb2_inv in Hy as (k & l & -> & Hk & Hl).
    unfold addr. simpl. lia.
  - reflexivity.
  - intros (x & Hx & HE). apply C'.
    assert (X0 := Hx [0; 0] ltac:(apply inb2; lia)). assert (X1 := Hx [0; 1] ltac:(apply inb2; lia)).
    change (addr B [0; 0]) with 10 in X0. change (addr B [0; 1]) with 11 in X1.
    unfold qs. simpl. rewrite X0, X1.
    assert (E0 := HE 0 0 ltac:(lia) ltac:(lia)). assert (E1 := HE 0 1 ltac:(lia) ltac:(lia)).
    unfold mmul in E0, E1. rewrite sum2 in E0, E1. unfold mx in E0, E1. simpl in E0, E1.
    assert (X : x [0; 1] = Q2Qc 4) by (rewrite <- E1; ring). rewrite X in *.
    assert (x [0; 0] = (Q2Qc 3 - Q2Qc 4)%Qc) as -> by (rewrite <- E0; ring).
    reflexivity.
Qed.

(** An eigensolver answer for the examples below: info, vectors, values. *)
Definition Lsy (info : Z) (V : Z -> Z -> Z) (w : Z -> Z) : @lapack ZOps :=
  @mkLapack ZOps (fun m n A => (0, A, [])) (fun n A p => (0, A)) (fun n k A B => (0, A, B))
    (fun n A => (info, V, w)) (fun m n A => (0, A, fun _ => 0, A, A))
    (fun m n A => (0, A, fun _ => 0, A, A, fun _ => 0)) (fun m n A => (0, A, fun _ => 0))
    (fun m n k A t => (0, A)) (fun n A => (0, A, fun _ => 0, fun _ => 0, A))
    (fun m n A B C => (0, C, 1)) (fun n A => (0, A, fun _ => 0, A, A)).
Definition idZ (i j : Z) : Z := if i =? j then 1 else 0.
Definition swZ (i j : Z) : Z := if i =? j then 0 else 1.

Ltac two i Hi := destruct (in2 i Hi) as [-> | ->].

Lemma Lsy_diag : forall M, @agree ZOps 2 2 M (fun i j => if i =? j then 2 * i + 1 else 0) ->
  syev_contract (O := ZOps) Z.ltb (Lsy 0 idZ (fun i => 2 * i + 1)) 2 M.
Proof.
  intros M HM. unfold syev_contract. cbn [Lsy x_syev]. split; [lia|]. intros _. split; [|split].
  - split; intros i j Hi Hj; two i Hi; two j Hj; reflexivity.
  - intros i k Hi Hk.
    assert (E00 := HM 0 0 ltac:(lia) ltac:(lia)). assert (E01 := HM 0 1 ltac:(lia) ltac:(lia)).
    assert (E11 := HM 1 1 ltac:(lia) ltac:(lia)). simpl in E00, E01, E11.
    unfold mmul, from_upper. rewrite sumZ2. simpl.
    two i Hi; two k Hk; simpl; rewrite ?E00, ?E01, ?E11; reflexivity.
  - intros k Hk. assert (k = 0) by lia. subst. reflexivity.
Qed.

(** Only the lower triangle is used, although the documentation says it is the
    upper one. *)
Theorem C58_upper_refuted :
  exists (L : lapack) (A W : desc) (a : list Z -> Z) (h h' : heap Z),
    mat A 2 2 2 /\ vect W 2 1 /\ @holds Z h A a /\ alloc h W /\ disj A W /\
    (forall M, @agree ZOps 2 2 M (upper (O := ZOps) (trn (O := ZOps) (mx (O := ZOps) a))) ->
       syev_contract (O := ZOps) Z.ltb L 2 M /\ fst (fst (x_syev L 2 M)) = 0) /\
    la_syev (O := ZOps) L A W h = Ok h' /\
    ~ (exists v w, @holds Z h' A v /\ @holds Z h' W w /\
         @eigenpair ZOps 2 (from_upper (O := ZOps) (mx (O := ZOps) a)) (w [0]) (fun j => v [0; j])).
Proof.
  set (A := tensor_ctor 0 [2; 2]). set (W := tensor_ctor 10 [2]).
  set (h := hor (buf 0 [1; 2; 0; 3]) (buf 10 [0; 0])). set (L := Lsy 0 idZ (fun i => 2 * i + 1)).
  exists L, A, W, (fun i => nth (Z.to_nat (2 * nth 0 i 0 + nth 1 i 0)) [1; 2; 0; 3] 0), h.
  assert (C : match la_syev (O := ZOps) L A W h with
              | Ok h' => map h' [0; 1; 10] = [Some 1; Some 0; Some 1] | _ => False end) by reflexivity.
  destruct (la_syev (O := ZOps) L A W h) as [h'| |] eqn:E; try contradiction.
  exists h'. split; [apply tc_mat|]. split; [apply tc_vect|]. split; [|split; [|split; [|split; [|split]]]].
  - intros idx Hi. apply inb2_inv in Hi as (i & j & -> & Hi & Hj). two i Hi; two j Hj; reflexivity.
  - intros idx Hi. apply inb1_inv in Hi as (i & -> & Hi). exists 0. two i Hi; reflexivity.
  - apply disj_cells. intros z H1 H2. apply tc_cell2 in H1; try lia. apply tc_cell1 in H2; lia.
  - intros M HM. split; [|reflexivity]. apply Lsy_diag. intros i j Hi Hj. rewrite HM by auto.
    two i Hi; two j Hj; reflexivity.
  - reflexivity.
  - intros (v & w & Hv & Hw & HE).
    assert (V0 := Hv [0; 0] ltac:(apply inb2; lia)). assert (V1 := Hv [0; 1] ltac:(apply inb2; lia)).
    assert (W0 := Hw [0] ltac:(apply inb1; lia)).
    change (addr A [0; 0]) with 0 in V0. change (addr A [0; 1]) with 1 in V1. change (addr W [0]) with 10 in W0.
    injection C as C0 C1 C2. rewrite V0 in C0. rewrite V1 in C1. rewrite W0 in C2.
    injection C0 as C0. injection C1 as C1. injection C2 as C2.
    specialize (HE 1 ltac:(lia)). rewrite sumZ2 in HE. simpl in HE. rewrite C0, C1, C2 in HE. discriminate.
Qed.

(** The stride of the vector of eigenvalues is ignored. *)
Theorem C58_strided_values_refuted :
  exists (L : lapack) (A W : desc) (a : list Z -> Z) (h h' : heap Z),
    mat A 2 2 2 /\ vect W 2 2 /\ @holds Z h A a /\ (forall i j, 0 <= i < 2 -> 0 <= j < 2 -> a [i; j] = a [j; i]) /\
    disj A W /\
    (forall M, @agree ZOps 2 2 M (upper (O := ZOps) (trn (O := ZOps) (mx (O := ZOps) a))) ->
       syev_contract (O := ZOps) Z.ltb L 2 M /\ fst (fst (x_syev L 2 M)) = 0) /\
    la_syev (O := ZOps) L A W h = Ok h' /\
    ~ (exists v w, @holds Z h' A v /\ @holds Z h' W w /\
         @eigenpair ZOps 2 (mx (O := ZOps) a) (w [1]) (fun j => v [1; j])).
Proof.
  set (A := tensor_ctor 0 [2; 2]). set (W := mkDesc 10 [2] [2]).
  set (h := hor (buf 0 [1; 0; 0; 3]) (buf 10 [0; 0; 0])). set (L := Lsy 0 idZ (fun i => 2 * i + 1)).
  exists L, A, W, (fun i => nth (Z.to_nat (2 * nth 0 i 0 + nth 1 i 0)) [1; 0; 0; 3] 0), h.
  assert (C : match la_syev (O := ZOps) L A W h with
              | Ok h' => map h' [2; 3; 12] = [Some 0; Some 1; Some 0] | _ => False end) by reflexivity.
  destruct (la_syev (O := ZOps) L A W h) as [h'| |] eqn:E; try contradiction.
  exists h'. split; [apply tc_mat|]. split; [repeat split; simpl; lia|]. split; [|split; [|split; [|split; [|split]]]].
  - intros idx Hi. apply inb2_inv in Hi as (i & j & -> & Hi & Hj). two i Hi; two j Hj; reflexivity.
  - intros i j Hi Hj. two i Hi; two j Hj; reflexivity.
  - intros x y Hx Hy. apply inb2_inv in Hx as (i & j & -> & Hi & Hj). apply inb1_inv in Hy as (k & -> & Hk).
    unfold addr. simpl. lia.
  - intros M HM. split; [|reflexivity]. apply Lsy_diag. intros i j Hi Hj. rewrite HM by auto.
    two i Hi; two j Hj; reflexivity.
  - reflexivity.
  - intros (v & w & Hv & Hw & HE).
    assert (V0 := Hv [1; 0] ltac:(apply inb2; lia)). assert (V1 := Hv [1; 1] ltac:(apply inb2; lia)).
    assert (W0 := Hw [1] ltac:(apply inb1; lia)).
    change (addr A [1; 0]) with 2 in V0. change (addr A [1; 1]) with 3 in V1. change (addr W [1]) with 12 in W0.
    injection C as C0 C1 C2. rewrite V0 in C0. rewrite V1 in C1. rewrite W0 in C2.
    injection C0 as C0. injection C1 as C1. injection C2 as C2.
    specialize (HE 1 ltac:(lia)). rewrite sumZ2 in HE. simpl in HE. rewrite C0, C1, C2 in HE. discriminate.
Qed.

(** A failure of the eigensolver ([info > 0]) is not reported. *)
Theorem C58_no_convergence_refuted :
  exists (L : lapack) (A W : desc) (a : list Z -> Z) (h h' : heap Z),
    mat A 2 2 2 /\ vect W 2 1 /\ @holds Z h A a /\ alloc h W /\ disj A W /\
    (forall M, syev_contract (O := ZOps) Z.ltb L 2 M /\ 0 < fst (fst (x_syev L 2 M))) /\
    la_syev (O := ZOps) L A W h = Ok h'.
Proof.
  set (A := tensor_ctor 0 [2; 2]). set (W := tensor_ctor 10 [2]).
  set (h := hor (buf 0 [1; 2; 2; 3]) (buf 10 [0; 0])). set (L := Lsy 1 idZ (fun i => 2 * i + 1)).
  exists L, A, W, (fun i => nth (Z.to_nat (2 * nth 0 i 0 + nth 1 i 0)) [1; 2; 2; 3] 0), h.
  assert (C : match la_syev (O := ZOps) L A W h with Ok _ => True | _ => False end) by (vm_compute; exact I).
  destruct (la_syev (O := ZOps) L A W h) as [h'| |] eqn:E; try contradiction.
  exists h'. split; [apply tc_mat|]. split; [apply tc_vect|]. split; [|split; [|split; [|split]]].
  - intros idx Hi. apply inb2_inv in Hi as (i & j & -> & Hi & Hj). two i Hi; two j Hj; reflexivity.
  - intros idx Hi. apply inb1_inv in Hi as (i & -> & Hi). exists 0. two i Hi; reflexivity.
  - apply disj_cells. intros z H1 H2. apply tc_cell2 in H1; try lia. apply tc_cell1 in H2; lia.
  - intros M. unfold syev_contract. simpl. split; [split; [lia|discriminate]|lia].
  - reflexivity.
Qed.

(** diag(9, 4): eigenvalues 4, 9, eigenvectors exchanged; with "power" x^2. *)
Definition ZF2 : @fops ZOps := mkFops (O := ZOps) Z.abs Z.ltb (fun x _ => x * x) (fun _ => true) Z.sqrt.
Example C58_case :
  match la_syev (O := ZOps) (Lsy 0 swZ (fun i => 5 * i + 4)) (mkDesc 0 [2; 2] [3; 1]) (tensor_ctor 10 [2])
          (hor (buf 0 [9; 0; 77; 0; 4]) (buf 10 [0; 0])) with
  | Ok h' => map h' [0; 1; 2; 3; 4; 10; 11] = map Some [0; 1; 77; 1; 0; 4; 9]
  | _ => False end.
Proof. reflexivity. Qed.
Lemma swap_contract : forall M, @agree ZOps 2 2 M (upper (O := ZOps) (trn (O := ZOps) (mx (O := ZOps) (fun i =>
    if nth 0 i 0 =? nth 1 i 0 then (if nth 0 i 0 =? 0 then 9 else 4) else 0)))) ->
  syev_contract (O := ZOps) Z.ltb (Lsy 0 swZ (fun i => 5 * i + 4)) 2 M.
Proof.
  intros M HM. unfold syev_contract. cbn [Lsy x_syev]. split; [lia|]. intros _. split; [|split].
  - split; intros i j Hi Hj; two i Hi; two j Hj; reflexivity.
  - intros i k Hi Hk.
    assert (E00 := HM 0 0 ltac:(lia) ltac:(lia)). assert (E01 := HM 0 1 ltac:(lia) ltac:(lia)).
    assert (E11 := HM 1 1 ltac:(lia) ltac:(lia)). cbv in E00, E01, E11.
    unfold mmul, from_upper. rewrite sumZ2. simpl.
    two i Hi; two k Hk; simpl; rewrite ?E00, ?E01, ?E11; reflexivity.
  - intros k Hk. assert (k = 0) by lia. subst. reflexivity.
Qed.
Example C59_case :
  match la_pow (O := ZOps) (Lsy 0 swZ (fun i => 5 * i + 4)) ZF2 (mkDesc 0 [2; 2] [3; 1]) 2 0 100
          (buf 0 [9; 0; 77; 0; 4]) with
  | Ok (P, h') => map (fun idx => h' (addr P idx)) (indices [2; 2]) = map Some [81; 0; 0; 16]
  | _ => False end.
Proof. reflexivity. Qed.

Print Assumptions C56_gesv_partial.
Print Assumptions C56_view_refuted.
Print Assumptions C57_invert.
Print Assumptions C58_syev_partial.
Print Assumptions C58_upper_refuted.
Print Assumptions C58_strided_values_refuted.
Print Assumptions C58_no_convergence_refuted.
Print Assumptions C59_pow.
Print Assumptions C60_norm_partial.
Print Assumptions C60_one_infinity_partial.
Print Assumptions C60_one_refuted.
Print Assumptions C60_wide_refuted.
Print Assumptions C60_tall_refuted.
