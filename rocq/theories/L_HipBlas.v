(** * L_HipBlas: lemmas for the GPU backend. *)
From Coq Require Import Ascii List ZArith Lia Bool Znumtheory.
From Verif Require Import Base Heap Conc M_Addr M_Einsum L_Einsum M_Blas S_Blas L_Blas M_Lapack M_GpuLin.
From Verif Require Import M_HipBlas S_HipBlas.
Import ListNotations.
Open Scope Z_scope.

Section Calls.
  Context {O : Ops}.
  Notation T := (car O).
  Implicit Types (h d : heap T) (lv : list (Z * Z)).

  Definition never : nat -> bool := fun _ => false.

  Lemma hcopy_ok : forall h d dst src n, covers h src n -> covers d dst n ->
    exists t, hcopy h dst src n d = Ok t /\
      (forall z, dst <= z < dst + n -> t z = h (src + (z - dst))) /\
      (forall z, ~ (dst <= z < dst + n) -> t z = d z).
  Proof.
    intros h d dst src n CH CD. unfold hcopy.
    destruct (forM_cells Z T (zrange n) (fun i => dst + i)
                (fun i => match h (src + i) with Some v => v | None => o0 end)
                (fun i t => v <- rd h (src + i) ;; wr t (dst + i) v) d) as (t & E & H1 & H2).
    - apply FinFun.Injective_map_NoDup; [|apply zrange_NoDup]. intros i j Hij. lia.
    - intros i h' Hi Hag. apply zrange_in in Hi.
      destruct (CH (src + i)) as (v & Hv); [lia|]. destruct (CD (dst + i)) as (w & Hw); [lia|].
      unfold rd. rewrite Hv. cbn [bind]. unfold wr. rewrite Hag by auto. now rewrite Hw.
    - exists t. split; [exact E|]. split.
      + intros z Hz. assert (Hi : In (z - dst) (zrange n)) by (apply zrange_in; lia).
        specialize (H1 _ Hi). cbv beta in H1. replace (dst + (z - dst)) with z in H1 by lia. rewrite H1.
        destruct (CH (src + (z - dst))) as (v & Hv); [lia|]. now rewrite Hv.
      + intros z Hz. apply H2. intros Hin. apply in_map_iff in Hin as (i & <- & Hi). apply zrange_in in Hi. lia.
  Qed.

  Lemma st_malloc : forall k p n j l h d lv r v i, 0 <= n ->
    hrun never k (CMalloc p n j :: l) (mkH h d lv r v i)
    = hrun never (S k) l (mkH h (fun z => if within p n z then Some (j z) else d z) ((p, n) :: lv) r v i).
  Proof. intros. cbn [hrun hstep never h_host h_dev h_live h_reg h_val h_info]. destruct (Z.ltb_spec n 0); [lia|]. reflexivity. Qed.

  Lemma st_todev : forall k dst src n l h d lv r v i, covers h src n -> covers d dst n ->
    exists d', hrun never k (CToDev dst src n :: l) (mkH h d lv r v i) = hrun never (S k) l (mkH h d' lv r v i) /\
      (forall z, dst <= z < dst + n -> d' z = h (src + (z - dst))) /\
      (forall z, ~ (dst <= z < dst + n) -> d' z = d z).
  Proof.
    intros k dst src n l h d lv r v i CH CD. destruct (hcopy_ok h d dst src n CH CD) as (t & E & H).
    exists t. split; [|exact H]. cbn [hrun hstep never h_host h_dev]. rewrite E. reflexivity.
  Qed.

  Lemma st_tohost : forall k dst src n l h d lv r v i, covers h dst n -> covers d src n ->
    exists h', hrun never k (CToHost dst src n :: l) (mkH h d lv r v i) = hrun never (S k) l (mkH h' d lv r v i) /\
      (forall z, dst <= z < dst + n -> h' z = d (src + (z - dst))) /\
      (forall z, ~ (dst <= z < dst + n) -> h' z = h z).
  Proof.
    intros k dst src n l h d lv r v i CH CD. destruct (hcopy_ok d h dst src n CD CH) as (t & E & H).
    exists t. split; [|exact H]. cbn [hrun hstep never h_host h_dev]. rewrite E. reflexivity.
  Qed.

  Lemma st_scalars1 : forall k dst x l h d lv r v i, covers d dst 1 ->
    hrun never k (CScalars dst [x] :: l) (mkH h d lv r v i) = hrun never (S k) l (mkH h (upd d dst x) lv r v i).
  Proof.
    intros k dst x l h d lv r v i C. destruct (C dst) as (u & Hu); [lia|].
    cbn [hrun hstep never h_dev length]. change (Z.of_nat 1) with 1. change (zrange 1) with [0].
    cbn [combine forM fst snd]. rewrite Z.add_0_r. unfold wr. rewrite Hu. reflexivity.
  Qed.

  Lemma st_scalars2 : forall k dst x y l h d lv r v i, covers d dst 2 ->
    hrun never k (CScalars dst [x; y] :: l) (mkH h d lv r v i)
    = hrun never (S k) l (mkH h (upd (upd d dst x) (dst + 1) y) lv r v i).
  Proof.
    intros k dst x y l h d lv r v i C. destruct (C dst) as (u & Hu); [lia|]. destruct (C (dst + 1)) as (w & Hw); [lia|].
    cbn [hrun hstep never h_dev length]. change (Z.of_nat 2) with 2. change (zrange 2) with [0; 1].
    cbn [combine forM fst snd]. rewrite Z.add_0_r. unfold wr at 1. rewrite Hu. cbn [bind]. unfold wr.
    rewrite upd_other by lia. rewrite Hw. reflexivity.
  Qed.

  Lemma st_free : forall k p n lv' l h d lv r v i, drop_block p lv = Some (n, lv') ->
    hrun never k (CFree p :: l) (mkH h d lv r v i)
    = hrun never (S k) l (mkH h (fun z => if within p n z then None else d z) lv' r v i).
  Proof. intros k p n lv' l h d lv r v i E. cbn [hrun hstep never h_live]. rewrite E. reflexivity. Qed.

  Lemma st_sync : forall k l (s : @hstate O), hrun never k (CSync :: l) s = hrun never (S k) l s.
  Proof. reflexivity. Qed.

  Lemma st_launch : forall k f l h d d' lv r v i, f d = Ok d' ->
    hrun never k (CLaunch f :: l) (mkH h d lv r v i) = hrun never (S k) l (mkH h d' lv r v i).
  Proof. intros k f l h d d' lv r v i E. cbn [hrun hstep never h_dev]. rewrite E. reflexivity. Qed.

  Lemma st_value : forall k f l h d x lv r v i, f d = Ok x ->
    hrun never k (CValue f :: l) (mkH h d lv r v i) = hrun never (S k) l (mkH h d lv r (Some x) i).
  Proof. intros k f l h d x lv r v i E. cbn [hrun hstep never h_dev]. rewrite E. reflexivity. Qed.

  Lemma st_solve : forall k f l h d x d' lv r v i, f d = Ok (x, d') ->
    hrun never k (CSolve f :: l) (mkH h d lv r v i) = hrun never (S k) l (mkH h d' lv r v (Some x)).
  Proof. intros k f l h d x d' lv r v i E. cbn [hrun hstep never h_dev]. rewrite E. reflexivity. Qed.

  Lemma within_iff : forall p n z, within p n z = true <-> p <= z < p + n.
  Proof. intros. unfold within. rewrite andb_true_iff, Z.leb_le, Z.ltb_lt. lia. Qed.
  Lemma within_t : forall p n z, p <= z < p + n -> within p n z = true.
  Proof. intros. now apply within_iff. Qed.
  Lemma within_f : forall p n z, ~ (p <= z < p + n) -> within p n z = false.
  Proof. intros p n z H. destruct (within p n z) eqn:E; auto. apply within_iff in E. contradiction. Qed.

  Lemma drop_hd : forall p n lv, drop_block p ((p, n) :: lv) = Some (n, lv).
  Proof. intros. cbn. now rewrite Z.eqb_refl. Qed.
  Lemma drop_tl : forall p q n m (lv lv' : list (Z * Z)), q <> p -> drop_block p lv = Some (m, lv') ->
    drop_block p ((q, n) :: lv) = Some (m, (q, n) :: lv').
  Proof. intros p q n m lv lv' N E. cbn. destruct (Z.eqb_spec q p); [contradiction|]. now rewrite E. Qed.

  (** ** The library routines, by what they do to each cell *)

  (** Elements of op(A), op(B) and C read by xGEMM. *)
  Lemma fgemm_cells : forall (ta tb : bool) m n k alpha a lda b ldb beta c ldc h
      (u v w : Z -> Z -> T),
    0 < m -> 0 < n -> 0 < k -> (if ta then k else m) <= lda -> (if tb then n else k) <= ldb -> m <= ldc ->
    (forall i l, 0 <= i < m -> 0 <= l < k -> h (fop ta a lda i l) = Some (u i l)) ->
    (forall l j, 0 <= l < k -> 0 <= j < n -> h (fop tb b ldb l j) = Some (v l j)) ->
    (forall i j, 0 <= i < m -> 0 <= j < n -> h (c + i + j * ldc) = Some (w i j)) ->
    (forall i j i' l, 0 <= i < m -> 0 <= j < n -> 0 <= i' < m -> 0 <= l < k -> c + i + j * ldc <> fop ta a lda i' l) ->
    (forall i j l j', 0 <= i < m -> 0 <= j < n -> 0 <= l < k -> 0 <= j' < n -> c + i + j * ldc <> fop tb b ldb l j') ->
    exists h', fgemm ta tb m n k alpha a lda b ldb beta c ldc h = Ok h' /\
      (forall i j, 0 <= i < m -> 0 <= j < n ->
         h' (c + i + j * ldc) = Some (updv alpha beta (opsum alpha (sumv k (u i) (fun l => v l j))) (w i j))) /\
      (forall z, (forall i j, 0 <= i < m -> 0 <= j < n -> z <> c + i + j * ldc) -> h' z = h z).
  Proof.
    intros ta tb m n k alpha a lda b ldb beta c ldc h u v w Hm Hn Hk La Lb Lc HA HB HC DA DB.
    unfold fgemm.
    match goal with |- context [if ?g then _ else _] => replace g with false end.
    2:{ symmetry. rewrite !orb_false_iff.
        repeat split; try (apply Z.ltb_ge; lia); destruct ta, tb; apply Z.ltb_ge; lia. }
    set (ad := fun ij : list Z => c + nth 1 ij 0 + nth 0 ij 0 * ldc).
    destruct (exec_w (list Z) (indices [n; m]) ad
      (fun ij => updv alpha beta (opsum alpha (sumv k (u (nth 1 ij 0)) (fun l => v l (nth 0 ij 0))))
                   (w (nth 1 ij 0) (nth 0 ij 0)))
      (fgemm_body ta tb k alpha a lda b ldb beta c ldc) h) as (h' & E & H1 & H2).
    - assert (G : forall x y, In x (indices [n; m]) -> In y (indices [n; m]) -> ad x = ad y -> x = y).
      { intros x y Hx Hy Exy. apply in_indices, inb2_inv in Hx as (j & i & -> & Hj & Hi).
        apply in_indices, inb2_inv in Hy as (j' & i' & -> & Hj' & Hi'). unfold ad in Exy. cbn [nth] in Exy.
        assert (j = j') by nia. subst. f_equal. f_equal. lia. }
      assert (ND := indices_NoDup [n; m]). revert G ND. generalize (indices [n; m]). intros L.
      induction L as [|x L IH]; intros G ND; cbn [map]; constructor.
      + intros Hin. apply in_map_iff in Hin as (y & Ey & Hy). inversion ND as [|? ? N1 N2]; subst.
        apply N1. rewrite <- (G y x); [exact Hy|now right|now left|exact Ey].
      + inversion ND; subst. apply IH; auto. intros; apply G; auto; now right.
    - intros ij h1 Hij Hag. apply in_indices, inb2_inv in Hij as (j & i & -> & Hj & Hi). cbn [nth].
      assert (Had : ad [j; i] = c + i + j * ldc) by reflexivity.
      assert (Hown : forall z, owned (indices [n; m]) ad z -> exists i' j', 0 <= i' < m /\ 0 <= j' < n /\ z = c + i' + j' * ldc).
      { intros z Hz. unfold owned in Hz. apply in_map_iff in Hz as (ij & <- & Hij).
        apply in_indices, inb2_inv in Hij as (j' & i' & -> & Hj' & Hi'). exists i', j'. auto. }
      assert (Hc : h1 (c + i + j * ldc) = Some (w i j)).
      { rewrite Hag by (left; symmetry; exact Had). apply HC; auto. }
      unfold fgemm_body. rewrite Had.
      apply wtask_bind with (s := opsum alpha (sumv k (u i) (fun l => v l j))).
      + unfold opsum. destruct (oeqb alpha o0); [apply reads_ret|].
        apply reads_psum. intros l Hl.
        assert (NA : ~ owned (indices [n; m]) ad (fop ta a lda i l)).
        { intros Ho. apply Hown in Ho as (i' & j' & Hi' & Hj' & Eq). symmetry in Eq. revert Eq. apply DA; auto. }
        assert (NB : ~ owned (indices [n; m]) ad (fop tb b ldb l j)).
        { intros Ho. apply Hown in Ho as (i' & j' & Hi' & Hj' & Eq). symmetry in Eq. revert Eq. apply DB; auto. }
        rewrite !Hag by auto. auto 6.
      + unfold updv. destruct (oeqb beta o0).
        * eapply wtask_wr; eauto.
        * eapply wtask_rd; eauto. eapply wtask_wr; eauto.
    - exists h'. split; [exact E|]. split.
      + intros i j Hi Hj. apply (H1 [j; i]). apply in_indices, inb2; lia.
      + intros z Hz. apply H2. intros Ho. unfold owned in Ho. apply in_map_iff in Ho as (ij & <- & Hij).
        apply in_indices, inb2_inv in Hij as (j & i & -> & Hj & Hi). apply (Hz i j Hi Hj). reflexivity.
  Qed.

  Lemma fgemv_cells : forall (ta : bool) m n alpha a lda x incx beta y incy h (u : Z -> Z -> T) (v w : Z -> T),
    0 < m -> 0 < n -> m <= lda -> 0 < incx -> 0 < incy ->
    let nx := if ta then m else n in let ny := if ta then n else m in
    (forall i l, 0 <= i < ny -> 0 <= l < nx -> h (fop ta a lda i l) = Some (u i l)) ->
    (forall l, 0 <= l < nx -> h (x + l * incx) = Some (v l)) ->
    (forall i, 0 <= i < ny -> h (y + i * incy) = Some (w i)) ->
    (forall i i' l, 0 <= i < ny -> 0 <= i' < ny -> 0 <= l < nx -> y + i * incy <> fop ta a lda i' l) ->
    (forall i l, 0 <= i < ny -> 0 <= l < nx -> y + i * incy <> x + l * incx) ->
    exists h', fgemv ta m n alpha a lda x incx beta y incy h = Ok h' /\
      (forall i, 0 <= i < ny -> h' (y + i * incy) = Some (updv alpha beta (opsum alpha (sumv nx (u i) v)) (w i))) /\
      (forall z, (forall i, 0 <= i < ny -> z <> y + i * incy) -> h' z = h z).
  Proof.
    intros ta m n alpha a lda x incx beta y incy h u v w Hm Hn La Hx Hy nx ny HA HX HY DA DX.
    unfold fgemv.
    match goal with |- context [if ?g then _ else _] => replace g with false end.
    2:{ symmetry. rewrite !orb_false_iff. repeat split; try (apply Z.ltb_ge; lia); try (apply Z.eqb_neq; lia). }
    destruct (Z.eqb_spec m 0); [lia|]. destruct (Z.eqb_spec n 0); [lia|]. cbn [orb]. fold ny.
    set (ad := fun i => y + i * incy).
    destruct (exec_w Z (zrange ny) ad (fun i => updv alpha beta (opsum alpha (sumv nx (u i) v)) (w i))
      (fgemv_body ta m n alpha a lda x incx beta y incy) h) as (h' & E & H1 & H2).
    - apply FinFun.Injective_map_NoDup; [|apply zrange_NoDup]. intros i j Hij. unfold ad in Hij. nia.
    - intros i h1 Hi Hag. apply zrange_in in Hi. unfold fgemv_body. fold nx. fold ny.
      rewrite fvec_pos by auto. fold (ad i).
      assert (Hown : forall z, owned (zrange ny) ad z -> exists i', 0 <= i' < ny /\ z = y + i' * incy).
      { intros z Hz. unfold owned in Hz. apply in_map_iff in Hz as (i' & <- & Hi'). apply zrange_in in Hi'. exists i'. auto. }
      assert (Hc : h1 (ad i) = Some (w i)) by (rewrite Hag by auto; apply HY; auto).
      apply wtask_bind with (s := opsum alpha (sumv nx (u i) v)).
      + unfold opsum. destruct (oeqb alpha o0); [apply reads_ret|].
        apply reads_psum. intros l Hl. rewrite fvec_pos by auto.
        assert (NA : ~ owned (zrange ny) ad (fop ta a lda i l)).
        { intros Ho. apply Hown in Ho as (i' & Hi' & Eq). symmetry in Eq. revert Eq. apply DA; auto. }
        assert (NX : ~ owned (zrange ny) ad (x + l * incx)).
        { intros Ho. apply Hown in Ho as (i' & Hi' & Eq). symmetry in Eq. revert Eq. apply DX; auto. }
        rewrite !Hag by auto. auto 6.
      + unfold updv. destruct (oeqb beta o0).
        * eapply wtask_wr; eauto.
        * eapply wtask_rd; eauto. eapply wtask_wr; eauto.
    - exists h'. split; [exact E|]. split.
      + intros i Hi. apply (H1 i). apply zrange_in. auto.
      + intros z Hz. apply H2. intros Ho. unfold owned in Ho. apply in_map_iff in Ho as (i & <- & Hi).
        apply zrange_in in Hi. apply (Hz i Hi). reflexivity.
  Qed.

  Lemma hger_cells : forall conj m n alpha x incx y incy a lda h (u v : Z -> T) (w : Z -> Z -> T),
    0 < m -> 0 < n -> m <= lda -> 0 < incx -> 0 < incy -> oeqb alpha o0 = false ->
    (forall i, 0 <= i < m -> h (x + i * incx) = Some (u i)) ->
    (forall j, 0 <= j < n -> h (y + j * incy) = Some (v j)) ->
    (forall i j, 0 <= i < m -> 0 <= j < n -> h (a + i + j * lda) = Some (w i j)) ->
    (forall i j i', 0 <= i < m -> 0 <= j < n -> 0 <= i' < m -> a + i + j * lda <> x + i' * incx) ->
    (forall i j j', 0 <= i < m -> 0 <= j < n -> 0 <= j' < n -> a + i + j * lda <> y + j' * incy) ->
    exists h', hger conj m n alpha x incx y incy a lda h = Ok h' /\
      (forall i j, 0 <= i < m -> 0 <= j < n ->
         h' (a + i + j * lda) = Some (oadd (w i j) (omul (u i) (omul alpha (conj (v j)))))) /\
      (forall z, (forall i j, 0 <= i < m -> 0 <= j < n -> z <> a + i + j * lda) -> h' z = h z).
  Proof.
    intros conj m n alpha x incx y incy a lda h u v w Hm Hn La Hx Hy Hal HX HY HA DX DY.
    unfold hger. rewrite Hal.
    match goal with |- context [if ?g then Throw else _] => replace g with false end.
    2:{ symmetry. rewrite !orb_false_iff. repeat split; try (apply Z.ltb_ge; lia); try (apply Z.eqb_neq; lia). }
    set (ad := fun ij : list Z => a + nth 1 ij 0 + nth 0 ij 0 * lda).
    destruct (exec_w (list Z) (indices [n; m]) ad
      (fun ij => oadd (w (nth 1 ij 0) (nth 0 ij 0)) (omul (u (nth 1 ij 0)) (omul alpha (conj (v (nth 0 ij 0))))))
      (hger_body conj m n alpha x incx y incy a lda) h) as (h' & E & H1 & H2).
    - assert (G : forall p q, In p (indices [n; m]) -> In q (indices [n; m]) -> ad p = ad q -> p = q).
      { intros p q Hp Hq Exy. apply in_indices, inb2_inv in Hp as (j & i & -> & Hj & Hi).
        apply in_indices, inb2_inv in Hq as (j' & i' & -> & Hj' & Hi'). unfold ad in Exy. cbn [nth] in Exy.
        assert (j = j') by nia. subst. f_equal. f_equal. lia. }
      assert (ND := indices_NoDup [n; m]). revert G ND. generalize (indices [n; m]). intros L.
      induction L as [|p L IH]; intros G ND; cbn [map]; constructor.
      + intros Hin. apply in_map_iff in Hin as (q & Ey & Hq). inversion ND as [|? ? N1 N2]; subst.
        apply N1. rewrite <- (G q p); [exact Hq|now right|now left|exact Ey].
      + inversion ND; subst. apply IH; auto. intros; apply G; auto; now right.
    - intros ij h1 Hij Hag. apply in_indices, inb2_inv in Hij as (j & i & -> & Hj & Hi). cbn [nth].
      assert (Had : ad [j; i] = a + i + j * lda) by reflexivity.
      assert (Hown : forall z, owned (indices [n; m]) ad z -> exists i' j', 0 <= i' < m /\ 0 <= j' < n /\ z = a + i' + j' * lda).
      { intros z Hz. unfold owned in Hz. apply in_map_iff in Hz as (ij & <- & Hij).
        apply in_indices, inb2_inv in Hij as (j' & i' & -> & Hj' & Hi'). exists i', j'. auto. }
      assert (Hc : h1 (a + i + j * lda) = Some (w i j)).
      { rewrite Hag by (left; symmetry; exact Had). apply HA; auto. }
      assert (NX : ~ owned (indices [n; m]) ad (x + i * incx)).
      { intros Ho. apply Hown in Ho as (i' & j' & Hi' & Hj' & Eq). symmetry in Eq. revert Eq. apply DX; auto. }
      assert (NY : ~ owned (indices [n; m]) ad (y + j * incy)).
      { intros Ho. apply Hown in Ho as (i' & j' & Hi' & Hj' & Eq). symmetry in Eq. revert Eq. apply DY; auto. }
      unfold hger_body. rewrite Had, !fvec_pos by auto.
      apply wtask_rd with (u := u i); [auto|rewrite Hag; auto|].
      apply wtask_rd with (u := v j); [auto|rewrite Hag; auto|].
      apply wtask_rd with (u := w i j); [auto|exact Hc|].
      apply wtask_wr with (w := w i j); auto.
    - exists h'. split; [exact E|]. split.
      + intros i j Hi Hj. apply (H1 [j; i]). apply in_indices, inb2; lia.
      + intros z Hz. apply H2. intros Ho. unfold owned in Ho. apply in_map_iff in Ho as (ij & <- & Hij).
        apply in_indices, inb2_inv in Hij as (j & i & -> & Hj & Hi). apply (Hz i j Hi Hj). reflexivity.
  Qed.

  Lemma hger_fger : forall m n alpha x incx y incy a lda h,
    hger (fun v => v) m n alpha x incx y incy a lda h = fger m n alpha x incx y incy a lda h.
  Proof. reflexivity. Qed.
  Lemma hdotc_fdot : forall n x incx y incy h, hdotc (fun v => v) n x incx y incy h = fdot n x incx y incy h.
  Proof. reflexivity. Qed.
End Calls.
