(** * L_GpuLin: lemmas about M_GpuLin. *)
From Coq Require Import List ZArith Lia Bool Permutation.
From Verif Require Import Base Heap Conc GpuConc M_Addr L_Addr M_Elt L_Elt M_Einsum S_Einsum L_Einsum S_Blas M_Blas L_Blas M_Lapack S_Lapack L_Lapack M_Gpu M_GpuLin.
Import ListNotations.
Open Scope Z_scope.

Section GpuLinL.
  Context {O : Ops}.
  Notation T := (car O).

  Lemma d_gemm_nolaw : forall (TA TB : bool) alpha beta A B C m n k lda ldb ldc a b c (h : heap T),
    0 <= m -> 0 <= n -> 0 <= k -> 1 <= lda -> 1 <= ldb -> 1 <= ldc ->
    (if TA then mat A k m lda else mat A m k lda) ->
    (if TB then mat B n k ldb else mat B k n ldb) ->
    mat C m n ldc -> holds h A a -> holds h B b -> holds h C c -> disj C A -> disj C B ->
    exists h', d_gemm TA TB alpha A B beta C h = Ok h' /\
      (forall i j, 0 <= i < m -> 0 <= j < n ->
         h' (addr C [i; j]) = Some (updv alpha beta
            (opsum alpha (sumv k (fun l => b (opi TB l j)) (fun l => a (opi TA i l)))) (c [i; j]))) /\
      (forall z, ~ cell C z -> h' z = h z).
  Proof.
    intros TA TB alpha beta A B C m n k lda ldb ldc a b c h Hm Hn Hk L1 L2 L3 MA MB MC HA HB HC DA DB.
    assert (MC' := MC). destruct MC' as (HdC & HsC & HlC).
    assert (EA : tstride A 0 = lda /\ (if TA then tdim A 0 else tdim A 1) = k /\ (if TA then m else k) <= lda).
    { destruct TA; destruct MA as (E1 & E2 & E3); unfold tstride, tdim; rewrite E1, E2; simpl; auto. }
    assert (EB : tstride B 0 = ldb /\ (if TB then k else n) <= ldb).
    { destruct TB; destruct MB as (E1 & E2 & E3); unfold tstride; rewrite E2; simpl; auto. }
    destruct EA as (EA1 & EA2 & EA3). destruct EB as (EB1 & EB2).
    assert (EC : tdim C 0 = m /\ tdim C 1 = n /\ tstride C 0 = ldc).
    { unfold tdim, tstride. rewrite HdC, HsC. auto. }
    destruct EC as (EC1 & EC2 & EC3).
    unfold d_gemm. rewrite EA1, EA2, EB1, EC1, EC2, EC3.
    unfold fgemm.
    match goal with |- context [if ?g then _ else _] => replace g with false end.
    2:{ symmetry. rewrite !orb_false_iff.
        repeat split; try (apply Z.ltb_ge; lia); destruct TA, TB; apply Z.ltb_ge; lia. }
    assert (HinA : forall i l, 0 <= i < m -> 0 <= l < k -> inb (opi TA i l) (ddims A)).
    { intros i l Hi Hl. destruct TA; destruct MA as (E1 & _); rewrite E1; apply inb2; lia. }
    assert (HinB : forall l j, 0 <= l < k -> 0 <= j < n -> inb (opi TB l j) (ddims B)).
    { intros i l Hi Hl. destruct TB; destruct MB as (E1 & _); rewrite E1; apply inb2; lia. }
    assert (HaA : forall i l, fop TA (dbase A) lda l i = addr A (opi TA i l)).
    { intros i l. unfold fop, opi. destruct TA; rewrite (mat_addr _ _ _ _ _ _ MA); lia. }
    assert (HaB : forall l j, fop TB (dbase B) ldb j l = addr B (opi TB l j)).
    { intros l j. unfold fop, opi. destruct TB; rewrite (mat_addr _ _ _ _ _ _ MB); lia. }
    destruct (exec_tasks (list Z) O (indices [m; n]) (addr C)
      (fun ij => match ij with
                 | [i; j] => Some (updv alpha beta
                     (opsum alpha (sumv k (fun l => b (opi TB l j)) (fun l => a (opi TA i l)))) (c [i; j]))
                 | _ => None end)
      (fgemm_body TB TA k alpha (dbase B) ldb (dbase A) lda beta (dbase C) ldc) h) as (h' & E & H1 & H2).
    - rewrite <- HdC. apply NoDup_addrs. eapply mat_inj; eauto.
    - intros ij h1 Hij Hag. apply in_indices, inb2_inv in Hij as (i & j & -> & Hi & Hj).
      assert (Hown : forall z, owned (indices [m; n]) (addr C) z -> cell C z).
      { intros z Hz. apply owned_cells. now rewrite HdC. }
      assert (Hc : h1 (addr C [i; j]) = Some (c [i; j])).
      { rewrite Hag by auto. apply HC. rewrite HdC. apply inb2; lia. }
      assert (HS : psafe (eq (addr C [i; j])) (fun z => ~ owned (indices [m; n]) (addr C) z)
          (if oeqb alpha o0 then PRet o0
           else psum k (fop TB (dbase B) ldb j) (fun l => fop TA (dbase A) lda l i)) h1 /\
        run (if oeqb alpha o0 then PRet o0
           else psum k (fop TB (dbase B) ldb j) (fun l => fop TA (dbase A) lda l i)) h1
        = Ok (opsum alpha (sumv k (fun l => b (opi TB l j)) (fun l => a (opi TA i l))), h1)).
      { unfold opsum. destruct (oeqb alpha o0); [simpl; auto|].
        apply psum_ok. intros l Hl. rewrite HaA, HaB.
        assert (NA : ~ owned (indices [m; n]) (addr C) (addr A (opi TA i l))).
        { intros Ho. apply Hown in Ho as (q & Hq & Eq). symmetry in Eq. apply DA in Eq; auto. }
        assert (NB : ~ owned (indices [m; n]) (addr C) (addr B (opi TB l j))).
        { intros Ho. apply Hown in Ho as (q & Hq & Eq). symmetry in Eq. apply DB in Eq; auto. }
        rewrite !Hag by auto. repeat split; auto. }
      destruct HS as (HS1 & HS2). unfold fgemm_body.
      replace (dbase C + j + i * ldc) with (addr C [i; j]) by (rewrite (mat_addr C m n ldc) by auto; lia).
      split.
      + apply psafe_bind. split; auto. intros s h2 E2. rewrite HS2 in E2. injection E2 as <- <-.
        destruct (oeqb beta o0); simpl.
        * repeat split; eauto.
        * split; auto. exists (c [i; j]). repeat split; eauto.
      + rewrite run_bind, HS2. unfold updv. destruct (oeqb beta o0); simpl; rewrite Hc; eexists;
          (split; [reflexivity|apply upd_same]).
    - exists h'. split; [exact E|]. split.
      + intros i j Hi Hj. apply (H1 [i; j]). apply in_indices, inb2; lia.
      + intros z Hz. apply H2. intros Ho. apply Hz. apply owned_cells. now rewrite HdC.
  Qed.

  (** hipBLAS's ger on a row-major [n] x [m] matrix. *)
  Lemma hger_ok : forall conj alpha X Y At m n incx incy a x y (h : heap T),
    0 < m -> 0 <= n -> oeqb alpha o0 = false -> mat At n m m -> vect X m incx -> vect Y n incy ->
    holds h At a -> holds h X x -> holds h Y y -> disj At X -> disj At Y ->
    exists h', hger conj m n alpha (dbase X) incx (dbase Y) incy (dbase At) m h = Ok h' /\
      (forall j i, 0 <= j < n -> 0 <= i < m ->
         h' (addr At [j; i]) = Some (oadd (a [j; i]) (omul (x [i]) (omul alpha (conj (y [j])))))) /\
      (forall z, ~ cell At z -> h' z = h z).
  Proof.
    intros conj alpha X Y At m n incx incy a x y h Hm Hn Hal MA VX VY HA HX HY DX DY.
    assert (MA' := MA). destruct MA' as (HdA & HsA & HlA).
    assert (VX' := VX). destruct VX' as (HdX & HsX & HiX).
    assert (VY' := VY). destruct VY' as (HdY & HsY & HiY).
    unfold hger.
    match goal with |- context [if ?g then Throw else _] => replace g with false end.
    2:{ symmetry. rewrite !orb_false_iff.
        repeat split; try (apply Z.ltb_ge; lia); try (apply Z.eqb_neq; lia). }
    rewrite Hal.
    destruct (exec_w (list Z) (indices [n; m]) (addr At)
      (fun ij => match ij with
                 | [j; i] => oadd (a [j; i]) (omul (x [i]) (omul alpha (conj (y [j]))))
                 | _ => o0 end)
      (hger_body conj m n alpha (dbase X) incx (dbase Y) incy (dbase At) m) h) as (h' & E & H1 & H2).
    - rewrite <- HdA. apply NoDup_addrs. eapply mat_inj; eauto.
    - intros ij h1 Hij Hag. apply in_indices, inb2_inv in Hij as (j & i & -> & Hj & Hi).
      assert (Hown : forall z, owned (indices [n; m]) (addr At) z -> cell At z).
      { intros z Hz. apply owned_cells. now rewrite HdA. }
      assert (IX : inb [i] (ddims X)) by (rewrite HdX; apply inb1; auto).
      assert (IY : inb [j] (ddims Y)) by (rewrite HdY; apply inb1; auto).
      assert (IA : inb [j; i] (ddims At)) by (rewrite HdA; apply inb2; auto).
      assert (NX : ~ owned (indices [n; m]) (addr At) (addr X [i])).
      { intros Ho. apply Hown in Ho as (q & Hq & Eq). symmetry in Eq. revert Eq. apply DX; auto. }
      assert (NY : ~ owned (indices [n; m]) (addr At) (addr Y [j])).
      { intros Ho. apply Hown in Ho as (q & Hq & Eq). symmetry in Eq. revert Eq. apply DY; auto. }
      unfold hger_body. rewrite !fvec_pos by auto.
      replace (dbase At + i + j * m) with (addr At [j; i]) by (rewrite (mat_addr At n m m) by auto; lia).
      rewrite <- (vect_addr X m incx) by auto. rewrite <- (vect_addr Y n incy) by auto.
      apply wtask_rd with (u := x [i]); [auto|rewrite Hag; auto|].
      apply wtask_rd with (u := y [j]); [auto|rewrite Hag; auto|].
      apply wtask_rd with (u := a [j; i]); [auto|rewrite Hag; auto|].
      apply wtask_wr with (w := a [j; i]); auto. rewrite Hag; auto.
    - exists h'. split; [exact E|]. split.
      + intros i j Hi Hj. apply (H1 [i; j]). apply in_indices, inb2; lia.
      + intros z Hz. apply H2. intros Ho. apply Hz. apply owned_cells. now rewrite HdA.
  Qed.
End GpuLinL.

Lemma fwrite_frame : forall (O : Ops) m n a ld f (h h' : heap (car O)), fwrite m n a ld f h = Ok h' ->
  forall z, ~ fcell a m n ld z -> h' z = h z.
Proof.
  intros O m n a ld f h h' E z Hz. unfold fwrite in E.
  assert (G : forall l, (forall ij, In ij l -> addr (farr a m n ld) ij <> z) -> forall h h' : heap (car O),
    forM l (fun ij h => wr h (addr (farr a m n ld) ij) (f (nth 0 ij 0) (nth 1 ij 0))) h = Ok h' -> h' z = h z).
  { clear. induction l as [|ij l IH]; intros Hl h h' E; cbn in E; [congruence|].
    unfold wr in E. destruct (h (addr (farr a m n ld) ij)); cbn in E; [|discriminate].
    apply IH in E; [|intros; apply Hl; right; auto]. rewrite E. apply upd_other. intros Ez. apply (Hl ij); simpl; auto. }
  apply (G _) in E; auto. intros ij Hin <-. apply in_idx2 in Hin as (i & j & -> & Hi & Hj). apply Hz. exists i, j.
  rewrite farr_addr. auto.
Qed.
