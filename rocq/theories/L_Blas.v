(** * L_Blas: correctness of the BLAS wrappers. *)
From Coq Require Import List ZArith Lia Bool Permutation Ring.
From Verif Require Import Base Heap Conc M_Addr L_Addr M_Elt L_Elt M_Einsum S_Einsum L_Einsum S_Blas M_Blas.
Import ListNotations.
Open Scope Z_scope.

Lemma inb2 : forall i j r c, inb [i; j] [r; c] <-> 0 <= i < r /\ 0 <= j < c.
Proof.
  intros. rewrite !inb_cons. split; [tauto|]. intros (H1 & H2). repeat split; try lia. constructor.
Qed.
Lemma inb1 : forall i r, inb [i] [r] <-> 0 <= i < r.
Proof. intros. rewrite !inb_cons. split; [tauto|]. intros. split; auto. constructor. Qed.

Lemma inb2_inv : forall idx r c, inb idx [r; c] -> exists i j, idx = [i; j] /\ 0 <= i < r /\ 0 <= j < c.
Proof.
  intros idx r c H. assert (HL := inb_length _ _ H).
  destruct idx as [|i [|j [|]]]; try discriminate. exists i, j. apply inb2 in H. tauto.
Qed.
Lemma inb1_inv : forall idx r, inb idx [r] -> exists i, idx = [i] /\ 0 <= i < r.
Proof.
  intros idx r H. assert (HL := inb_length _ _ H).
  destruct idx as [|i [|]]; try discriminate. exists i. apply inb1 in H. tauto.
Qed.

Lemma mat_addr : forall d r c ld i j, mat d r c ld -> addr d [i; j] = dbase d + i * ld + j.
Proof. intros d r c ld i j (_ & Hs & _). unfold addr. rewrite Hs. simpl. lia. Qed.
Lemma vect_addr : forall d n inc i, vect d n inc -> addr d [i] = dbase d + i * inc.
Proof. intros d n inc i (_ & Hs & _). unfold addr. rewrite Hs. simpl. lia. Qed.

Lemma mat_inj : forall d r c ld, mat d r c ld -> inj d.
Proof.
  intros d r c ld H i j Hi Hj E. assert (H' := H). destruct H' as (Hd & Hs & Hl). rewrite Hd in *.
  apply inb2_inv in Hi as (i0 & i1 & -> & H0 & H1). apply inb2_inv in Hj as (j0 & j1 & -> & H2 & H3).
  rewrite !(mat_addr d r c ld) in E by auto.
  assert (i0 = j0) by nia. subst. f_equal. f_equal. lia.
Qed.
Lemma vect_inj : forall d n inc, vect d n inc -> inj d.
Proof.
  intros d n inc H i j Hi Hj E. assert (H' := H). destruct H' as (Hd & Hs & Hl). rewrite Hd in *.
  apply inb1_inv in Hi as (i0 & -> & H0). apply inb1_inv in Hj as (j0 & -> & H2).
  rewrite !(vect_addr d n inc) in E by auto. f_equal. nia.
Qed.

Lemma NoDup_addrs : forall d, inj d -> NoDup (map (addr d) (indices (ddims d))).
Proof. intros. apply addr_NoDup. auto. Qed.

Lemma exec_tasks : forall X (O : Ops) (l : list X) (ad : X -> Z) (val : X -> option (car O))
    (body : X -> prog (car O) unit) (h : heap (car O)),
  NoDup (map ad l) -> task_ok l ad val body h ->
  exists h', exec (pseq l body) h = Ok h' /\ (forall x, In x l -> h' (ad x) = val x) /\
    (forall a, ~ owned l ad a -> h' a = h a).
Proof.
  intros X O l ad val body h HN HT.
  destruct (run_tasks_seq X _ l ad val body h HN HT l h HN (fun x Hx => Hx) (fun a _ => eq_refl))
    as (_ & h' & E & H1 & H2).
  exists h'. unfold exec. rewrite E. simpl. auto.
Qed.

Section Sums.
  Context {O : Ops}.
  Notation T := (car O).

  Definition sumv (k : Z) (u v : Z -> T) : T := fold_left (fun s l => oadd s (omul (u l) (v l))) (zrange k) o0.

  Lemma psum_ok : forall own sh k x y u v (h : heap T),
    (forall l, 0 <= l < k -> (own (x l) \/ sh (x l)) /\ (own (y l) \/ sh (y l)) /\
       h (x l) = Some (u l) /\ h (y l) = Some (v l)) ->
    psafe own sh (psum k x y) h /\ run (psum k x y) h = Ok (sumv k u v, h).
  Proof.
    intros own sh k x y u v h H. unfold psum, sumv.
    apply (pfold_pure T Z T own sh) with (g := fun s l => oadd s (omul (u l) (v l))).
    intros s l Hl. apply zrange_in in Hl. destruct (H l Hl) as (H1 & H2 & H3 & H4). simpl.
    rewrite H3, H4. split; auto. split; auto. eexists. split; [reflexivity|]. split; auto. eauto.
  Qed.

  Lemma sumv_zsum : is_ring O -> forall k u v, sumv k u v = zsum k (fun l => omul (u l) (v l)).
  Proof.
    intros HR k u v. unfold sumv. rewrite (fold_left_lsum O HR). unfold zsum.
    apply (Radd_0_l (ir_rt O HR)).
  Qed.

  (** Value of an element updated as alpha*s + beta*v. *)
  Definition updv (alpha beta s v : T) : T :=
    if oeqb beta o0 then omul alpha s else oadd (omul alpha s) (omul beta v).
  Definition opsum (alpha s : T) : T := if oeqb alpha o0 then o0 else s.

  (** ** gemm *)
  Definition opi (t : bool) (i l : Z) : list Z := if t then [l; i] else [i; l].

  Lemma la_gemm_nolaw : forall (TA TB : bool) alpha beta A B C m n k lda ldb ldc a b c (h : heap T),
    0 <= m -> 0 <= n -> 0 < k ->
    (if TA then mat A k m lda else mat A m k lda) ->
    (if TB then mat B n k ldb else mat B k n ldb) ->
    mat C m n ldc -> holds h A a -> holds h B b -> holds h C c -> disj C A -> disj C B ->
    exists h', la_gemm TA TB alpha A B beta C h = Ok h' /\
      (forall i j, 0 <= i < m -> 0 <= j < n ->
         h' (addr C [i; j]) = Some (updv alpha beta
            (opsum alpha (sumv k (fun l => b (opi TB l j)) (fun l => a (opi TA i l)))) (c [i; j]))) /\
      (forall z, ~ cell C z -> h' z = h z).
  Proof.
    intros TA TB alpha beta A B C m n k lda ldb ldc a b c h Hm Hn Hk MA MB MC HA HB HC DA DB.
    assert (MC' := MC). destruct MC' as (HdC & HsC & HlC).
    assert (EA : tstride A 0 = lda /\ (if TA then tdim A 0 else tdim A 1) = k /\ (if TA then m else k) <= lda).
    { destruct TA; destruct MA as (E1 & E2 & E3); unfold tstride, tdim; rewrite E1, E2; simpl; auto. }
    assert (EB : tstride B 0 = ldb /\ (if TB then k else n) <= ldb).
    { destruct TB; destruct MB as (E1 & E2 & E3); unfold tstride; rewrite E2; simpl; auto. }
    destruct EA as (EA1 & EA2 & EA3). destruct EB as (EB1 & EB2).
    assert (EC : tdim C 0 = m /\ tdim C 1 = n /\ tstride C 0 = ldc).
    { unfold tdim, tstride. rewrite HdC, HsC. auto. }
    destruct EC as (EC1 & EC2 & EC3).
    unfold la_gemm, vgemm. rewrite EA1, EA2, EB1, EC1, EC2, EC3.
    destruct ((m =? 0) || (n =? 0) || (k =? 0)) eqn:E0.
    { exists h. split; auto. split; auto. intros i j Hi Hj. exfalso. lia. }
    apply orb_false_iff in E0 as (E0 & E0k). apply orb_false_iff in E0 as (E0m & E0n).
    unfold fgemm.
    match goal with |- context [if ?g then _ else _] => replace g with false end.
    2:{ symmetry. rewrite !orb_false_iff.
        repeat split; try (apply Z.ltb_ge; lia); destruct TA, TB; apply Z.ltb_ge; lia. }
    assert (HinA : forall i l, 0 <= i < m -> 0 <= l < k -> inb (opi TA i l) (ddims A)).
    { intros i l Hi Hl. destruct TA; destruct MA as (E1 & _); rewrite E1; apply inb2; lia. }
    assert (HinB : forall l j, 0 <= l < k -> 0 <= j < n -> inb (opi TB l j) (ddims B)).
    { intros i l Hi Hl. destruct TB; destruct MB as (E1 & _); rewrite E1; apply inb2; lia. }
    assert (HaA : forall i l, fop TA (dbase A) lda l i = addr A (opi TA i l)).
    { intros i l. unfold fop, opi. destruct TA; rewrite (mat_addr _ _ _ _ _ _ MA); lia. }
    assert (HaB : forall l j, fop TB (dbase B) ldb j l = addr B (opi TB l j)).
    { intros l j. unfold fop, opi. destruct TB; rewrite (mat_addr _ _ _ _ _ _ MB); lia. }
    destruct (exec_tasks (list Z) O (indices [m; n]) (addr C)
      (fun ij => match ij with
                 | [i; j] => Some (updv alpha beta
                     (opsum alpha (sumv k (fun l => b (opi TB l j)) (fun l => a (opi TA i l)))) (c [i; j]))
                 | _ => None end)
      (fgemm_body TB TA k alpha (dbase B) ldb (dbase A) lda beta (dbase C) ldc) h) as (h' & E & H1 & H2).
    - rewrite <- HdC. apply NoDup_addrs. eapply mat_inj; eauto.
    - intros ij h1 Hij Hag. apply in_indices, inb2_inv in Hij as (i & j & -> & Hi & Hj).
      assert (Hown : forall z, owned (indices [m; n]) (addr C) z -> cell C z).
      { intros z Hz. apply owned_cells. now rewrite HdC. }
      assert (Hc : h1 (addr C [i; j]) = Some (c [i; j])).
      { rewrite Hag by auto. apply HC. rewrite HdC. apply inb2; lia. }
      assert (HS : psafe (eq (addr C [i; j])) (fun z => ~ owned (indices [m; n]) (addr C) z)
          (if oeqb alpha o0 then PRet o0
           else psum k (fop TB (dbase B) ldb j) (fun l => fop TA (dbase A) lda l i)) h1 /\
        run (if oeqb alpha o0 then PRet o0
           else psum k (fop TB (dbase B) ldb j) (fun l => fop TA (dbase A) lda l i)) h1
        = Ok (opsum alpha (sumv k (fun l => b (opi TB l j)) (fun l => a (opi TA i l))), h1)).
      { unfold opsum. destruct (oeqb alpha o0); [simpl; auto|].
        apply psum_ok. intros l Hl. rewrite HaA, HaB.
        assert (NA : ~ owned (indices [m; n]) (addr C) (addr A (opi TA i l))).
        { intros Ho. apply Hown in Ho as (q & Hq & Eq). symmetry in Eq. apply DA in Eq; auto. }
        assert (NB : ~ owned (indices [m; n]) (addr C) (addr B (opi TB l j))).
        { intros Ho. apply Hown in Ho as (q & Hq & Eq). symmetry in Eq. apply DB in Eq; auto. }
        rewrite !Hag by auto. repeat split; auto. }
      destruct HS as (HS1 & HS2). unfold fgemm_body.
      replace (dbase C + j + i * ldc) with (addr C [i; j]) by (rewrite (mat_addr C m n ldc) by auto; lia).
      split.
      + apply psafe_bind. split; auto. intros s h2 E2. rewrite HS2 in E2. injection E2 as <- <-.
        destruct (oeqb beta o0); simpl.
        * repeat split; eauto.
        * split; auto. exists (c [i; j]). repeat split; eauto.
      + rewrite run_bind, HS2. unfold updv. destruct (oeqb beta o0); simpl; rewrite Hc; eexists;
          (split; [reflexivity|apply upd_same]).
    - exists h'. split; [exact E|]. split.
      + intros i j Hi Hj. apply (H1 [i; j]). apply in_indices, inb2; lia.
      + intros z Hz. apply H2. intros Ho. apply Hz. apply owned_cells. now rewrite HdC.
  Qed.

  (** ** Single-write tasks *)
  Definition reads {A} (own sh : Z -> Prop) (p : prog T A) (h : heap T) (v : A) : Prop :=
    psafe own sh p h /\ run p h = Ok (v, h).
  Definition wtask (own sh : Z -> Prop) (p : prog T unit) (h : heap T) (a : Z) (v : T) : Prop :=
    psafe own sh p h /\ run p h = Ok (tt, upd h a v).

  Lemma reads_ret : forall A own sh (v : A) h, reads own sh (PRet v) h v.
  Proof. intros. split; simpl; auto. Qed.
  Lemma reads_rd : forall A own sh a u (k : T -> prog T A) h v,
    own a \/ sh a -> h a = Some u -> reads own sh (k u) h v -> reads own sh (PRd a k) h v.
  Proof.
    intros A own sh a u k h v Ha Hu (H1 & H2). split; simpl; [|now rewrite Hu].
    split; auto. exists u. auto.
  Qed.
  Lemma reads_psum : forall own sh k x y u v (h : heap T),
    (forall l, 0 <= l < k -> (own (x l) \/ sh (x l)) /\ (own (y l) \/ sh (y l)) /\
       h (x l) = Some (u l) /\ h (y l) = Some (v l)) ->
    reads own sh (psum k x y) h (sumv k u v).
  Proof. intros. apply psum_ok. auto. Qed.
  Lemma wtask_wr : forall (own sh : Z -> Prop) a v w (h : heap T),
    own a -> h a = Some w -> wtask own sh (PWr a v (PRet tt)) h a v.
  Proof. intros own sh a v w h Ha Hw. split; simpl; [eauto|now rewrite Hw]. Qed.
  Lemma wtask_rd : forall own sh b u (k : T -> prog T unit) (h : heap T) a v,
    own b \/ sh b -> h b = Some u -> wtask own sh (k u) h a v -> wtask own sh (PRd b k) h a v.
  Proof.
    intros own sh b u k h a v Ha Hu (H1 & H2). split; simpl; [|now rewrite Hu]. split; auto. exists u. auto.
  Qed.
  Lemma wtask_bind : forall A own sh (p : prog T A) (f : A -> prog T unit) (h : heap T) s a v,
    reads own sh p h s -> wtask own sh (f s) h a v -> wtask own sh (pbind p f) h a v.
  Proof.
    intros A own sh p f h s a v (H1 & H2) (H3 & H4). split.
    - apply psafe_bind. split; auto. intros x h' E. rewrite H2 in E. injection E as <- <-. auto.
    - rewrite run_bind, H2. auto.
  Qed.

  Definition agree {X} (l : list X) (ad : X -> Z) (x : X) (h h1 : heap T) : Prop :=
    forall a, a = ad x \/ ~ owned l ad a -> h1 a = h a.

  Lemma wtasks_ok : forall X (l : list X) (ad : X -> Z) (val : X -> T) (body : X -> prog T unit) (h : heap T),
    (forall x h1, In x l -> agree l ad x h h1 ->
       wtask (eq (ad x)) (fun a => ~ owned l ad a) (body x) h1 (ad x) (val x)) ->
    task_ok l ad (fun x => Some (val x)) body h.
  Proof.
    intros X l ad val body h HT x h1 Hx Hag. destruct (HT x h1 Hx Hag) as (H1 & H2). split; auto.
    rewrite H2. eexists. split; [reflexivity|]. apply upd_same.
  Qed.

  Lemma exec_w : forall X (l : list X) (ad : X -> Z) (val : X -> T) (body : X -> prog T unit) (h : heap T),
    NoDup (map ad l) ->
    (forall x h1, In x l -> agree l ad x h h1 ->
       wtask (eq (ad x)) (fun a => ~ owned l ad a) (body x) h1 (ad x) (val x)) ->
    exists h', exec (pseq l body) h = Ok h' /\ (forall x, In x l -> h' (ad x) = Some (val x)) /\
      (forall a, ~ owned l ad a -> h' a = h a).
  Proof.
    intros X l ad val body h HN HT. apply exec_tasks; auto. apply wtasks_ok. auto.
  Qed.

  (** ** gemv *)
  Lemma fvec_pos : forall x len inc i, 0 < inc -> fvec x len inc i = x + i * inc.
  Proof. intros. unfold fvec. destruct (Z.ltb_spec 0 inc); lia. Qed.

  Lemma fvec_NoDup : forall x len inc n, 0 < inc -> NoDup (map (fvec x len inc) (zrange n)).
  Proof.
    intros x len inc n Hi. apply FinFun.Injective_map_NoDup; [|apply zrange_NoDup].
    intros i j E. rewrite !fvec_pos in E by auto. nia.
  Qed.

  Lemma la_gemv_nolaw : forall (TA : bool) alpha beta A X Y r c lda incx incy a x y (h : heap T),
    0 < r -> 0 < c -> mat A r c lda ->
    vect X (if TA then r else c) incx -> vect Y (if TA then c else r) incy ->
    holds h A a -> holds h X x -> holds h Y y -> disj Y A -> disj Y X ->
    exists h', la_gemv TA alpha A X beta Y h = Ok h' /\
      (forall i, 0 <= i < (if TA then c else r) ->
         h' (addr Y [i]) = Some (updv alpha beta
            (opsum alpha (sumv (if TA then r else c) (fun l => a (opi TA i l)) (fun l => x [l]))) (y [i]))) /\
      (forall z, ~ cell Y z -> h' z = h z).
  Proof.
    intros TA alpha beta A X Y r c lda incx incy a x y h Hr Hc MA VX VY HA HX HY DA DX.
    assert (MA' := MA). destruct MA' as (HdA & HsA & HlA).
    assert (VX' := VX). destruct VX' as (HdX & HsX & HiX).
    assert (VY' := VY). destruct VY' as (HdY & HsY & HiY).
    unfold la_gemv, vgemv, tdim, tstride. rewrite HdA, HsA, HsX, HsY. simpl nth.
    destruct (Z.eqb_spec r 0); [lia|]. destruct (Z.eqb_spec c 0); [lia|]. simpl orb. cbv iota.
    unfold fgemv.
    match goal with |- context [if ?g then _ else _] => replace g with false end.
    2:{ symmetry. rewrite !orb_false_iff.
        repeat split; try (apply Z.ltb_ge; lia); try (apply Z.eqb_neq; lia). }
    destruct (Z.eqb_spec r 0); [lia|]. destruct (Z.eqb_spec c 0); [lia|]. simpl orb. cbv iota.
    set (ny := if TA then c else r) in *. set (nx := if TA then r else c) in *.
    replace (if negb TA then r else c) with ny by (unfold ny; destruct TA; auto).
    set (ad := fvec (dbase Y) ny incy).
    assert (Had : forall i, ad i = addr Y [i]).
    { intros i. unfold ad. rewrite fvec_pos by auto. symmetry. eapply vect_addr; eauto. }
    assert (Hown : forall z, owned (zrange ny) ad z <-> cell Y z).
    { intros z. unfold owned. rewrite in_map_iff. split.
      - intros (i & <- & Hi). apply zrange_in in Hi. exists [i]. split; [|auto]. rewrite HdY. apply inb1. auto.
      - intros (idx & Hi & E). rewrite HdY in Hi. apply inb1_inv in Hi as (i & -> & Hi).
        exists i. split; [rewrite Had; auto|apply zrange_in; auto]. }
    destruct (exec_w Z (zrange ny) ad
      (fun i => updv alpha beta (opsum alpha (sumv nx (fun l => a (opi TA i l)) (fun l => x [l]))) (y [i]))
      (fgemv_body (negb TA) c r alpha (dbase A) lda (dbase X) incx beta (dbase Y) incy) h) as (h' & E & H1 & H2).
    - apply fvec_NoDup. auto.
    - intros i h1 Hi Hag. apply zrange_in in Hi. unfold fgemv_body.
      replace (if negb TA then c else r) with nx by (unfold nx; destruct TA; auto).
      replace (if negb TA then r else c) with ny by (unfold ny; destruct TA; auto).
      fold (ad i).
      assert (Hy : h1 (ad i) = Some (y [i])).
      { rewrite Hag by auto. rewrite Had. apply HY. rewrite HdY. apply inb1. auto. }
      apply wtask_bind with (s := opsum alpha (sumv nx (fun l => a (opi TA i l)) (fun l => x [l]))).
      + unfold opsum. destruct (oeqb alpha o0); [apply reads_ret|].
        apply reads_psum. intros l Hl.
        assert (EA : fop (negb TA) (dbase A) lda i l = addr A (opi TA i l)).
        { unfold fop, opi. destruct TA; simpl; rewrite (mat_addr _ _ _ _ _ _ MA); lia. }
        assert (EX : fvec (dbase X) nx incx l = addr X [l]).
        { rewrite fvec_pos by auto. symmetry. eapply vect_addr; eauto. }
        assert (IA : inb (opi TA i l) (ddims A)).
        { rewrite HdA. unfold opi, nx, ny in *. destruct TA; apply inb2; lia. }
        assert (IX : inb [l] (ddims X)). { rewrite HdX. apply inb1. auto. }
        assert (NA : ~ owned (zrange ny) ad (addr A (opi TA i l))).
        { rewrite Hown. intros (q & Hq & Eq). symmetry in Eq. revert Eq. apply DA; auto. }
        assert (NX : ~ owned (zrange ny) ad (addr X [l])).
        { rewrite Hown. intros (q & Hq & Eq). symmetry in Eq. revert Eq. apply DX; auto. }
        rewrite EA, EX, !Hag by auto. repeat split; auto.
      + unfold updv. destruct (oeqb beta o0).
        * eapply wtask_wr; eauto.
        * eapply wtask_rd; eauto. eapply wtask_wr; eauto.
    - exists h'. split; [exact E|]. split.
      + intros i Hi. rewrite <- Had. apply H1. apply zrange_in. auto.
      + intros z Hz. apply H2. rewrite Hown. auto.
  Qed.

  (** ** ger *)
  Lemma la_ger_nolaw : forall alpha X Y A m n lda incx incy a x y (h : heap T),
    0 <= m -> 0 <= n -> 1 <= lda -> oeqb alpha o0 = false -> mat A m n lda -> vect X m incx -> vect Y n incy ->
    holds h A a -> holds h X x -> holds h Y y -> disj A X -> disj A Y ->
    exists h', la_ger alpha X Y A h = Ok h' /\
      (forall i j, 0 <= i < m -> 0 <= j < n ->
         h' (addr A [i; j]) = Some (oadd (a [i; j]) (omul (y [j]) (omul alpha (x [i]))))) /\
      (forall z, ~ cell A z -> h' z = h z).
  Proof.
    intros alpha X Y A m n lda incx incy a x y h Hm Hn Hld Hal MA VX VY HA HX HY DX DY.
    assert (MA' := MA). destruct MA' as (HdA & HsA & HlA).
    assert (VX' := VX). destruct VX' as (HdX & HsX & HiX).
    assert (VY' := VY). destruct VY' as (HdY & HsY & HiY).
    unfold la_ger, vger, tdim, tstride. rewrite HsA, HsX, HsY, HdX, HdY. simpl nth.
    unfold fger.
    match goal with |- context [if ?g then Throw else _] => replace g with false end.
    2:{ symmetry. rewrite !orb_false_iff.
        repeat split; try (apply Z.ltb_ge; lia); try (apply Z.eqb_neq; lia). }
    match goal with |- context [if ?g then Throw else _] => replace g with false end.
    2:{ symmetry. rewrite !orb_false_iff.
        repeat split; try (apply Z.ltb_ge; lia); try (apply Z.eqb_neq; lia). }
    rewrite Hal.
    destruct (exec_w (list Z) (indices [m; n]) (addr A)
      (fun ij => match ij with
                 | [i; j] => oadd (a [i; j]) (omul (y [j]) (omul alpha (x [i])))
                 | _ => o0 end)
      (fger_body n m alpha (dbase Y) incy (dbase X) incx (dbase A) lda) h) as (h' & E & H1 & H2).
    - rewrite <- HdA. apply NoDup_addrs. eapply mat_inj; eauto.
    - intros ij h1 Hij Hag. apply in_indices, inb2_inv in Hij as (i & j & -> & Hi & Hj).
      assert (Hown : forall z, owned (indices [m; n]) (addr A) z -> cell A z).
      { intros z Hz. apply owned_cells. now rewrite HdA. }
      assert (IX : inb [i] (ddims X)) by (rewrite HdX; apply inb1; auto).
      assert (IY : inb [j] (ddims Y)) by (rewrite HdY; apply inb1; auto).
      assert (IA : inb [i; j] (ddims A)) by (rewrite HdA; apply inb2; auto).
      assert (NX : ~ owned (indices [m; n]) (addr A) (addr X [i])).
      { intros Ho. apply Hown in Ho as (q & Hq & Eq). symmetry in Eq. revert Eq. apply DX; auto. }
      assert (NY : ~ owned (indices [m; n]) (addr A) (addr Y [j])).
      { intros Ho. apply Hown in Ho as (q & Hq & Eq). symmetry in Eq. revert Eq. apply DY; auto. }
      unfold fger_body. rewrite !fvec_pos by auto.
      replace (dbase A + j + i * lda) with (addr A [i; j]) by (rewrite (mat_addr A m n lda) by auto; lia).
      rewrite <- (vect_addr X m incx) by auto. rewrite <- (vect_addr Y n incy) by auto.
      apply wtask_rd with (u := y [j]); [auto|rewrite Hag; auto|].
      apply wtask_rd with (u := x [i]); [auto|rewrite Hag; auto|].
      apply wtask_rd with (u := a [i; j]); [auto|rewrite Hag; auto|].
      apply wtask_wr with (w := a [i; j]); auto. rewrite Hag; auto.
    - exists h'. split; [exact E|]. split.
      + intros i j Hi Hj. apply (H1 [i; j]). apply in_indices, inb2; lia.
      + intros z Hz. apply H2. intros Ho. apply Hz. apply owned_cells. now rewrite HdA.
  Qed.

  (** ** scal, axpy *)
  Definition line (x inc n z : Z) : Prop := exists i, 0 <= i < n /\ z = x + i * inc.

  Lemma owned_line : forall x inc n z, owned (zrange n) (fun i => x + i * inc) z <-> line x inc n z.
  Proof.
    intros. unfold owned, line. rewrite in_map_iff. split.
    - intros (i & <- & Hi). apply zrange_in in Hi. eauto.
    - intros (i & Hi & ->). exists i. split; auto. apply zrange_in. auto.
  Qed.
  Lemma line_NoDup : forall x inc n, 0 < inc -> NoDup (map (fun i => x + i * inc) (zrange n)).
  Proof.
    intros x inc n Hi. apply FinFun.Injective_map_NoDup; [|apply zrange_NoDup]. intros i j E. nia.
  Qed.

  Lemma fscal_spec : forall n alpha x inc (h : heap T) u, 0 < inc ->
    (forall i, 0 <= i < n -> h (x + i * inc) = Some (u i)) ->
    exists h', fscal n alpha x inc h = Ok h' /\
      (forall i, 0 <= i < n -> h' (x + i * inc) = Some (omul alpha (u i))) /\
      (forall z, ~ line x inc n z -> h' z = h z).
  Proof.
    intros n alpha x inc h u Hi Hu. unfold fscal.
    destruct ((n <=? 0) || (inc <=? 0)) eqn:E0.
    { exists h. split; auto. split; auto. intros i Hin. lia. }
    destruct (exec_w Z (zrange n) (fun i => x + i * inc) (fun i => omul alpha (u i))
      (fun i => PRd (x + i * inc) (fun v => PWr (x + i * inc) (omul alpha v) (PRet tt))) h) as (h' & E & H1 & H2).
    - apply line_NoDup. auto.
    - intros i h1 Hin Hag. apply zrange_in in Hin.
      apply wtask_rd with (u := u i); [auto|rewrite Hag; auto|].
      apply wtask_wr with (w := u i); auto. rewrite Hag; auto.
    - exists h'. split; [exact E|]. split.
      + intros i Hin. apply (H1 i). apply zrange_in. auto.
      + intros z Hz. apply H2. rewrite owned_line. auto.
  Qed.

  Lemma faxpy_spec : forall n alpha x incx y incy (h : heap T) u v, 0 < incx -> 0 < incy ->
    (forall i, 0 <= i < n -> h (x + i * incx) = Some (u i)) ->
    (forall i, 0 <= i < n -> h (y + i * incy) = Some (v i)) ->
    (forall i j, 0 <= i < n -> 0 <= j < n -> x + i * incx <> y + j * incy) ->
    exists h', faxpy n alpha x incx y incy h = Ok h' /\
      (forall i, 0 <= i < n -> h' (y + i * incy) =
          Some (if oeqb alpha o0 then v i else oadd (v i) (omul alpha (u i)))) /\
      (forall z, ~ line y incy n z -> h' z = h z).
  Proof.
    intros n alpha x incx y incy h u v Hx Hy Hu Hv Hd. unfold faxpy.
    destruct (n <=? 0) eqn:E0; simpl.
    { exists h. split; auto. split; auto. intros i Hin. lia. }
    destruct (oeqb alpha o0). { exists h. auto. }
    destruct (exec_w Z (zrange n) (fun i => y + i * incy) (fun i => oadd (v i) (omul alpha (u i)))
      (fun i => PRd (fvec x n incx i) (fun u => PRd (fvec y n incy i)
                 (fun v => PWr (fvec y n incy i) (oadd v (omul alpha u)) (PRet tt)))) h) as (h' & E & H1 & H2).
    - apply line_NoDup. auto.
    - intros i h1 Hin Hag. apply zrange_in in Hin. rewrite !fvec_pos by auto.
      assert (Hn : ~ owned (zrange n) (fun i => y + i * incy) (x + i * incx)).
      { rewrite owned_line. intros (j & Hj & Ej). revert Ej. apply Hd; auto. }
      apply wtask_rd with (u := u i); [auto|rewrite Hag; auto|].
      apply wtask_rd with (u := v i); [auto|rewrite Hag; auto|].
      apply wtask_wr with (w := v i); auto. rewrite Hag; auto.
    - exists h'. split; [exact E|]. split.
      + intros i Hin. apply (H1 i). apply zrange_in. auto.
      + intros z Hz. apply H2. rewrite owned_line. auto.
  Qed.

  Lemma fvec_nonneg : forall x len inc i, 0 <= inc -> fvec x len inc i = x + i * inc.
  Proof.
    intros. unfold fvec. destruct (Z.ltb_spec 0 inc); [lia|]. replace inc with 0 by lia. lia.
  Qed.

  Lemma fdot_spec : forall n x incx y incy (h : heap T) u v, 0 <= incx -> 0 <= incy ->
    (forall i, 0 <= i < n -> h (x + i * incx) = Some (u i)) ->
    (forall i, 0 <= i < n -> h (y + i * incy) = Some (v i)) ->
    fdot n x incx y incy h = Ok (sumv n u v).
  Proof.
    intros n x incx y incy h u v Hx Hy Hu Hv. unfold fdot.
    destruct (Z.leb_spec n 0).
    - unfold sumv. rewrite zrange_nonpos by lia. auto.
    - destruct (reads_psum (fun _ => True) (fun _ => True) n (fvec x n incx) (fvec y n incy) u v h) as (_ & E).
      + intros l Hl. rewrite !fvec_nonneg by auto. auto.
      + rewrite E. auto.
  Qed.
End Sums.

(** ** Contiguous tensors *)
Definition rowmaj (d : desc) : Prop := dstrides d = row_major_strides (ddims d).

Lemma contiguous_rowmaj : forall d, contiguous d <-> rowmaj d.
Proof.
  intros [b dims ss]. unfold contiguous, rowmaj. simpl. revert ss.
  induction dims as [|x ds IH]; intros [|s ss]; simpl; try (split; auto; discriminate || tauto).
  - rewrite rms_cons. split; [tauto|discriminate].
  - rewrite rms_cons. rewrite IH. split; [intros (-> & ->); auto|intros E; injection E; auto].
Qed.

Lemma fold_mul_zprod : forall l a, fold_left Z.mul l a = a * zprod l.
Proof. induction l as [|x l IH]; intros a; simpl; [lia|]. rewrite IH. lia. Qed.

Lemma dotp_repeat0 : forall n s, dotp (repeat 0 n) s = 0.
Proof. induction n as [|n IH]; intros [|x s]; simpl; auto. rewrite IH. lia. Qed.

Lemma rowmaj_total : forall d, rowmaj d -> ddims d <> [] -> tdim d 0 * tstride d 0 = zprod (ddims d).
Proof.
  intros d H Hne. unfold rowmaj in H. unfold tdim, tstride. rewrite H. destruct (ddims d); [congruence|].
  rewrite rms_cons. simpl. lia.
Qed.

Lemma rowmaj_holds_flat : forall T (h : heap T) d f, rowmaj d -> nonneg (ddims d) -> holds h d f ->
  forall n, 0 <= n < zprod (ddims d) ->
    h (dbase d + n * 1) = Some (f (sentinel_to_indices n (row_major_strides (ddims d)))).
Proof.
  intros T h d f HR HN HH n Hn.
  assert (HI := rm_sti_inb _ _ Hn HN). rewrite <- (HH _ HI). f_equal. unfold addr. rewrite HR.
  rewrite rm_sti_ordinal by auto. lia.
Qed.

Lemma rowmaj_addr_flat : forall d idx, rowmaj d -> inb idx (ddims d) ->
  0 <= dotp idx (row_major_strides (ddims d)) < zprod (ddims d) /\
  addr d idx = dbase d + dotp idx (row_major_strides (ddims d)) * 1.
Proof.
  intros d idx HR HI. split; [apply rm_range; auto|]. unfold addr. rewrite HR. lia.
Qed.

Lemma rowmaj_cell : forall d a, rowmaj d -> nonneg (ddims d) ->
  cell d a <-> line (dbase d) 1 (zprod (ddims d)) a.
Proof.
  intros d a HR HN. split.
  - intros (idx & HI & ->). destruct (rowmaj_addr_flat d idx HR HI) as (H1 & H2). eexists. eauto.
  - intros (n & Hn & ->). exists (sentinel_to_indices n (row_major_strides (ddims d))).
    split; [apply rm_sti_inb; auto|]. unfold addr. rewrite HR, rm_sti_ordinal by auto. lia.
Qed.

Lemma indices_flat_perm : forall dims, nonneg dims ->
  Permutation (indices dims) (map (fun n => sentinel_to_indices n (row_major_strides dims)) (zrange (zprod dims))).
Proof.
  intros dims HN. apply NoDup_Permutation.
  - apply indices_NoDup.
  - apply NoDup_map_inv with (f := fun idx => dotp idx (row_major_strides dims)).
    rewrite map_map. erewrite map_ext_in; [rewrite map_id; apply zrange_NoDup|].
    intros n Hn. apply zrange_in in Hn. apply rm_sti_ordinal; auto.
  - intros idx. rewrite in_indices, in_map_iff. split.
    + intros HI. exists (dotp idx (row_major_strides dims)). split; [apply rm_roundtrip; auto|].
      apply zrange_in. apply rm_range. auto.
    + intros (n & <- & Hn). apply zrange_in in Hn. apply rm_sti_inb; auto.
Qed.

Lemma view_flat : forall d, rowmaj d -> ddims d <> [] -> nonneg (ddims d) ->
  view_ctor d [zprod (ddims d)] None None = Ok (mkDesc (dbase d) [zprod (ddims d)] [1]).
Proof.
  intros d HR Hne HN. assert (HP := zprod_nonneg _ HN). unfold view_ctor.
  assert (E1 : count_m1 [zprod (ddims d)] = 0%nat).
  { apply count_m1_nonneg. constructor; auto. }
  rewrite E1. simpl Nat.ltb. simpl Nat.eqb. cbv iota. simpl andb. cbv iota.
  rewrite dotp_repeat0, Z.add_0_r.
  destruct (ddims d) as [|a [|b l]] eqn:E; [congruence| |]; simpl Nat.eqb; cbv iota.
  - rewrite HR, E. simpl. reflexivity.
  - simpl. rewrite Z.mul_1_r, Z.eqb_refl. reflexivity.
Qed.

Section Flat.
  Context {O : Ops}.
  Notation T := (car O).

  Lemma lsum_flat : is_ring O -> forall dims (f : list Z -> T), nonneg dims ->
    lsum (indices dims) f = zsum (zprod dims) (fun n => f (sentinel_to_indices n (row_major_strides dims))).
  Proof.
    intros HR dims f HN. rewrite (lsum_perm O HR) with (1 := indices_flat_perm dims HN).
    unfold zsum. rewrite lsum_map. reflexivity.
  Qed.

  Lemma la_dot_spec : is_ring O -> forall fA fB A B a b (h : heap T),
    ddims A <> [] -> nonneg (ddims A) -> ddims B = ddims A ->
    (fA = true -> rowmaj A) -> (fB = true -> rowmaj B) ->
    (forall s, In s (dstrides A) -> 0 <= s) -> (forall s, In s (dstrides B) -> 0 <= s) ->
    length (dstrides A) = length (ddims A) -> length (dstrides B) = length (ddims B) ->
    holds h A a -> holds h B b ->
    la_dot fA fB A B h = Ok (lsum (indices (ddims A)) (fun idx => omul (a idx) (b idx))).
  Proof.
    intros HR fA fB A B a b h Hne HN HD FA FB PA PB LA LB HA HB.
    unfold la_dot. destruct (Nat.eqb_spec (length (ddims A)) 1) as [E1|E1].
    - destruct A as [bA dA sA], B as [bB dB sB]; simpl in *. subst dB.
      destruct dA as [|n [|]]; try discriminate. destruct sA as [|s1 [|]]; try discriminate.
      destruct sB as [|s2 [|]]; try discriminate.
      unfold la_dot1, tdim, tstride. simpl nth.
      erewrite fdot_spec with (u := fun i => a [i]) (v := fun i => b [i]).
      + rewrite (sumv_zsum HR). rewrite (lsum_indices_cons O HR). unfold zsum. f_equal.
        apply lsum_ext. intros i _. simpl. symmetry.
        rewrite (Radd_comm (ir_rt O HR)). apply (Radd_0_l (ir_rt O HR)).
      + apply PA. simpl. auto.
      + apply PB. simpl. auto.
      + intros i Hi. rewrite <- (HA [i]); [|apply inb1; auto]. unfold addr. simpl. f_equal. lia.
      + intros i Hi. rewrite <- (HB [i]); [|apply inb1; auto]. unfold addr. simpl. f_equal. lia.
    - unfold la_dotn. destruct (fA && fB) eqn:EF.
      + apply andb_true_iff in EF as (-> & ->). specialize (FA eq_refl). specialize (FB eq_refl).
        rewrite fold_mul_zprod, Z.mul_1_l. rewrite view_flat by auto. simpl bind.
        assert (EB : view_ctor B [zprod (ddims A)] None None = Ok (mkDesc (dbase B) [zprod (ddims A)] [1])).
        { rewrite <- HD. apply view_flat; auto; congruence. }
        rewrite EB. simpl bind. unfold la_dot1, tdim, tstride. simpl.
        rewrite fdot_spec with (u := fun n => a (sentinel_to_indices n (row_major_strides (ddims A))))
          (v := fun n => b (sentinel_to_indices n (row_major_strides (ddims A)))); try lia.
        * rewrite (sumv_zsum HR), (lsum_flat HR) by auto. reflexivity.
        * intros i Hi. apply rowmaj_holds_flat; auto.
        * intros i Hi. rewrite <- HD. apply rowmaj_holds_flat; auto; rewrite HD; auto.
      + assert (ET : match row_major_strides (ddims A) with [] => 0 | s :: _ =>
                       match ddims A with [] => 0 | d :: _ => s * d end end = zprod (ddims A)).
        { destruct (ddims A); [congruence|]. rewrite rms_cons. simpl. lia. }
        rewrite ET.
        set (sti := fun n => sentinel_to_indices n (row_major_strides (ddims A))).
        destruct (pfold_pure T Z T (fun _ => True) (fun _ => True) (zrange (zprod (ddims A)))
          (fun s sen => PRd (subscript A (sti sen)) (fun u => PRd (subscript B (sti sen)) (fun v =>
                       PRet (oadd s (omul u v)))))
          (fun s n => oadd s (omul (a (sti n)) (b (sti n)))) h) with (s := @o0 O) as (_ & E).
        { intros s n Hn. apply zrange_in in Hn.
          assert (HI : inb (sti n) (ddims A)) by (apply rm_sti_inb; auto).
          rewrite !subscript_inb by congruence. simpl.
          rewrite (HA _ HI), (HB (sti n)) by congruence. split; auto. split; auto. eexists; split; eauto. }
        unfold sti in E. rewrite E. simpl bind. f_equal.
        rewrite (fold_left_lsum O HR), (lsum_flat HR) by auto. apply (Radd_0_l (ir_rt O HR)).
  Qed.

  (** A reduction gives the sum over all iterations, whatever the schedule. *)
  Lemma omp_sum_spec : is_ring O -> forall X (f : X -> prog T T) (g : X -> T) (h : heap T) threads l,
    Permutation (concat threads) l ->
    (forall x, In x l -> run (f x) h = Ok (g x, h)) ->
    run (omp_sum f threads) h = Ok (lsum l g, h).
  Proof.
    intros HR X f g h threads l HP Hf. unfold omp_sum.
    assert (G1 : forall share s, (forall x, In x share -> In x l) ->
      run (pfold share (fun s i => pbind (f i) (fun v => PRet (oadd s v))) s) h
      = Ok (oadd s (lsum share g), h)).
    { induction share as [|x r IH]; intros s Hin; simpl.
      - f_equal. f_equal. rewrite (Radd_comm (ir_rt O HR)). symmetry. apply (Radd_0_l (ir_rt O HR)).
      - rewrite !run_bind. rewrite Hf by (apply Hin; simpl; auto). simpl.
        rewrite IH by (intros; apply Hin; simpl; auto). f_equal. f_equal.
        symmetry. apply (Radd_assoc (ir_rt O HR)). }
    assert (G2 : forall ts tot, (forall x, In x (concat ts) -> In x l) ->
      run (pfold ts (fun tot share =>
        pbind (pfold share (fun s i => pbind (f i) (fun v => PRet (oadd s v))) o0)
            (fun s => PRet (oadd tot s))) tot) h = Ok (oadd tot (lsum (concat ts) g), h)).
    { induction ts as [|t r IH]; intros tot Hin; simpl.
      - f_equal. f_equal. rewrite (Radd_comm (ir_rt O HR)). symmetry. apply (Radd_0_l (ir_rt O HR)).
      - simpl in Hin. rewrite !run_bind. rewrite G1 by (intros; apply Hin; apply in_or_app; auto). simpl.
        rewrite IH by (intros; apply Hin; apply in_or_app; auto). f_equal. f_equal.
        rewrite (lsum_app O HR). rewrite (Radd_0_l (ir_rt O HR)).
        symmetry. apply (Radd_assoc (ir_rt O HR)). }
    rewrite G2.
    - rewrite (Radd_0_l (ir_rt O HR)). rewrite (lsum_perm O HR) with (1 := HP). reflexivity.
    - intros x Hx. eapply Permutation_in; eauto.
  Qed.
End Flat.
