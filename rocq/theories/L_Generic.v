(** * L_Generic: lemmas for C69. *)
From Coq Require Import List ZArith Lia Bool Permutation.
From Verif Require Import Base Heap Conc M_Addr S_Addr L_Addr M_Elt L_Elt M_Einsum S_Einsum L_Einsum S_Blas L_Blas
  M_Fun S_Fun M_Red L_Red M_Generic S_Generic.
Import ListNotations.
Open Scope Z_scope.

(** The loop's decoding of a sentinel, without the narrowing. *)
Definition dec (dims : list Z) (s : Z) : list Z := sentinel_to_indices s (row_major_strides dims).

Lemma gindex_ok : forall dims n, 0 <= n < zprod dims -> Forall (fun d => 0 <= d <= 2 ^ 31) dims ->
  gindex n (row_major_strides dims) = Ok (dec dims n).
Proof.
  unfold dec. induction dims as [|d ds IH]; intros n Hn HF; [reflexivity|].
  inversion HF as [|? ? Hd HF']; subst. rewrite rms_cons. cbn [gindex sentinel_to_indices zprod] in *.
  assert (HF0 : Forall (fun d => 0 <= d) ds) by (eapply Forall_impl; [|exact HF']; simpl; lia).
  assert (0 <= zprod ds) by (now apply zprod_nonneg).
  destruct (Z.eqb_spec (zprod ds) 0) as [E|E]; [rewrite E in Hn; lia|].
  rewrite IH by (auto; apply Z.mod_pos_bound; lia). simpl. rewrite to_int32_id; auto.
  assert (0 <= n / zprod ds) by (apply Z.div_pos; lia).
  assert (n / zprod ds < d) by (apply Z.div_lt_upper_bound; lia). lia.
Qed.

Lemma dec_perm : forall dims, Forall (fun d => 0 <= d) dims ->
  Permutation (map (dec dims) (zrange (zprod dims))) (indices dims).
Proof.
  intros dims HN. apply NoDup_Permutation.
  - assert (G : forall l, NoDup l -> (forall x, In x l -> 0 <= x < zprod dims) -> NoDup (map (dec dims) l)).
    { induction l as [|x l IH]; intros Hd Hb; simpl; [constructor|]. inversion Hd as [|y m Hx Hd']; subst y m.
      constructor; [|apply IH; auto; intros; apply Hb; now right].
      intros Hin. apply in_map_iff in Hin as (y & E & Hy). apply Hx.
      assert (B1 := Hb x (or_introl eq_refl)). assert (B2 := Hb y (or_intror Hy)).
      replace x with y; auto.
      rewrite <- (rm_sti_ordinal dims x B1 HN). unfold dec in E. rewrite <- E. symmetry. now apply rm_sti_ordinal. }
    apply G; [apply zrange_NoDup|]. intros x Hx. now apply zrange_in in Hx.
  - apply indices_NoDup.
  - intros c. rewrite in_map_iff, in_indices. split.
    + intros (n & <- & Hn). apply zrange_in in Hn. now apply rm_sti_inb.
    + intros Hc. exists (dotp c (row_major_strides dims)). split; [now apply rm_roundtrip|]. apply zrange_in. now apply rm_range.
Qed.

Lemma mapR_map : forall A B (f : A -> res B) g l, (forall x, In x l -> f x = Ok (g x)) -> mapR f l = Ok (map g l).
Proof.
  intros A B f g. induction l as [|x l IH]; intros H; simpl; auto. rewrite H by now left. simpl.
  rewrite IH by (intros; apply H; now right). reflexivity.
Qed.

Lemma pseq_map : forall T X Y (g : X -> Y) (f : Y -> prog T unit) l, pseq (map g l) f = pseq l (fun x => f (g x)).
Proof. intros T X Y g f. induction l as [|x l IH]; simpl; auto. now rewrite IH. Qed.

Lemma same_dims_true : forall a, same_dims a a = true.
Proof. intros a. unfold same_dims. destruct (list_eq_dec Z.eq_dec a a); congruence. Qed.
Lemma same_dims_false : forall a b, a <> b -> same_dims a b = false.
Proof. intros a b H. unfold same_dims. destruct (list_eq_dec Z.eq_dec a b); congruence. Qed.

Section Gen.
  Context {O : Ops} (HR : is_ring O).
  Notation T := (car O).
  Add Ring R : (ir_rt O HR).

  Lemma gen_pool_ok : forall X (body : X -> res (prog T unit)) bf parts,
    (forall x, In x (concat parts) -> body x = Ok (bf x)) ->
    gen_pool body parts = Ok (map (fun r => pseq r bf) parts).
  Proof.
    intros X body bf parts H. unfold gen_pool. apply mapR_map. intros r Hr.
    rewrite (mapR_map _ _ body bf) by (intros x Hx; apply H; apply in_concat; eauto). simpl. now rewrite pseq_map.
  Qed.

  (** What reading an operand compiles to. *)
  Definition rdp (x : @operand O) (f : list Z -> T) (idx : list Z) : prog T T :=
    match x with ODense d => pread (subscript d idx) | OFun _ => PRet (f idx) end.

  Lemma oread_ok : forall (h : heap T) (x : @operand O) dims (f : list Z -> T) idx, shows h x dims f -> inb idx dims -> oread x idx = Ok (rdp x f idx).
  Proof.
    intros h [d|t] dims f idx (H1 & H2) Hi; simpl; auto. rewrite H2 by auto. reflexivity.
  Qed.

  Lemma rdp_ok : forall (h h' : heap T) x dims f idx (own sh : Z -> Prop) C, shows h x dims f -> apart x C -> inb idx dims ->
    (forall a, ~ cell C a -> sh a) -> (forall a, ~ cell C a -> h' a = h a) ->
    psafe own sh (rdp x f idx) h' /\ run (rdp x f idx) h' = Ok (f idx, h').
  Proof.
    intros h h' [d|t] dims f idx own sh C (H1 & H2) Ha Hi Hs Hh; simpl in *; [|split; auto].
    subst dims. rewrite subscript_inb by auto.
    assert (Nc : ~ cell C (addr d idx)).
    { intros (j & Hj & E). apply (Ha j idx); auto. }
    assert (V : h' (addr d idx) = Some (f idx)) by (rewrite Hh by auto; apply H2; auto).
    rewrite V. split; auto. split; [right; auto|]. exists (f idx). split; auto.
  Qed.

  Lemma oval_ok : forall (h : heap T) (x : @operand O) dims (f : list Z -> T) idx, shows h x dims f -> inb idx dims -> oval x idx h = Ok (f idx).
  Proof.
    intros h x dims f idx Hs Hi. unfold oval. rewrite (oread_ok h x dims f idx) by auto. cbn [bind].
    destruct x as [d|t]; simpl in *; auto. destruct Hs as (<- & H2). rewrite subscript_inb by auto.
    rewrite H2 by auto. reflexivity.
  Qed.

  (** The inner loop adds up the products and leaves memory alone. *)
  Lemma inner_ok : forall own sh (h' : heap T) X (p q : X -> prog T T) (a b : X -> T) l,
    (forall x, In x l -> psafe own sh (p x) h' /\ run (p x) h' = Ok (a x, h') /\ psafe own sh (q x) h' /\ run (q x) h' = Ok (b x, h')) ->
    psafe own sh (inner_sum (map (fun x => (p x, q x)) l)) h' /\
    run (inner_sum (map (fun x => (p x, q x)) l)) h' = Ok (lsum l (fun x => omul (a x) (b x)), h').
  Proof.
    intros own sh h' X p q a b l H. unfold inner_sum.
    assert (G : forall s, let P := pfold (map (fun x => (p x, q x)) l)
        (fun s ab => pbind (fst ab) (fun x => pbind (snd ab) (fun y => PRet (oadd s (omul x y))))) s in
        psafe own sh P h' /\ run P h' = Ok (oadd s (lsum l (fun x => omul (a x) (b x))), h')).
    { induction l as [|x l IH]; intros s; cbn [map pfold].
      - simpl. split; auto. f_equal. f_equal. change (lsum [] (fun x => omul (a x) (b x))) with (@o0 O). ring.
      - destruct (H x (or_introl eq_refl)) as (P1 & P2 & Q1 & Q2).
        destruct (IH (fun y Hy => H y (or_intror Hy)) (oadd s (omul (a x) (b x)))) as (S3 & R3). cbn [fst snd].
        split.
        + apply psafe_bind. split.
          * apply psafe_bind. split; auto. intros u g E. rewrite P2 in E. injection E as <- <-.
            apply psafe_bind. split; auto. intros v g E. simpl. auto.
          * intros u g E. rewrite run_bind, P2, run_bind, Q2 in E. simpl in E. injection E as <- <-. exact S3.
        + rewrite run_bind, run_bind, P2, run_bind, Q2. cbn [run]. rewrite R3. f_equal. f_equal.
          change (lsum (x :: l) (fun x => omul (a x) (b x))) with (oadd (omul (a x) (b x)) (lsum l (fun x => omul (a x) (b x)))). ring. }
    destruct (G o0) as (S & R). split; auto. rewrite R. f_equal. f_equal. ring.
  Qed.

  Lemma store_ok : forall alpha beta ad (sh : Z -> Prop) (h' : heap T) c s, h' ad = Some c ->
    psafe (eq ad) sh (store alpha beta ad s) h' /\
    exists h'', run (store alpha beta ad s) h' = Ok (Datatypes.tt, h'') /\
      h'' ad = Some (oadd (omul alpha s) (omul beta c)).
  Proof.
    intros alpha beta ad sh h' c s Hc. unfold store. destruct (oeqb beta o0) eqn:E.
    - apply (ir_eqb O HR) in E. subst beta. simpl. rewrite Hc. split; [eauto 6|]. eexists. split; [reflexivity|].
      rewrite upd_same. f_equal. ring.
    - simpl. rewrite Hc. split.
      + split; auto. exists c. split; auto. split; auto. split; [eauto|exact I].
      + eexists. split; [reflexivity|]. rewrite upd_same. f_equal. ring.
  Qed.

  (** A parallel loop whose iteration [x] writes the element [pos x] of [C]. *)
  Lemma gen_par : forall X (l : list X) parts (pos : X -> list Z) (bf : X -> prog T unit) (v : X -> T) C (h : heap T),
    inj C -> Permutation (concat parts) l -> Permutation (map pos l) (indices (ddims C)) ->
    (forall x h', In x l -> (forall a, ~ cell C a -> h' a = h a) -> h' (addr C (pos x)) = h (addr C (pos x)) ->
       psafe (eq (addr C (pos x))) (fun a => ~ cell C a) (bf x) h' /\
       exists h'', run (bf x) h' = Ok (Datatypes.tt, h'') /\ h'' (addr C (pos x)) = Some (v x)) ->
    par_spec (map (fun r => pseq r bf) parts) h (fun h' =>
      (forall x, In x l -> h' (addr C (pos x)) = Some (v x)) /\ (forall a, ~ cell C a -> h' a = h a)).
  Proof.
    intros X l parts pos bf v C h HI HP HM HB.
    assert (Own : forall a, owned l (fun x => addr C (pos x)) a <-> cell C a).
    { intros a. unfold owned. rewrite <- in_addrs. rewrite <- (map_map pos (addr C)).
      split; intros H; [apply (Permutation_in _ (Permutation_map (addr C) HM))|apply (Permutation_in _ (Permutation_sym (Permutation_map (addr C) HM)))]; auto. }
    refine (par_spec_weaken _ _ _ _ _ _ (par_cells _ _ l parts (fun x => addr C (pos x)) (fun x => Some (v x)) bf h HP _ _)).
    - intros h' (H1 & H2). split; auto. intros a Ha. apply H2. now rewrite Own.
    - rewrite <- (map_map pos (addr C)). eapply Permutation_NoDup; [apply Permutation_sym, Permutation_map, HM|]. now apply addr_NoDup.
    - intros x h' Hx Hsame. destruct (HB x h' Hx) as (S & R).
      + intros a Ha. apply Hsame. right. now rewrite Own.
      + apply Hsame. now left.
      + split; auto. eapply psafe_mono; [| |exact S]; auto. intros a Ha. left. now rewrite Own.
  Qed.
End Gen.

Lemma positions_in : forall m n i j, In (i, j) (positions m n) <-> 0 <= i < m /\ 0 <= j < n.
Proof. intros. unfold positions. rewrite in_prod_iff, !zrange_in. tauto. Qed.

Lemma positions_perm : forall m n, Permutation (map (fun ij : Z * Z => [fst ij; snd ij]) (positions m n)) (indices [m; n]).
Proof.
  intros m n. apply NoDup_Permutation.
  - assert (ND : NoDup (positions m n)).
    { unfold positions. assert (N1 := zrange_NoDup m). assert (N2 := zrange_NoDup n).
      induction N1 as [|x l Hx N1 IH]; simpl; [constructor|]. apply NoDup_app_disj; auto.
      - clear - N2. induction N2; simpl; constructor; auto. intros Hin. apply in_map_iff in Hin as (y & E & Hy). congruence.
      - intros (a, b) H1 H2. apply in_map_iff in H1 as (y & E & Hy). apply in_prod_iff in H2. inversion E; subst. tauto. }
    induction ND as [|(a, b) l Hx ND IH]; simpl; constructor; auto.
    intros Hin. apply in_map_iff in Hin as ((c, d) & E & Hy). simpl in E. inversion E; subst. auto.
  - apply indices_NoDup.
  - intros c. rewrite in_map_iff, in_indices. split.
    + intros ((i, j) & <- & H). apply positions_in in H as (H1 & H2). simpl. repeat constructor; lia.
    + intros H. inversion H as [|i x is xs H1 H2]; subst. inversion H2 as [|j y js ys H3 H4]; subst. inversion H4; subst.
      exists (i, j). split; auto. now apply positions_in.
Qed.
