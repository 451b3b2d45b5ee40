(** * T_Definite: random definite and semidefinite matrices (C94). *)
From Coq Require Import List ZArith Lia Bool Ring.
From Verif Require Import Base Heap Conc M_Addr S_Addr L_Addr M_Elt L_Elt M_Einsum S_Einsum M_Blas S_Blas L_Blas M_Lapack S_Lapack L_Lapack
  T_Blas T_Lapack T_Lapack2 M_Trunc L_Trunc M_Create T_Elem T_Create.
Import ListNotations.
Open Scope Z_scope.

(** ** Specification *)

(** [pos] is the set of positive elements of an ordered ring in which squares
    of nonzero elements are positive. *)
Definition ordered {O : Ops} (pos : car O -> Prop) : Prop :=
  (forall x y, pos x -> pos y -> pos (oadd x y)) /\ (forall x y, pos x -> pos y -> pos (omul x y)) /\
  (forall x, x <> o0 -> pos (omul x x)) /\ ~ pos o0.
Definition signed {O : Ops} (neg : bool) (x : car O) : car O := if neg then oopp x else x.
(** x^T A x *)
Definition quad {O : Ops} (n : Z) (A : Z -> Z -> car O) (x : Z -> car O) : car O :=
  zsum n (fun i => omul (x i) (zsum n (fun j => omul (A i j) (x j)))).
Definition definite {O : Ops} (pos : car O -> Prop) (neg : bool) (n : Z) (A : Z -> Z -> car O) : Prop :=
  forall x, nonzero n x -> pos (signed neg (quad n A x)).
Definition semidefinite {O : Ops} (pos : car O -> Prop) (neg : bool) (n : Z) (A : Z -> Z -> car O) : Prop :=
  forall x, pos (signed neg (quad n A x)) \/ quad n A x = o0.
(** The matrix in a buffer with contents [f], row by row. *)
Definition square {O : Ops} (n : Z) (f : Z -> car O) : Z -> Z -> car O := fun i j => f (i * n + j).

(** ** Matrices with given eigenvectors *)
Section Spectral.
  Context {O : Ops} (HR : is_ring O).
  Notation T := (car O).
  Add Ring DefR : (ir_rt O HR).

  Definition vtdv (n : Z) (V : Z -> Z -> T) (w : Z -> T) : Z -> Z -> T :=
    fun i j => zsum n (fun k => omul (V k i) (omul (w k) (V k j))).

  Lemma vtdv_sym : forall n V w i j, vtdv n V w i j = vtdv n V w j i.
  Proof. intros. apply zsum_ext. intros k Hk. ring. Qed.

  Lemma row_ident : forall n (V : Z -> Z -> T) k p, orthogonal n V -> 0 <= k < n -> 0 <= p < n ->
    zsum (O := O) n (fun j => omul (V k j) (V p j)) = ident k p.
  Proof. intros n V k p (H & _) Hk Hp. exact (H k p Hk Hp). Qed.

  Lemma sum_ident : forall n p (f : Z -> T), 0 <= p < n -> zsum n (fun k => omul (f k) (ident k p)) = f p.
  Proof.
    intros n p f Hp. unfold zsum. rewrite (lsum_single O HR _ (zrange n) p).
    - unfold ident. rewrite Z.eqb_refl. ring.
    - apply zrange_NoDup.
    - apply zrange_in. auto.
    - intros a _ Ha. unfold ident. rewrite (proj2 (Z.eqb_neq a p)) by auto. ring.
  Qed.

  (** The rows of V are eigenvectors. *)
  Lemma vtdv_eigen : forall n V w p, orthogonal n V -> 0 <= p < n -> eigenpair n (vtdv n V w) (w p) (V p).
  Proof.
    intros n V w p HV Hp i Hi.
    transitivity (zsum n (fun k => omul (omul (V k i) (w k)) (ident k p))).
    - unfold vtdv, zsum.
      transitivity (lsum (zrange n) (fun j => lsum (zrange n) (fun k => omul (omul (V k i) (w k)) (omul (V k j) (V p j))))).
      + apply lsum_ext. intros j Hj. rewrite <- (lsum_mul_r O HR). apply lsum_ext. intros k Hk. ring.
      + rewrite (lsum_swap O HR). apply lsum_ext. intros k Hk. apply zrange_in in Hk. rewrite (lsum_mul_l O HR). f_equal.
        exact (row_ident n V k p HV Hk Hp).
    - rewrite sum_ident by auto. ring.
  Qed.

  Definition image (n : Z) (V : Z -> Z -> T) (x : Z -> T) (k : Z) : T := zsum n (fun j => omul (V k j) (x j)).

  Lemma quad_vtdv : forall n V w x, quad n (vtdv n V w) x = zsum n (fun k => omul (w k) (omul (image n V x k) (image n V x k))).
  Proof.
    intros n V w x. unfold quad, vtdv, image, zsum.
    transitivity (lsum (zrange n) (fun i => lsum (zrange n) (fun k =>
      omul (omul (w k) (omul (V k i) (x i))) (lsum (zrange n) (fun j => omul (V k j) (x j)))))).
    - apply lsum_ext. intros i Hi. rewrite <- (lsum_mul_l O HR).
      transitivity (lsum (zrange n) (fun j => lsum (zrange n) (fun k => omul (omul (w k) (omul (V k i) (x i))) (omul (V k j) (x j))))).
      + apply lsum_ext. intros j Hj. rewrite <- (lsum_mul_r O HR), <- (lsum_mul_l O HR). apply lsum_ext. intros k Hk. ring.
      + rewrite (lsum_swap O HR). apply lsum_ext. intros k Hk. apply (lsum_mul_l O HR).
    - rewrite (lsum_swap O HR). apply lsum_ext. intros k Hk. rewrite (lsum_mul_r O HR), (lsum_mul_l O HR). ring.
  Qed.

  (** V keeps nonzero vectors nonzero. *)
  Lemma image_nonzero : forall n V x, orthogonal n V -> nonzero n x -> exists k, 0 <= k < n /\ image n V x k <> o0.
  Proof.
    intros n V x (_ & HV) (i & Hi & Hx).
    assert (DEC : (exists k, In k (zrange n) /\ image n V x k <> o0) \/ (forall k, In k (zrange n) -> image n V x k = o0)).
    { induction (zrange n) as [|k l IH]; [right; intros k []|].
      destruct (oeqb (image n V x k) o0) eqn:E.
      - apply (ir_eqb O HR) in E. destruct IH as [(p & Hp & H)|IH]; [left; exists p; split; [right|]; auto|].
        right. intros p [<-|Hp]; auto.
      - left. exists k. split; [left; auto|]. intros H. apply (ir_eqb O HR) in H. congruence. }
    destruct DEC as [(k & Hk & H)|Z0]; [exists k; split; auto; apply zrange_in; auto|].
    elim Hx.
    transitivity (zsum n (fun k => omul (V k i) (image n V x k))).
    - unfold image, zsum.
      transitivity (lsum (zrange n) (fun j => omul (x j) (ident j i))).
      + symmetry. exact (sum_ident n i x Hi).
      + transitivity (lsum (zrange n) (fun j => lsum (zrange n) (fun k => omul (V k i) (omul (V k j) (x j))))).
        * apply lsum_ext. intros j Hj. apply zrange_in in Hj. rewrite <- (HV j i Hj Hi). unfold mmul, trn, zsum.
          rewrite <- (lsum_mul_l O HR). apply lsum_ext. intros k Hk. ring.
        * rewrite (lsum_swap O HR). apply lsum_ext. intros k Hk. apply (lsum_mul_l O HR).
    - unfold zsum. rewrite <- (lsum_0 O HR _ (zrange n)). apply lsum_ext. intros k Hk. rewrite Z0 by auto. ring.
  Qed.

  Lemma signed_sum : forall neg n (f : Z -> T), signed neg (zsum n f) = zsum n (fun k => signed neg (f k)).
  Proof.
    intros [] n f; [|reflexivity]. cbn [signed]. unfold zsum. induction (zrange n) as [|k l IH]; cbn [lsum fold_right].
    - ring.
    - fold (lsum l f). fold (lsum l (fun k => oopp (f k))). rewrite <- IH. ring.
  Qed.
  Lemma signed_mul : forall neg (x y : T), signed neg (omul x y) = omul (signed neg x) y.
  Proof. intros [] x y; cbn [signed]; ring. Qed.
  Lemma signed_0 : forall neg (x : T), signed neg x = o0 -> x = o0.
  Proof. intros [] x H; cbn [signed] in H; auto. replace x with (oopp (oopp x)) by ring. rewrite H. ring. Qed.

  Lemma eq_dec : forall x y : T, x = y \/ x <> y.
  Proof. intros x y. destruct (oeqb x y) eqn:E; [left|right]; [|intros H]; apply (ir_eqb O HR) in E || apply (ir_eqb O HR) in H; congruence. Qed.

  Variable pos : T -> Prop.
  Hypothesis HO : ordered pos.

  Lemma sum_nonneg : forall l (f : Z -> T), (forall k, In k l -> pos (f k) \/ f k = o0) -> pos (lsum l f) \/ lsum l f = o0.
  Proof.
    destruct HO as (PA & _). induction l as [|k l IH]; intros f H; cbn [lsum fold_right]; auto. fold (lsum l f).
    destruct (H k (or_introl eq_refl)) as [Hk|Hk]; destruct (IH f) as [Hl|Hl]; try (intros; apply H; right; auto).
    - left. auto.
    - left. rewrite Hl. replace (oadd (f k) o0) with (f k) by ring. auto.
    - left. rewrite Hk. replace (oadd o0 (lsum l f)) with (lsum l f) by ring. auto.
    - right. rewrite Hk, Hl. ring.
  Qed.
  Lemma sum_pos : forall l (f : Z -> T), (forall k, In k l -> pos (f k) \/ f k = o0) ->
    (exists k, In k l /\ pos (f k)) -> pos (lsum l f).
  Proof.
    destruct HO as (PA & _). induction l as [|k l IH]; intros f H (p & Hp & Pp); [contradiction|].
    cbn [lsum fold_right]. fold (lsum l f). destruct Hp as [<-|Hp].
    - destruct (sum_nonneg l f) as [Hl|Hl]; [intros; apply H; right; auto|auto|].
      rewrite Hl. replace (oadd (f k) o0) with (f k) by ring. auto.
    - assert (Hl : pos (lsum l f)) by (apply IH; [intros; apply H; right; auto|eauto]).
      destruct (H k (or_introl eq_refl)) as [Hk|Hk]; auto. rewrite Hk.
      replace (oadd o0 (lsum l f)) with (lsum l f) by ring. auto.
  Qed.

  Lemma vtdv_definite : forall neg n V w, orthogonal n V -> (forall k, 0 <= k < n -> pos (signed neg (w k))) ->
    definite pos neg n (vtdv n V w).
  Proof.
    destruct HO as (PA & PM & PS & P0).
    intros neg n V w HV Hw x Hx. rewrite quad_vtdv, signed_sum. destruct (image_nonzero n V x HV Hx) as (k & Hk & Hy).
    apply sum_pos.
    - intros p Hp. apply zrange_in in Hp. rewrite signed_mul. destruct (eq_dec (image n V x p) o0) as [->|Hn]; [right; ring|left].
      apply PM; auto.
    - exists k. split; [apply zrange_in; auto|]. rewrite signed_mul. apply PM; auto.
  Qed.
  Lemma vtdv_semidefinite : forall neg n V w, (forall k, 0 <= k < n -> pos (signed neg (w k)) \/ w k = o0) ->
    semidefinite pos neg n (vtdv n V w).
  Proof.
    destruct HO as (PA & PM & PS & P0).
    intros neg n V w Hw x.
    assert (G : pos (signed neg (quad n (vtdv n V w) x)) \/ signed neg (quad n (vtdv n V w) x) = o0).
    { rewrite quad_vtdv, signed_sum. apply sum_nonneg.
      intros p Hp. apply zrange_in in Hp. rewrite signed_mul.
      destruct (eq_dec (image n V x p) o0) as [->|Hn]; [right; ring|].
      destruct (Hw p Hp) as [H|H]; [left; apply PM; auto|right]. rewrite H. destruct neg; cbn [signed]; ring. }
    destruct G as [G|G]; auto. right. apply (signed_0 neg). auto.
  Qed.

  (** ** The eigenvalues *)
  Variable sqrt : T -> T.
  Hypothesis SQ : forall x, pos x -> pos (sqrt x).
  Hypothesis SQ0 : sqrt o0 = o0.

  Lemma draw_value_sign : forall neg nrm p,
    pos (signed neg (draw_value sqrt neg nrm p)) \/ draw_value sqrt neg nrm p = o0.
  Proof.
    destruct HO as (PA & PM & PS & P0).
    intros neg nrm p. unfold draw_value. set (a := nrm p). set (b := nrm (p + 1)%nat). set (c := nrm (p + 2)%nat).
    assert (G : pos (oadd (oadd (omul a a) (omul b b)) (omul c c)) \/ oadd (oadd (omul a a) (omul b b)) (omul c c) = o0).
    { destruct (eq_dec a o0) as [->|Ha], (eq_dec b o0) as [->|Hb], (eq_dec c o0) as [->|Hc]; try (right; ring); left.
      - replace (oadd (oadd (omul o0 o0) (omul o0 o0)) (omul c c)) with (omul c c) by ring. auto.
      - replace (oadd (oadd (omul o0 o0) (omul b b)) (omul o0 o0)) with (omul b b) by ring. auto.
      - replace (oadd (oadd (omul o0 o0) (omul b b)) (omul c c)) with (oadd (omul b b) (omul c c)) by ring. auto.
      - replace (oadd (oadd (omul a a) (omul o0 o0)) (omul o0 o0)) with (omul a a) by ring. auto.
      - replace (oadd (oadd (omul a a) (omul o0 o0)) (omul c c)) with (oadd (omul a a) (omul c c)) by ring. auto.
      - replace (oadd (oadd (omul a a) (omul b b)) (omul o0 o0)) with (oadd (omul a a) (omul b b)) by ring. auto.
      - auto. }
    destruct G as [G| ->].
    - left. destruct neg; cbn [signed]; [|auto]. match goal with |- pos (oopp (oopp ?x)) => replace (oopp (oopp x)) with x by ring end. auto.
    - right. rewrite SQ0. destruct neg; ring.
  Qed.

  Lemma draw_nonzero_sign : forall neg nrm fuel p e p', draw_nonzero fuel sqrt neg nrm p = Some (e, p') -> pos (signed neg e).
  Proof.
    intros neg nrm. induction fuel as [|f IH]; intros p e p' H; [discriminate|]. cbn [draw_nonzero] in H.
    destruct (oeqb (draw_value sqrt neg nrm p) o0) eqn:E; [eapply IH; eauto|].
    injection H as <- <-. destruct (draw_value_sign neg nrm p) as [G|G]; auto.
    apply (ir_eqb O HR) in G. congruence.
  Qed.
  Lemma draw_definite_sign : forall neg nrm fuel k p ev, draw_definite k fuel sqrt neg nrm p = Some ev ->
    length ev = k /\ Forall (fun e => pos (signed neg e)) ev.
  Proof.
    intros neg nrm fuel. induction k as [|k IH]; intros p ev H; cbn [draw_definite] in H.
    - injection H as <-. auto.
    - destruct (draw_nonzero fuel sqrt neg nrm p) as [[e p']|] eqn:E; [|discriminate].
      destruct (draw_definite k fuel sqrt neg nrm p') as [r|] eqn:E'; [|discriminate]. injection H as <-.
      destruct (IH _ _ E') as (HL & HF). split; [cbn; lia|]. constructor; auto. eapply draw_nonzero_sign; eauto.
  Qed.
  Lemma draw_semidefinite_sign : forall neg nrm zeros k i p,
    length (draw_semidefinite k i zeros sqrt neg nrm p) = k /\
    forall j, (j < k)%nat -> let e := nth j (draw_semidefinite k i zeros sqrt neg nrm p) o0 in
      (pos (signed neg e) \/ e = o0) /\ (i + Z.of_nat j < zeros -> e = o0).
  Proof.
    intros neg nrm zeros. induction k as [|k IH]; intros i p; cbn [draw_semidefinite]; [split; [reflexivity|lia]|].
    destruct (Z.ltb_spec i zeros).
    - destruct (IH (i + 1) p) as (HL & HS). split; [cbn; lia|]. intros [|j] Hj; cbn [nth]; [auto|].
      destruct (HS j ltac:(lia)) as (S1 & S2). split; auto. intros. apply S2. lia.
    - destruct (IH (i + 1) (p + 3)%nat) as (HL & HS). split; [cbn; lia|]. intros [|j] Hj; cbn [nth].
      + split; [apply draw_value_sign|]. intros. lia.
      + destruct (HS j ltac:(lia)) as (S1 & S2). split; auto. intros. apply S2. lia.
  Qed.
End Spectral.

(** ** Memory *)

Section RingFacts.
  Context {O : Ops} (HR : is_ring O).
  Add Ring DefR2 : (ir_rt O HR).
  Lemma one_plus : forall x c : car O, oadd (omul o1 x) (omul o0 c) = x.
  Proof. intros. ring. Qed.
  Lemma zero_mul : forall x : car O, omul o0 x = o0.
  Proof. intros. ring. Qed.
  Lemma opp_0 : oopp o0 = @o0 O.
  Proof. ring. Qed.
End RingFacts.

Lemma getrf_free : forall (O : Ops) (L : lapack) (n base : Z) (e : Z -> Z -> car O) (h : heap (car O)),
  0 < n -> (forall i j, 0 <= i < n -> 0 <= j < n -> h (base + i * n + j) = Some (e i j)) ->
  (forall M, agree n n M (trn e) -> 0 <= fst (fst (x_getrf L n n M))) ->
  exists info p h', la_getrf L (tensor_ctor base [n; n]) h = Ok (info, p, h') /\ 0 <= info /\
    (forall z, base <= z < base + n * n -> h' z <> None) /\
    (forall z, ~ (base <= z < base + n * n) -> h' z = h z).
Proof.
  intros O L n base e h Hn HE HI. unfold la_getrf. destruct (tdim2 _ _ _ _ (tc_mat base n n)) as (-> & -> & ->).
  cbn [dbase tensor_ctor]. unfold vgetrf. rewrite (proj2 (Z.ltb_ge n 0)) by lia. rewrite Z.max_r by lia. rewrite Z.ltb_irrefl. cbn [orb].
  destruct (fread_ok n n base n h (trn e)) as (M & EM & AM).
  { intros i j Hi Hj. unfold trn. rewrite <- (HE j i) by auto. f_equal. lia. }
  rewrite EM. cbn [bind]. specialize (HI M AM). destruct (x_getrf L n n M) as [[info F] p]. cbn [fst] in HI.
  destruct (fwrite_ok n n base n h F) as (h' & E & V & W); [lia| |].
  { intros i j Hi Hj. replace (base + i + j * n) with (base + j * n + i) by lia. rewrite HE by auto. discriminate. }
  rewrite E. cbn [bind]. rewrite (proj2 (Z.ltb_ge info 0)) by auto.
  exists info, p, h'. split; [reflexivity|]. split; auto. split.
  - intros z Hz. replace z with (base + (z - base) mod n + (z - base) / n * n).
    + rewrite V; [discriminate|apply Z.mod_pos_bound; lia|].
      split; [apply Z.div_pos; lia|apply Z.div_lt_upper_bound; lia].
    + assert (Q := Z.div_mod (z - base) n ltac:(lia)). lia.
  - intros z Hz. apply W. intros HF. apply fcell_range in HF; lia.
Qed.

Lemma getrf_info : forall (O : Ops) (L : lapack) (n base : Z) (e : Z -> Z -> car O) (h : heap (car O)),
  0 < n -> (forall i j, 0 <= i < n -> 0 <= j < n -> h (base + i * n + j) = Some (e i j)) ->
  (forall M, agree n n M (trn e) -> 0 < fst (fst (x_getrf L n n M))) ->
  exists info p h', la_getrf L (tensor_ctor base [n; n]) h = Ok (info, p, h') /\ 0 < info.
Proof.
  intros O L n base e h Hn HE HI. unfold la_getrf. destruct (tdim2 _ _ _ _ (tc_mat base n n)) as (-> & -> & ->).
  cbn [dbase tensor_ctor]. unfold vgetrf. rewrite (proj2 (Z.ltb_ge n 0)) by lia. rewrite Z.max_r by lia. rewrite Z.ltb_irrefl. cbn [orb].
  destruct (fread_ok n n base n h (trn e)) as (M & EM & AM).
  { intros i j Hi Hj. unfold trn. rewrite <- (HE j i) by auto. f_equal. lia. }
  rewrite EM. cbn [bind]. specialize (HI M AM). destruct (x_getrf L n n M) as [[info F] p]. cbn [fst] in HI.
  destruct (fwrite_ok n n base n h F) as (h' & E & V & W); [lia| |].
  { intros i j Hi Hj. replace (base + i + j * n) with (base + j * n + i) by lia. rewrite HE by auto. discriminate. }
  rewrite E. cbn [bind]. rewrite (proj2 (Z.ltb_ge info 0)) by lia.
  exists info, p, h'. split; [reflexivity|]. auto.
Qed.

Lemma rows_alloc : forall (O : Ops) (f : Z -> car O) (base n : Z) (h : heap (car O)) i j, 0 <= i < n -> 0 <= j < n ->
  alloc_with f base (n * n) h (base + i * n + j) = Some (square n f i j).
Proof. intros. assert (0 <= i * n + j < n * n) by nia. rewrite alloc_with_cell by lia. unfold square. do 2 f_equal. lia. Qed.

Lemma draw_regular_ok : forall (O : Ops) (L : lapack) (rnd : nat -> Z -> car O) (n base : Z), 0 < n ->
  (forall j M, agree n n M (trn (square n (rnd j))) -> 0 <= fst (fst (x_getrf L n n M))) ->
  forall fuel j h r, draw_regular fuel L rnd j n base h = Some r ->
  exists h2 j', r = Ok h2 /\
    (forall i k, 0 <= i < n -> 0 <= k < n -> h2 (base + i * n + k) = Some (square n (rnd j') i k)) /\
    (forall z, base + n * n <= z < base + n * n + n * n -> h2 z <> None) /\
    (forall z, ~ (base <= z < base + n * n + n * n) -> h2 z = h z).
Proof.
  intros O L rnd n base Hn HI. induction fuel as [|fuel IH]; intros j h r H; [discriminate|]. cbn [draw_regular] in H.
  set (h1 := alloc_with (rnd j) (base + n * n) (n * n) (alloc_with (rnd j) base (n * n) h)) in H.
  destruct (getrf_free O L n (base + n * n) (square n (rnd j)) h1 Hn) as (info & p & h2 & E & I0 & V & F).
  { intros i k Hi Hk. apply rows_alloc; auto. }
  { apply HI. }
  rewrite E in H.
  assert (F2 : forall z, ~ (base <= z < base + n * n + n * n) -> h2 z = h z).
  { intros z Hz. assert (0 <= n * n) by nia. rewrite F by lia. unfold h1. rewrite !alloc_with_other by lia. reflexivity. }
  destruct (0 <? info).
  - destruct (IH _ _ _ H) as (h3 & j' & -> & R & A & G). exists h3, j'. split; auto. split; auto. split; auto.
    intros z Hz. rewrite G; auto.
  - injection H as <-. exists h2, j. split; auto. split; [|split; auto].
    intros i k Hi Hk. assert (0 <= i * n + k < n * n) by nia. rewrite F by lia. unfold h1. rewrite alloc_with_other by lia.
    apply rows_alloc; auto.
Qed.

Lemma la_q_place : forall (O : Ops) (L : lapack) F tau n base (h : heap (car O)) Q h', ddims F = [n; n] ->
  la_q L F tau base h = Ok (Q, h') -> Q = tensor_ctor base [n; n].
Proof.
  intros O L F tau n base h Q h' D. unfold la_q, copy_from_view. rewrite D.
  destruct (run _ _) as [[u g]| |]; cbn [bind snd]; try discriminate.
  destruct (vorgqr _ _ _ _ _ _ _ _) as [[i g']| |]; cbn [bind fst snd]; try discriminate.
  destruct (i =? 0); [|discriminate]. intros H. injection H as <- _. reflexivity.
Qed.

Lemma assemble_ok : forall (O : Ops), is_ring O -> forall (L : lapack) (n base : Z) (e : Z -> Z -> car O) (ev : list (car O)) (h : heap (car O)),
  0 < n -> (forall i k, 0 <= i < n -> 0 <= k < n -> h (base + i * n + k) = Some (e i k)) ->
  (forall z, base + n * n <= z < base + n * n + n * n -> h z <> None) ->
  (forall M, agree n n M e -> qr_contract L n M) ->
  (forall z, base + 2 * (n * n) <= z < base + 5 * (n * n) + 2 * n -> h z = None) ->
  exists A h' a V, assemble L n ev base h = Ok (A, h') /\ ddims A = [n; n] /\ holds h' A a /\
    orthogonal n V /\ agree n n (mx a) (vtdv n V (fun k => nth (Z.to_nat k) ev o0)) /\
    (forall z, h z <> None -> ~ (base <= z < base + 5 * (n * n) + 2 * n) -> h' z = h z).
Proof.
  intros O HR L n base e ev h Hn HE HT HC Hfr. assert (NN : 0 < n * n) by nia.
  unfold assemble.
  set (Ev0 := tensor_ctor base [n; n]). set (Temp := tensor_ctor (base + n * n) [n; n]).
  set (pq := base + 2 * (n * n)). set (pv := pq + n * n + n). set (pe := pv + n * n). set (pd := pe + n).
  destruct (C62_qr_partial O L Ev0 n n pq pv (fun idx => e (nth 0 idx 0) (nth 1 idx 0)) h)
    as (F & tau & Q & h1 & h2 & f & q & E1 & E2 & DF & DQ & HF & HQ & OQ & _ & FR); try lia.
  { apply tc_mat. }
  { apply rows_tc. auto. }
  { intros M HM. apply HC. exact HM. }
  { intros z Hz. apply Hfr. unfold pq in *. lia. }
  { intros z Hz. apply Hfr. unfold pv, pq in *. lia. }
  rewrite E1. cbn [bind]. rewrite E2. cbn [bind].
  assert (EQ := la_q_place O L F tau n pv h1 Q h2 DF E2). subst Q. set (Q := tensor_ctor pv [n; n]) in *.
  set (Evals := tensor_ctor pe [n]). set (w := fun k => nth (Z.to_nat k) ev o0).
  (* eigenvalues *)
  destruct (forM_cells Z (car O) (zrange n) (fun i => addr Evals [i]) (fun i => w i)
     (fun i h => wr h (subscript Evals [i]) (nth (Z.to_nat i) ev o0)) (alloc_buffer o0 pe n h2)) as (h3 & E3 & V3 & F3).
  { apply NoDup_map_inj_in; [|apply zrange_NoDup]. intros a b Ha Hb H. apply zrange_in in Ha. apply zrange_in in Hb.
    assert (G : [a] = [b]) by (apply (rm_inj pe [n]); [apply inb_cons; split; [lia|constructor]|apply inb_cons; split; [lia|constructor]|exact H]). congruence. }
  { intros i g Hi Hag. apply zrange_in in Hi. assert (Hb : inb [i] (ddims Evals)) by (repeat constructor; lia).
    rewrite subscript_inb by auto. eapply wr_some. rewrite Hag by auto. apply alloc_buffer_cell.
    assert (H := new_cell pe [n] [i] Hb). cbn [zprod] in H. fold Evals in H. lia. }
  rewrite E3. cbn [bind].
  assert (CE : forall z, cell Evals z <-> pe <= z < pe + n) by (intros; apply tc_cell1; lia).
  assert (HE3 : holds h3 Evals (fun idx => w (nth 0 idx 0))).
  { intros idx Hi. cbn in Hi. inversion Hi as [|i d is ds Hi0 Hi1]; subst. inversion Hi1; subst. cbn [nth]. apply (V3 i).
    apply zrange_in. lia. }
  assert (K3 : forall z, ~ (pe <= z < pe + n) -> h3 z = h2 z).
  { intros z Hz. rewrite F3; [apply alloc_buffer_other; auto|]. rewrite in_map_iff. intros (i & <- & Hi). apply zrange_in in Hi.
    apply Hz, CE. exists [i]. split; auto. repeat constructor; lia. }
  (* diagonal *)
  unfold create_diagonal. change (tdim Evals 0) with n.
  destruct (new_set_all O o0 pd [n; n] h3 ltac:(discriminate)) as (h4 & E4 & V4 & F4). rewrite E4. cbn [bind].
  unfold only_buffer in F4. cbn [zprod] in V4, F4. rewrite Z.mul_1_r in V4, F4.
  destruct (put_diagonal_ok O Evals n 1 pd n n (fun idx => w (nth 0 idx 0)) h4) as (h5 & E5 & V5 & F5); auto; try lia.
  { apply tc_vect. }
  { intros idx Hi. assert (Hc : cell Evals (addr Evals idx)) by (exists idx; auto). apply CE in Hc.
    rewrite F4 by (unfold pd; lia). auto. }
  { intros z Hz. apply CE in Hz. unfold pd. lia. }
  rewrite E5. cbn [bind]. set (D := tensor_ctor pd [n; n]) in *.
  (* products *)
  assert (CT : forall z, cell Temp z <-> base + n * n <= z < base + n * n + n * n) by (intros; apply tc_cell2; lia).
  assert (CQ : forall z, cell Q z <-> pv <= z < pv + n * n) by (intros; apply tc_cell2; lia).
  assert (CD : forall z, cell D z <-> pd <= z < pd + n * n) by (intros; apply tc_cell2; lia).
  assert (HQ5 : holds h5 Q q).
  { intros idx Hi. assert (Hc : cell Q (addr Q idx)) by (exists idx; auto). apply CQ in Hc.
    rewrite F5, F4, K3 by (unfold pd, pe; lia). auto. }
  assert (AT : forall z, cell Temp z -> h5 z <> None).
  { intros z Hz. apply CT in Hz. rewrite F5, F4, K3 by (unfold pd, pe, pv, pq; lia). rewrite FR by (apply HT; lia). apply HT. lia. }
  destruct (C19_gemm_partial O HR false false o1 o0 D Q Temp n n n n n n
     (fun idx => if (nth 0 idx 0 =? nth 1 idx 0) && (nth 0 idx 0 <? n) then w (nth 0 idx 0) else o0) q
     (fun idx => match h5 (addr Temp idx) with Some v => v | None => o0 end) h5) as (h6 & E6 & V6 & F6); try lia; try apply tc_mat; auto.
  { intros idx Hi. destruct (h5 (addr Temp idx)) eqn:E; auto. exfalso. apply (AT (addr Temp idx)); auto. exists idx; auto. }
  { apply disj_cells. intros z H1 H2. apply CT in H1. apply CD in H2. unfold pd, pe, pv, pq in H2. lia. }
  { apply disj_cells. intros z H1 H2. apply CT in H1. apply CQ in H2. unfold pv, pq in H2. lia. }
  rewrite E6. cbn [bind].
  set (t := fun idx => omul (w (nth 0 idx 0)) (q [nth 0 idx 0; nth 1 idx 0])).
  assert (HT6 : holds h6 Temp t).
  { intros idx Hi. cbn in Hi. apply inb2_inv in Hi as (i & j & -> & Hi & Hj). rewrite V6 by auto. f_equal. unfold t. cbn [nth op].
    unfold zsum. rewrite (lsum_single O HR _ (zrange n) i).
    - rewrite Z.eqb_refl, (proj2 (Z.ltb_lt i n)) by lia. cbn [andb]. apply (one_plus HR).
    - apply zrange_NoDup.
    - apply zrange_in. auto.
    - intros k _ Hk. rewrite (proj2 (Z.eqb_neq i k)) by auto. cbn [andb]. apply (zero_mul HR). }
  assert (HQ6 : holds h6 Q q).
  { intros idx Hi. assert (Hc : cell Q (addr Q idx)) by (exists idx; auto). rewrite F6; auto.
    intros H. apply CT in H. apply CQ in Hc. unfold pv, pq in Hc. lia. }
  destruct (C19_gemm_partial O HR true false o1 o0 Q Temp D n n n n n n q t
     (fun idx => if (nth 0 idx 0 =? nth 1 idx 0) && (nth 0 idx 0 <? n) then w (nth 0 idx 0) else o0) h6)
     as (h7 & E7 & V7 & F7); try lia; try apply tc_mat; auto.
  { intros idx Hi. assert (Hc : cell D (addr D idx)) by (exists idx; auto). rewrite F6; [exact (V5 idx Hi)|].
    intros H. apply CT in H. apply CD in Hc. unfold pd, pe, pv, pq in Hc. lia. }
  { apply disj_cells. intros z H1 H2. apply CD in H1. apply CQ in H2. unfold pd, pe in H1. lia. }
  { apply disj_cells. intros z H1 H2. apply CD in H1. apply CT in H2. unfold pd, pe, pv, pq in H1. lia. }
  rewrite E7. cbn [bind].
  exists D, h7, (fun idx => vtdv n (mx q) w (nth 0 idx 0) (nth 1 idx 0)), (mx q).
  split; [reflexivity|]. split; [reflexivity|]. split.
  { intros idx Hi. cbn in Hi. apply inb2_inv in Hi as (i & j & -> & Hi & Hj). rewrite V7 by auto. cbn [nth op]. f_equal.
    rewrite (one_plus HR). reflexivity. }
  split; [exact OQ|]. split; [intros i j Hi Hj; reflexivity|].
  intros z Hz Hr. rewrite F7 by (rewrite CD; unfold pd, pe, pv, pq; lia). rewrite F6 by (rewrite CT; lia).
  rewrite F5, F4, K3 by (unfold pd, pe, pv, pq; lia). auto.
Qed.

(** What LAPACK promises about the matrices that are drawn: [getrf] accepts its
    arguments, [geqrf] and [orgqr] factorise. *)
Definition draws_ok {O : Ops} (L : lapack) (rnd : nat -> Z -> car O) (n : Z) : Prop :=
  forall j M, (agree n n M (trn (square n (rnd j))) -> 0 <= fst (fst (x_getrf L n n M))) /\
              (agree n n M (square n (rnd j)) -> qr_contract L n M).

(** C94.  If the loops of create_random_definite end, the result is a symmetric
    n x n matrix with an orthonormal basis of eigenvectors, all eigenvalues
    have the sign of the mean, and the matrix is definite.  Memory that existed
    before is not written.  Missing: see [C94_zero_mean_refuted] and
    [C94_repeat_refuted]. *)
Theorem C94_definite_partial :
  forall (O : Ops), is_ring O ->
  forall (pos : car O -> Prop) (sqrt : car O -> car O) (L : lapack) (neg : bool) (rnd : nat -> Z -> car O) (nrm : nat -> car O)
         (fuel : nat) (n base : Z) (h : heap (car O)) (r : res (desc * heap (car O))),
    ordered pos -> (forall x, pos x -> pos (sqrt x)) -> sqrt o0 = o0 ->
    0 < n -> draws_ok L rnd n -> (forall z, base <= z -> h z = None) ->
    create_definite fuel L sqrt neg rnd nrm n n base h = Some r ->
    exists A h' a V w, r = Ok (A, h') /\ ddims A = [n; n] /\ holds h' A a /\
      agree n n (mx a) (trn (mx a)) /\ orthogonal n V /\
      (forall k, 0 <= k < n -> eigenpair n (mx a) (w k) (V k) /\ pos (signed neg (w k))) /\
      definite pos neg n (mx a) /\
      (forall z, h z <> None -> h' z = h z).
Proof.
  intros O HR pos sqrt L neg rnd nrm fuel n base h r HO SQ SQ0 Hn HL Hfr H. unfold create_definite in H.
  rewrite Z.eqb_refl in H. cbn [negb] in H.
  destruct (draw_regular fuel L rnd 0 n base h) as [r1|] eqn:E1; [|discriminate].
  destruct (draw_definite (Z.to_nat n) fuel sqrt neg nrm 0) as [ev|] eqn:E2; [|discriminate]. injection H as <-.
  destruct (draw_regular_ok O L rnd n base Hn (fun j M => proj1 (HL j M)) fuel 0 h r1 E1) as (h2 & j & -> & RV & AT & F2).
  destruct (draw_definite_sign HR pos HO sqrt SQ SQ0 neg nrm fuel _ _ _ E2) as (LE & FE).
  assert (NN : 0 < n * n) by nia.
  destruct (assemble_ok O HR L n base (square n (rnd j)) ev h2 Hn RV AT (fun M => proj2 (HL j M))) as (A & h' & a & V & E3 & D & HA & OV & AG & F3).
  { intros z Hz. rewrite F2 by lia. apply Hfr. lia. }
  cbn [bind]. set (w := fun k => nth (Z.to_nat k) ev o0) in *.
  assert (HW : forall k, 0 <= k < n -> pos (signed neg (w k))).
  { intros k Hk. rewrite Forall_forall in FE. apply FE. apply nth_In. lia. }
  assert (QE : forall x, quad n (mx a) x = quad n (vtdv n V w) x).
  { intros x. apply zsum_ext. intros i Hi. f_equal. apply zsum_ext. intros k Hk. f_equal. apply AG; auto. }
  exists A, h', a, V, w. split; [exact E3|]. split; [exact D|]. split; [exact HA|]. split; [|split; [exact OV|split; [|split]]].
  - intros i k Hi Hk. unfold trn. rewrite (AG i k), (AG k i) by auto. apply (vtdv_sym HR).
  - intros k Hk. split; auto. intros i Hi. rewrite <- (vtdv_eigen HR n V w k OV Hk i Hi). apply zsum_ext. intros p Hp.
    rewrite (AG i p) by auto. reflexivity.
  - intros x Hx. rewrite QE. apply (vtdv_definite HR pos HO); auto.
  - intros z Hz. assert (z < base) by (destruct (Z.lt_ge_cases z base); auto; rewrite Hfr in Hz by auto; congruence).
    assert (K : h2 z = h z) by (apply F2; lia). rewrite F3 by (try congruence; lia). exact K.
Qed.
Print Assumptions C94_definite_partial.

(** create_random_semidefinite: the eigenvalues have the sign of the mean or are
    zero, the first [zeros] of them are zero, and the matrix is semidefinite. *)
Theorem C94_semidefinite_partial :
  forall (O : Ops), is_ring O ->
  forall (pos : car O -> Prop) (sqrt : car O -> car O) (L : lapack) (neg : bool) (rnd : nat -> Z -> car O) (nrm : nat -> car O)
         (fuel : nat) (n zeros base : Z) (h : heap (car O)) (r : res (desc * heap (car O))),
    ordered pos -> (forall x, pos x -> pos (sqrt x)) -> sqrt o0 = o0 ->
    0 < n -> draws_ok L rnd n -> (forall z, base <= z -> h z = None) ->
    create_semidefinite fuel L sqrt neg rnd nrm n n zeros base h = Some r ->
    exists A h' a V w, r = Ok (A, h') /\ ddims A = [n; n] /\ holds h' A a /\
      agree n n (mx a) (trn (mx a)) /\ orthogonal n V /\
      (forall k, 0 <= k < n -> eigenpair n (mx a) (w k) (V k) /\ (pos (signed neg (w k)) \/ w k = o0) /\ (k < zeros -> w k = o0)) /\
      semidefinite pos neg n (mx a) /\
      (forall z, h z <> None -> h' z = h z).
Proof.
  intros O HR pos sqrt L neg rnd nrm fuel n zeros base h r HO SQ SQ0 Hn HL Hfr H. unfold create_semidefinite in H.
  rewrite Z.eqb_refl in H. cbn [negb] in H.
  destruct (draw_regular fuel L rnd 0 n base h) as [r1|] eqn:E1; [|discriminate]. injection H as <-.
  destruct (draw_regular_ok O L rnd n base Hn (fun j M => proj1 (HL j M)) fuel 0 h r1 E1) as (h2 & j & -> & RV & AT & F2).
  set (ev := draw_semidefinite (Z.to_nat n) 0 zeros sqrt neg nrm 0).
  destruct (draw_semidefinite_sign HR pos HO sqrt SQ SQ0 neg nrm zeros (Z.to_nat n) 0 0) as (LE & FE). fold ev in LE, FE.
  assert (NN : 0 < n * n) by nia.
  destruct (assemble_ok O HR L n base (square n (rnd j)) ev h2 Hn RV AT (fun M => proj2 (HL j M))) as (A & h' & a & V & E3 & D & HA & OV & AG & F3).
  { intros z Hz. rewrite F2 by lia. apply Hfr. lia. }
  cbn [bind]. set (w := fun k => nth (Z.to_nat k) ev o0) in *.
  assert (HW : forall k, 0 <= k < n -> (pos (signed neg (w k)) \/ w k = o0) /\ (k < zeros -> w k = o0)).
  { intros k Hk. destruct (FE (Z.to_nat k) ltac:(lia)) as (S1 & S2). split; auto. intros Hz. apply S2. lia. }
  assert (QE : forall x, quad n (mx a) x = quad n (vtdv n V w) x).
  { intros x. apply zsum_ext. intros i Hi. f_equal. apply zsum_ext. intros k Hk. f_equal. apply AG; auto. }
  exists A, h', a, V, w. split; [exact E3|]. split; [exact D|]. split; [exact HA|]. split; [|split; [exact OV|split; [|split]]].
  - intros i k Hi Hk. unfold trn. rewrite (AG i k), (AG k i) by auto. apply (vtdv_sym HR).
  - intros k Hk. split; [|apply HW; auto]. intros i Hi. rewrite <- (vtdv_eigen HR n V w k OV Hk i Hi). apply zsum_ext. intros p Hp.
    rewrite (AG i p) by auto. reflexivity.
  - intros x. rewrite QE. apply (vtdv_semidefinite HR pos HO). intros k Hk. apply HW. auto.
  - intros z Hz. assert (z < base) by (destruct (Z.lt_ge_cases z base); auto; rewrite Hfr in Hz by auto; congruence).
    assert (K : h2 z = h z) by (apply F2; lia). rewrite F3 by (try congruence; lia). exact K.
Qed.
Print Assumptions C94_semidefinite_partial.

(** Other shapes are refused. *)
Theorem C94_shape :
  forall (O : Ops) (sqrt : car O -> car O) (L : lapack) (neg : bool) (rnd : nat -> Z -> car O) (nrm : nat -> car O)
         (fuel : nat) (rows cols zeros base : Z) (h : heap (car O)), rows <> cols ->
    create_definite fuel L sqrt neg rnd nrm rows cols base h = Some Throw /\
    create_semidefinite fuel L sqrt neg rnd nrm rows cols zeros base h = Some Throw.
Proof.
  intros. unfold create_definite, create_semidefinite. rewrite (proj2 (Z.eqb_neq rows cols)) by auto. auto.
Qed.
Print Assumptions C94_shape.

(** A mean of zero: the normal distribution has width zero, all draws are zero,
    and the loop that waits for a nonzero eigenvalue never ends. *)
Theorem C94_zero_mean_refuted :
  forall (O : Ops), is_ring O ->
  forall (sqrt : car O -> car O) (L : lapack) (neg : bool) (rnd : nat -> Z -> car O) (nrm : nat -> car O)
         (fuel : nat) (n base : Z) (h : heap (car O)),
    0 < n -> sqrt o0 = o0 -> (forall p, nrm p = o0) -> create_definite fuel L sqrt neg rnd nrm n n base h = None.
Proof.
  intros O HR sqrt L neg rnd nrm fuel n base h Hn SQ0 HN. unfold create_definite. rewrite Z.eqb_refl. cbn [negb].
  destruct (draw_regular fuel L rnd 0 n base h); auto.
  replace (Z.to_nat n) with (S (Z.to_nat (n - 1))) by lia. cbn [draw_definite].
  assert (G : forall f p, draw_nonzero f sqrt neg nrm p = None).
  { induction f as [|f IH]; intros p; auto. cbn [draw_nonzero]. unfold draw_value. rewrite !HN.
    assert (X : (if neg then oopp (sqrt (oadd (oadd (omul o0 o0) (omul o0 o0)) (omul o0 o0)))
                 else sqrt (oadd (oadd (omul o0 o0) (omul o0 o0)) (omul o0 o0))) = o0).
    { replace (oadd (oadd (omul o0 o0) (omul o0 o0)) (omul o0 o0)) with (@o0 O).
      - rewrite SQ0. destruct neg; auto. apply (opp_0 HR).
      - rewrite !(add_00 HR). symmetry. apply (zero_mul HR). }
    rewrite X. rewrite (proj2 (ir_eqb O HR o0 o0)) by reflexivity. apply IH. }
  rewrite G. reflexivity.
Qed.
Print Assumptions C94_zero_mean_refuted.

(** With one thread every call of create_random_tensor gives the same numbers
    ([C93_one_thread]): if the first matrix has a zero pivot, so has every
    other, and the loop never ends. *)
Theorem C94_repeat_refuted :
  forall (O : Ops) (sqrt : car O -> car O) (L : lapack) (neg : bool) (rnd : nat -> Z -> car O) (nrm : nat -> car O)
         (fuel : nat) (n base : Z) (h : heap (car O)),
    0 < n -> (forall j, rnd j = rnd 0%nat) ->
    (forall M, agree n n M (trn (square n (rnd 0%nat))) -> 0 < fst (fst (x_getrf L n n M))) ->
    create_definite fuel L sqrt neg rnd nrm n n base h = None.
Proof.
  intros O sqrt L neg rnd nrm fuel n base h Hn HS HP. unfold create_definite. rewrite Z.eqb_refl. cbn [negb].
  assert (G : forall f j h, draw_regular f L rnd j n base h = None); [|rewrite G; reflexivity].
  induction f as [|f IH]; intros j g; auto. cbn [draw_regular]. rewrite HS.
  set (h1 := alloc_with (rnd 0%nat) (base + n * n) (n * n) (alloc_with (rnd 0%nat) base (n * n) g)).
  destruct (getrf_info O L n (base + n * n) (square n (rnd 0%nat)) h1 Hn) as (info & p & h2 & E & I0); auto.
  { intros i k Hi Hk. apply rows_alloc; auto. }
  rewrite E, (proj2 (Z.ltb_lt 0 info)) by auto. apply IH.
Qed.
Print Assumptions C94_repeat_refuted.

(** Eigenvectors from the QR factorisation of [[0, 2], [-1, 3]], eigenvalues
    |(3, 4, 0)| = 5 and |(2, 2, 1)| = 3 after one rejected draw of zeros. *)
Example C94_case :
  let rnd := fun (_ : nat) k => nth (Z.to_nat k) [0; 2; -1; 3] 0 in
  let nrm := fun p => nth p [0; 0; 0; 3; 4; 0; 2; 2; 1] 0 in
  ordered (O := ZOps) (fun x => 0 < x) /\ (forall x, 0 < x -> 0 < Z.sqrt x) /\ draws_ok (O := ZOps) Lqr rnd 2 /\
  match create_definite (O := ZOps) 5 Lqr Z.sqrt true rnd nrm 2 2 0 (fun _ => None) with
  | Some (Ok (A, h)) => map (elem h A) (indices [2; 2]) = map Some [-3; 0; 0; -5]
  | _ => False
  end.
Proof.
  cbv zeta. split; [|split; [|split]].
  - split; [intros x y; cbn; lia|]. split; [intros x y; cbn; nia|]. split; [intros x; cbn; nia|cbn; lia].
  - intros x Hx. apply Z.sqrt_pos. auto.
  - intros j M. split; [intros _; cbn; lia|]. intros HM. apply Lqr_contract. intros i k Hi Hk. rewrite HM by auto.
    unfold square, mx. cbn [nth]. replace (2 * i + k) with (i * 2 + k) by lia. reflexivity.
  - vm_compute. reflexivity.
Qed.
