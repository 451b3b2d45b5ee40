(** * T_Blas: theorems C19-C24 and C46 (linear-algebra wrappers). *)
From Coq Require Import List ZArith Lia Bool Permutation Ring.
From Verif Require Import Base Heap Conc M_Addr L_Addr L_Elt M_Einsum S_Einsum L_Einsum S_Blas M_Blas L_Blas.
Import ListNotations.
Open Scope Z_scope.

Section RingFacts.
  Context {O : Ops} (HR : is_ring O).
  Add Ring BlasRing : (ir_rt O HR).

  Lemma updv_ring : forall alpha beta s v : car O,
    updv alpha beta (opsum alpha s) v = oadd (omul alpha s) (omul beta v).
  Proof.
    intros. unfold updv, opsum.
    destruct (oeqb alpha o0) eqn:E1; [apply (ir_eqb O HR) in E1; subst|];
      (destruct (oeqb beta o0) eqn:E2; [apply (ir_eqb O HR) in E2; subst|]); ring.
  Qed.

  Lemma gemm_val : forall k (u v : Z -> car O), sumv k u v = zsum k (fun l => omul (v l) (u l)).
  Proof. intros. rewrite (sumv_zsum HR). apply zsum_ext. intros. ring. Qed.

  Lemma zsum_empty : forall (f : Z -> car O), zsum 0 f = o0.
  Proof. reflexivity. Qed.

  Lemma one_id : forall alpha v : car O, oadd (omul alpha o0) (omul o1 v) = v.
  Proof. intros. ring. Qed.
End RingFacts.

(** C19: [gemm] computes alpha*op(A)*op(B) + beta*C on row-major matrices with
    any leading strides and transposition flags, and changes nothing else.
    Full statement: also when the contracted extent k is 0 and beta is not 1;
    that case is false, see [C19_empty_sum_refuted]. *)
Theorem C19_gemm_partial :
  forall (O : Ops), is_ring O ->
  forall (TransA TransB : bool) (alpha beta : car O) (A B C : desc) (m n k lda ldb ldc : Z)
         (a b c : list Z -> car O) (h : heap (car O)),
    0 <= m -> 0 <= n -> 0 <= k -> (0 < k \/ beta = o1) ->
    (if TransA then mat A k m lda else mat A m k lda) ->
    (if TransB then mat B n k ldb else mat B k n ldb) ->
    mat C m n ldc ->
    holds h A a -> holds h B b -> holds h C c -> disj C A -> disj C B ->
    exists h', la_gemm TransA TransB alpha A B beta C h = Ok h' /\
      (forall i j, 0 <= i < m -> 0 <= j < n ->
         h' (addr C [i; j]) =
           Some (oadd (omul alpha (zsum k (fun p => omul (op TransA a i p) (op TransB b p j))))
                      (omul beta (c [i; j])))) /\
      (forall z, ~ cell C z -> h' z = h z).
Proof.
  intros O HR TA TB alpha beta A B C m n k lda ldb ldc a b c h Hm Hn Hk Hkb MA MB MC HA HB HC DA DB.
  destruct (Z.eq_dec k 0) as [->|Hk0].
  - destruct Hkb as [Hkb|Hkb]; [lia|]. exists h.
    assert (Ek : (if TA then tdim A 0 else tdim A 1) = 0).
    { unfold tdim. destruct TA; destruct MA as (E & _); rewrite E; auto. }
    unfold la_gemm, vgemm. rewrite Ek. rewrite orb_true_r. split; auto. split; auto.
    intros i j Hi Hj. rewrite HC by (destruct MC as (E & _); rewrite E; apply inb2; auto).
    rewrite zsum_empty, Hkb, (one_id HR). reflexivity.
  - destruct (la_gemm_nolaw TA TB alpha beta A B C m n k lda ldb ldc a b c h) as (h' & E & H1 & H2); auto; try lia.
    exists h'. split; auto. split; auto. intros i j Hi Hj. rewrite H1 by auto.
    rewrite (updv_ring HR), (gemm_val HR). unfold op, opi. destruct TA, TB; reflexivity.
Qed.

(** k = 0, beta = 0: C should become 0; it keeps its value. *)
Theorem C19_empty_sum_refuted :
  exists (A B C : desc) (a b c : list Z -> Z) (h h' : heap Z),
    mat A 1 0 0 /\ mat B 0 1 1 /\ mat C 1 1 1 /\
    @holds Z h A a /\ @holds Z h B b /\ @holds Z h C c /\ disj C A /\ disj C B /\
    @la_gemm ZOps false false 1 A B 0 C h = Ok h' /\
    h' (addr C [0; 0]) <> Some (1 * @zsum ZOps 0 (fun p => a [0; p] * b [p; 0]) + 0 * c [0; 0]).
Proof.
  exists (tensor_ctor 10 [1; 0]), (tensor_ctor 20 [0; 1]), (tensor_ctor 0 [1; 1]).
  exists (fun _ => 0), (fun _ => 0), (fun _ => 5).
  set (h := fun z => if z =? 0 then Some 5 else None). exists h, h.
  split; [repeat split; simpl; lia|]. split; [repeat split; simpl; lia|]. split; [repeat split; simpl; lia|].
  assert (E1 : forall idx, ~ inb idx [1; 0]).
  { intros idx H. apply inb2_inv in H as (i & j & _ & H1 & H2). lia. }
  assert (E2 : forall idx, ~ inb idx [0; 1]).
  { intros idx H. apply inb2_inv in H as (i & j & _ & H1 & H2). lia. }
  split; [intros idx H; elim (E1 idx H)|]. split; [intros idx H; elim (E2 idx H)|].
  split.
  { intros idx H. apply inb2_inv in H as (i & j & -> & H1 & H2).
    replace i with 0 by lia. replace j with 0 by lia. reflexivity. }
  split; [intros i j _ Hj; elim (E1 j Hj)|]. split; [intros i j _ Hj; elim (E2 j Hj)|].
  split; [reflexivity|]. discriminate.
Qed.

(** The call also accepts views whose columns are not adjacent; their column
    stride is ignored. *)
Theorem C19_column_stride_refuted :
  exists (A B C : desc) (h h' : heap Z) (a b : list Z -> Z),
    ddims A = [1; 2] /\ dstrides A = [4; 2] /\ inj A /\ mat B 2 1 1 /\ mat C 1 1 1 /\
    @holds Z h A a /\ @holds Z h B b /\ disj C A /\ disj C B /\
    @la_gemm ZOps false false 1 A B 0 C h = Ok h' /\
    h' (addr C [0; 0]) <> Some (a [0; 0] * b [0; 0] + a [0; 1] * b [1; 0]).
Proof.
  exists (mkDesc 0 [1; 2] [4; 2]), (tensor_ctor 10 [2; 1]), (tensor_ctor 20 [1; 1]).
  set (h := fun z => if z =? 0 then Some 1 else if z =? 1 then Some 9 else if z =? 2 then Some 2
    else if z =? 10 then Some 1 else if z =? 11 then Some 1 else if z =? 20 then Some 0 else None).
  exists h, (upd h 20 10), (fun i => nth 1 i 0 + 1), (fun _ => 1).
  split; [reflexivity|]. split; [reflexivity|].
  split.
  { intros x y Hx Hy E. simpl in *. apply inb2_inv in Hx as (i & j & -> & H1 & H2).
    apply inb2_inv in Hy as (i' & j' & -> & H3 & H4). unfold addr in E. simpl in E.
    assert (i = i') by lia. assert (j = j') by lia. subst. auto. }
  split; [repeat split; simpl; lia|]. split; [repeat split; simpl; lia|].
  split.
  { intros x Hx. simpl in Hx. apply inb2_inv in Hx as (i & j & -> & H1 & H2).
    assert (i = 0) by lia. assert (j = 0 \/ j = 1) as [-> | ->] by lia; subst; reflexivity. }
  split.
  { intros x Hx. simpl in Hx. apply inb2_inv in Hx as (i & j & -> & H1 & H2).
    assert (j = 0) by lia. assert (i = 0 \/ i = 1) as [-> | ->] by lia; subst; reflexivity. }
  split.
  { intros x y Hx Hy E. simpl in *. apply inb2_inv in Hx as (i & j & -> & H1 & H2).
    apply inb2_inv in Hy as (i' & j' & -> & H3 & H4). unfold addr in E. simpl in E. lia. }
  split.
  { intros x y Hx Hy E. simpl in *. apply inb2_inv in Hx as (i & j & -> & H1 & H2).
    apply inb2_inv in Hy as (i' & j' & -> & H3 & H4). unfold addr in E. simpl in E. lia. }
  split; [reflexivity|]. simpl. discriminate.
Qed.

(** A 2x2 case with leading strides larger than the number of columns. *)
Example C19_case :
  let A := mkDesc 0 [2; 2] [3; 1] in let B := mkDesc 10 [2; 2] [4; 1] in let C := mkDesc 20 [2; 2] [2; 1] in
  let h := fun z => if (0 <=? z) && (z <? 30) then Some z else None in
  match @la_gemm ZOps true false 2 A B 3 C h with
  | Ok h' => map h' [20; 21; 22; 23; 24] =
             map Some [2 * (0 * 10 + 3 * 14) + 3 * 20; 2 * (0 * 11 + 3 * 15) + 3 * 21;
                       2 * (1 * 10 + 4 * 14) + 3 * 22; 2 * (1 * 11 + 4 * 15) + 3 * 23; 24]
  | _ => False
  end.
Proof. reflexivity. Qed.

(** C20: [gemv].  Full statement: also when the summed extent is 0 and beta is
    not 1; false, see [C20_empty_sum_refuted]. *)
Theorem C20_gemv_partial :
  forall (O : Ops), is_ring O ->
  forall (TransA : bool) (alpha beta : car O) (A X Y : desc) (r c lda incx incy : Z)
         (a x y : list Z -> car O) (h : heap (car O)),
    0 <= r -> 0 <= c -> (0 < (if TransA then r else c) \/ beta = o1) ->
    mat A r c lda -> vect X (if TransA then r else c) incx -> vect Y (if TransA then c else r) incy ->
    holds h A a -> holds h X x -> holds h Y y -> disj Y A -> disj Y X ->
    exists h', la_gemv TransA alpha A X beta Y h = Ok h' /\
      (forall i, 0 <= i < (if TransA then c else r) ->
         h' (addr Y [i]) =
           Some (oadd (omul alpha (zsum (if TransA then r else c) (fun p => omul (op TransA a i p) (x [p]))))
                      (omul beta (y [i])))) /\
      (forall z, ~ cell Y z -> h' z = h z).
Proof.
  intros O HR TA alpha beta A X Y r c lda incx incy a x y h Hr Hc Hb MA VX VY HA HX HY DA DX.
  destruct (Z.eq_dec r 0) as [Er|Er]; [|destruct (Z.eq_dec c 0) as [Ec|Ec]].
  1,2: exists h; unfold la_gemv, vgemv, tdim; destruct MA as (E & _); rewrite E; simpl nth;
    rewrite ?Er, ?Ec, ?orb_true_r; simpl; split; auto; split; auto; intros i Hi;
    destruct TA; try lia; destruct Hb as [Hb|Hb]; try lia;
    rewrite HY by (destruct VY as (EY & _); rewrite EY; apply inb1; auto);
    rewrite ?zsum_empty, Hb, (one_id HR); reflexivity.
  destruct (la_gemv_nolaw TA alpha beta A X Y r c lda incx incy a x y h) as (h' & E & H1 & H2); auto; try lia.
  exists h'. split; auto. split; auto. intros i Hi. rewrite H1 by auto.
  rewrite (updv_ring HR), (sumv_zsum HR). unfold op, opi. destruct TA; reflexivity.
Qed.

Theorem C20_empty_sum_refuted :
  exists (A X Y : desc) (y : list Z -> Z) (h h' : heap Z),
    mat A 1 0 0 /\ vect X 0 1 /\ vect Y 1 1 /\ @holds Z h Y y /\
    @la_gemv ZOps false 1 A X 0 Y h = Ok h' /\
    h' (addr Y [0]) <> Some (1 * @zsum ZOps 0 (fun _ => 0) + 0 * y [0]).
Proof.
  exists (tensor_ctor 10 [1; 0]), (tensor_ctor 20 [0]), (tensor_ctor 0 [1]), (fun _ => 5).
  set (h := fun z => if z =? 0 then Some 5 else None). exists h, h.
  repeat split; simpl; try lia; try discriminate.
  intros idx H. apply inb1_inv in H as (i & -> & H1). replace i with 0 by lia. reflexivity.
Qed.

(** C20: [ger]: A = A + alpha * x * y^T; an impossible leading stride is
    rejected with an exception. *)
Theorem C20_ger :
  forall (O : Ops), is_ring O ->
  forall (alpha : car O) (X Y A : desc) (m n lda incx incy : Z) (a x y : list Z -> car O) (h : heap (car O)),
    0 <= m -> 0 <= n -> 1 <= lda -> mat A m n lda -> vect X m incx -> vect Y n incy ->
    holds h A a -> holds h X x -> holds h Y y -> disj A X -> disj A Y ->
    exists h', la_ger alpha X Y A h = Ok h' /\
      (forall i j, 0 <= i < m -> 0 <= j < n ->
         h' (addr A [i; j]) = Some (oadd (a [i; j]) (omul alpha (omul (x [i]) (y [j]))))) /\
      (forall z, ~ cell A z -> h' z = h z).
Proof.
  intros O HR alpha X Y A m n lda incx incy a x y h Hm Hn Hl MA VX VY HA HX HY DX DY.
  assert (R := ir_rt O HR).
  destruct (oeqb alpha o0) eqn:Ea.
  - exists h. unfold la_ger, vger, fger. rewrite Ea.
    assert (MA' := MA). destruct MA' as (E1 & E2 & E3). destruct VX as (E4 & E5 & E6). destruct VY as (E7 & E8 & E9).
    unfold tdim, tstride. rewrite E2, E4, E5, E7, E8. simpl nth.
    match goal with |- context [if ?g then Throw else _] => replace g with false end.
    2:{ symmetry. rewrite !orb_false_iff. repeat split; try (apply Z.ltb_ge; lia); try (apply Z.eqb_neq; lia). }
    match goal with |- context [if ?g then Throw else _] => replace g with false end.
    2:{ symmetry. rewrite !orb_false_iff. repeat split; try (apply Z.ltb_ge; lia); try (apply Z.eqb_neq; lia). }
    split; auto. split; auto. intros i j Hi Hj. apply (ir_eqb O HR) in Ea. subst alpha.
    rewrite HA by (rewrite E1; apply inb2; auto). f_equal.
    rewrite (omul_0_l HR). rewrite (Radd_comm R). symmetry. apply (Radd_0_l R).
  - destruct (la_ger_nolaw alpha X Y A m n lda incx incy a x y h) as (h' & E & H1 & H2); auto.
    exists h'. split; auto. split; auto. intros i j Hi Hj. rewrite H1 by auto. f_equal. f_equal.
    rewrite (Rmul_assoc R). rewrite (Rmul_comm R (y [j]) alpha). rewrite <- (Rmul_assoc R). f_equal.
    apply (Rmul_comm R).
Qed.

Theorem C20_ger_rejects :
  forall (O : Ops) (alpha : car O) (X Y A : desc) (m n lda incx incy : Z) (h : heap (car O)),
    ddims X = [m] -> dstrides X = [incx] -> ddims Y = [n] -> dstrides Y = [incy] ->
    ddims A = [m; n] -> dstrides A = [lda; 1] ->
    (incx = 0 \/ incy = 0 \/ lda < Z.max 1 n) ->
    la_ger alpha X Y A h = Throw.
Proof.
  intros O alpha X Y A m n lda incx incy h E1 E2 E3 E4 E5 E6 H.
  unfold la_ger, vger, tdim, tstride. rewrite E1, E2, E3, E4, E6. simpl nth.
  match goal with |- context [if ?g then Throw else _] => replace g with true; auto end.
  symmetry. rewrite !orb_true_iff, !Z.eqb_eq, !Z.ltb_lt. tauto.
Qed.

Example C20_case :
  let A := mkDesc 0 [2; 2] [3; 1] in let X := mkDesc 10 [2] [2] in let Y := mkDesc 20 [2] [5] in
  let h := fun z => if (0 <=? z) && (z <? 30) then Some z else None in
  match @la_ger ZOps 2 X Y A h, @la_gemv ZOps true 1 A X 0 Y h with
  | Ok h1, Ok h2 => map h1 [0; 1; 2; 3; 4] = map Some [0 + 2 * (10 * 20); 1 + 2 * (10 * 25); 2; 3 + 2 * (12 * 20); 4 + 2 * (12 * 25)]
                    /\ map h2 [20; 21; 25] = map Some [0 * 10 + 3 * 12; 21; 1 * 10 + 4 * 12]
  | _, _ => False
  end.
Proof. split; reflexivity. Qed.

(** C21: [scale], [axpy] and [axpby] on contiguous operands update each element
    of the target once and nothing else.  Full statement: every view; false for
    strided views, see the [_refuted] theorems. *)
Theorem C21_scale_partial :
  forall (O : Ops) (alpha : car O) (A : desc) (a : list Z -> car O) (h : heap (car O)),
    ddims A <> [] -> nonneg (ddims A) -> contiguous A -> holds h A a ->
    exists h', la_scale alpha A h = Ok h' /\
      holds h' A (fun idx => omul alpha (a idx)) /\ (forall z, ~ cell A z -> h' z = h z).
Proof.
  intros O alpha A a h Hne HN HC HA. apply contiguous_rowmaj in HC.
  unfold la_scale. rewrite rowmaj_total by auto.
  destruct (fscal_spec (zprod (ddims A)) alpha (dbase A) 1 h
    (fun n => a (sentinel_to_indices n (row_major_strides (ddims A))))) as (h' & E & H1 & H2).
  - lia.
  - intros i Hi. apply rowmaj_holds_flat; auto.
  - exists h'. split; auto. split.
    + intros idx Hi. destruct (rowmaj_addr_flat A idx HC Hi) as (G1 & G2). rewrite G2, H1 by auto.
      rewrite rm_roundtrip by auto. reflexivity.
    + intros z Hz. apply H2. rewrite <- rowmaj_cell by auto. auto.
Qed.

Theorem C21_axpby_partial :
  forall (O : Ops), is_ring O ->
  forall (alpha beta : car O) (X Y : desc) (x y : list Z -> car O) (h : heap (car O)),
    ddims X <> [] -> nonneg (ddims X) -> ddims Y = ddims X -> contiguous X -> contiguous Y ->
    holds h X x -> holds h Y y -> disj Y X ->
    (exists h', la_axpy alpha X Y h = Ok h' /\
      holds h' Y (fun idx => oadd (omul alpha (x idx)) (y idx)) /\ (forall z, ~ cell Y z -> h' z = h z)) /\
    (exists h', la_axpby alpha X beta Y h = Ok h' /\
      holds h' Y (fun idx => oadd (omul alpha (x idx)) (omul beta (y idx))) /\ (forall z, ~ cell Y z -> h' z = h z)).
Proof.
  intros O HR alpha beta X Y x y h Hne HN HD CX CY HX HY D.
  apply contiguous_rowmaj in CX. apply contiguous_rowmaj in CY. assert (R := ir_rt O HR).
  assert (NY : nonneg (ddims Y)) by (rewrite HD; auto).
  set (sti := fun n => sentinel_to_indices n (row_major_strides (ddims X))).
  assert (FX : forall i, 0 <= i < zprod (ddims X) -> h (dbase X + i * 1) = Some (x (sti i))).
  { intros. apply rowmaj_holds_flat; auto. }
  assert (FY : forall i, 0 <= i < zprod (ddims X) -> h (dbase Y + i * 1) = Some (y (sti i))).
  { intros. unfold sti. rewrite <- HD. apply rowmaj_holds_flat; auto. rewrite HD. auto. }
  assert (FD : forall i j, 0 <= i < zprod (ddims X) -> 0 <= j < zprod (ddims X) ->
    dbase X + i * 1 <> dbase Y + j * 1).
  { intros i j Hi Hj E.
    assert (cell X (dbase X + i * 1)) as (p & Hp & Ep) by (apply rowmaj_cell; auto; exists i; auto).
    assert (cell Y (dbase Y + j * 1)) as (q & Hq & Eq)
      by (apply rowmaj_cell; auto; exists j; split; auto; rewrite HD; auto).
    apply (D q p); auto. congruence. }
  assert (ZV : forall u v : car O, (if oeqb alpha o0 then v else oadd v (omul alpha u)) = oadd (omul alpha u) v).
  { intros u v. destruct (oeqb alpha o0) eqn:E; [|apply (Radd_comm R)].
    apply (ir_eqb O HR) in E. subst. rewrite (omul_0_l HR). symmetry. apply (Radd_0_l R). }
  split.
  - unfold la_axpy. rewrite rowmaj_total by auto.
    destruct (faxpy_spec (zprod (ddims X)) alpha (dbase X) 1 (dbase Y) 1 h (fun i => x (sti i)) (fun i => y (sti i)))
      as (h' & E & H1 & H2); auto; try lia.
    exists h'. split; auto. split.
    + intros idx Hi. destruct (rowmaj_addr_flat Y idx CY Hi) as (G1 & G2). rewrite HD in G1, Hi.
      rewrite G2, HD, H1 by auto. unfold sti. rewrite rm_roundtrip by auto. rewrite ZV. reflexivity.
    + intros z Hz. apply H2. intros HL. apply Hz. apply rowmaj_cell; auto. rewrite HD. auto.
  - unfold la_axpby, vaxpby. rewrite rowmaj_total by auto.
    destruct (fscal_spec (zprod (ddims X)) beta (dbase Y) 1 h (fun i => y (sti i))) as (h1 & E1 & S1 & S2); auto; try lia.
    rewrite E1. simpl bind.
    destruct (faxpy_spec (zprod (ddims X)) alpha (dbase X) 1 (dbase Y) 1 h1 (fun i => x (sti i))
      (fun i => omul beta (y (sti i)))) as (h' & E & H1 & H2); auto; try lia.
    { intros i Hi. rewrite S2; auto. intros (j & Hj & Ej). apply (FD i j Hi Hj Ej). }
    exists h'. split; auto. split.
    + intros idx Hi. destruct (rowmaj_addr_flat Y idx CY Hi) as (G1 & G2). rewrite HD in G1, Hi.
      rewrite G2, HD, H1 by auto. unfold sti. rewrite rm_roundtrip by auto. rewrite ZV. reflexivity.
    + intros z Hz. assert (HL : ~ line (dbase Y) 1 (zprod (ddims X)) z).
      { intros HL. apply Hz. apply rowmaj_cell; auto. rewrite HD. auto. }
      rewrite H2, S2; auto.
Qed.

(** [scale] of the first column (2 x 1 view) of a 2 x 2 matrix also multiplies
    the second column; [axpy] onto that view likewise overwrites it. *)
Theorem C21_scale_refuted :
  exists (A : desc) (h h' : heap Z), inj A /\ alloc h A /\ @la_scale ZOps 3 A h = Ok h' /\
    exists z, ~ cell A z /\ h' z <> h z.
Proof.
  exists (mkDesc 0 [2; 1] [2; 1]).
  set (h := fun z => if (0 <=? z) && (z <? 4) then Some (z + 1) else None).
  exists h. eexists.
  split.
  { intros x y Hx Hy E. simpl in *. apply inb2_inv in Hx as (i & j & -> & H1 & H2).
    apply inb2_inv in Hy as (i' & j' & -> & H3 & H4). unfold addr in E. simpl in E.
    assert (i = i') by lia. assert (j = j') by lia. subst. auto. }
  split.
  { intros x Hx. simpl in Hx. apply inb2_inv in Hx as (i & j & -> & H1 & H2).
    replace j with 0 by lia. assert (i = 0 \/ i = 1) as [-> | ->] by lia; unfold addr, h; simpl; eauto. }
  split; [reflexivity|]. exists 1. split.
  - intros (x & Hx & E). simpl in Hx. apply inb2_inv in Hx as (i & j & -> & H1 & H2).
    unfold addr in E. simpl in E. lia.
  - discriminate.
Qed.

Theorem C21_axpy_refuted :
  exists (X Y : desc) (h h' h'' : heap Z), inj X /\ inj Y /\ alloc h X /\ alloc h Y /\ disj X Y /\
    ddims X = ddims Y /\
    @la_axpy ZOps 3 X Y h = Ok h' /\ @la_axpby ZOps 3 X 1 Y h = Ok h'' /\
    exists z, ~ cell Y z /\ h' z <> h z /\ h'' z <> h z.
Proof.
  exists (mkDesc 10 [2; 1] [2; 1]), (mkDesc 0 [2; 1] [2; 1]).
  set (h := fun z => if (0 <=? z) && (z <? 20) then Some (z + 1) else None).
  exists h. eexists. eexists.
  assert (I : forall b, inj (mkDesc b [2; 1] [2; 1])).
  { intros b x y Hx Hy E. simpl in *. apply inb2_inv in Hx as (i & j & -> & H1 & H2).
    apply inb2_inv in Hy as (i' & j' & -> & H3 & H4). unfold addr in E. simpl in E.
    assert (i = i') by lia. assert (j = j') by lia. subst. auto. }
  assert (A : forall b, 0 <= b < 16 -> alloc h (mkDesc b [2; 1] [2; 1])).
  { intros b Hb x Hx. simpl in Hx. apply inb2_inv in Hx as (i & j & -> & H1 & H2).
    unfold addr, h. simpl. destruct (Z.leb_spec 0 (b + (i * 2 + (j * 1 + 0)))); [|lia].
    destruct (Z.ltb_spec (b + (i * 2 + (j * 1 + 0))) 20); [|lia]. simpl. eauto. }
  split; [apply I|]. split; [apply I|]. split; [apply A; lia|]. split; [apply A; lia|].
  split.
  { intros x y Hx Hy E. simpl in *. apply inb2_inv in Hx as (i & j & -> & H1 & H2).
    apply inb2_inv in Hy as (i' & j' & -> & H3 & H4). unfold addr in E. simpl in E. lia. }
  split; [reflexivity|]. split; [reflexivity|]. split; [reflexivity|]. exists 1. split.
  - intros (x & Hx & E). simpl in Hx. apply inb2_inv in Hx as (i & j & -> & H1 & H2).
    unfold addr in E. simpl in E. lia.
  - split; discriminate.
Qed.

Example C21_case :
  let X := tensor_ctor 0 [2; 3] in let Y := tensor_ctor 10 [2; 3] in
  let h := fun z => if (0 <=? z) && (z <? 20) then Some z else None in
  match @la_axpby ZOps 2 X 3 Y h with
  | Ok h' => map h' [9; 10; 15; 16] = map Some [9; 2 * 0 + 3 * 10; 2 * 5 + 3 * 15; 16]
  | _ => False
  end.
Proof. reflexivity. Qed.

(** C22: exactly one row / column is multiplied. *)
Theorem C22_scale_row_column :
  forall (O : Ops) (k : Z) (alpha : car O) (A : desc) (r c s0 s1 : Z) (a : list Z -> car O) (h : heap (car O)),
    ddims A = [r; c] -> dstrides A = [s0; s1] -> 0 < s0 -> 0 < s1 -> inj A -> holds h A a ->
    (0 <= k < r ->
     exists h', la_scale_row k alpha A h = Ok h' /\
      (forall i j, 0 <= i < r -> 0 <= j < c ->
         h' (addr A [i; j]) = Some (if i =? k then omul alpha (a [i; j]) else a [i; j])) /\
      (forall z, ~ cell A z -> h' z = h z)) /\
    (0 <= k < c ->
     exists h', la_scale_column k alpha A h = Ok h' /\
      (forall i j, 0 <= i < r -> 0 <= j < c ->
         h' (addr A [i; j]) = Some (if j =? k then omul alpha (a [i; j]) else a [i; j])) /\
      (forall z, ~ cell A z -> h' z = h z)).
Proof.
  intros O k alpha A r c s0 s1 a h Hd Hs P0 P1 HI HA.
  assert (AD : forall i j, addr A [i; j] = dbase A + i * s0 + j * s1).
  { intros. unfold addr. rewrite Hs. simpl. lia. }
  assert (HA2 : forall i j, 0 <= i < r -> 0 <= j < c -> h (addr A [i; j]) = Some (a [i; j])).
  { intros. apply HA. rewrite Hd. apply inb2. auto. }
  assert (HI2 : forall i j i' j', 0 <= i < r -> 0 <= j < c -> 0 <= i' < r -> 0 <= j' < c ->
     addr A [i; j] = addr A [i'; j'] -> i = i' /\ j = j').
  { intros i j i' j' H1 H2 H3 H4 E. assert (E2 : [i; j] = [i'; j']).
    { apply HI; auto; rewrite Hd; apply inb2; auto. }
    injection E2; auto. }
  split; intros Hk.
  - unfold la_scale_row, tdim, tstride. rewrite Hd, Hs. simpl nth.
    destruct (fscal_spec c alpha (addr A [k; 0]) s1 h (fun j => a [k; j]) P1) as (h' & E & H1 & H2).
    { intros j Hj. replace (addr A [k; 0] + j * s1) with (addr A [k; j]) by (rewrite !AD; lia). auto. }
    exists h'. split; auto. split.
    + intros i j Hi Hj. destruct (Z.eqb_spec i k) as [->|Hne].
      * replace (addr A [k; j]) with (addr A [k; 0] + j * s1) by (rewrite !AD; lia). auto.
      * rewrite H2; auto. intros (j' & Hj' & Ej).
        replace (addr A [k; 0] + j' * s1) with (addr A [k; j']) in Ej by (rewrite !AD; lia).
        apply HI2 in Ej; tauto.
    + intros z Hz. apply H2. intros (j & Hj & ->). apply Hz. exists [k; j].
      split; [rewrite Hd; apply inb2; auto|]. rewrite !AD; lia.
  - unfold la_scale_column, tdim, tstride. rewrite Hd, Hs. simpl nth.
    destruct (fscal_spec r alpha (addr A [0; k]) s0 h (fun i => a [i; k]) P0) as (h' & E & H1 & H2).
    { intros i Hi. replace (addr A [0; k] + i * s0) with (addr A [i; k]) by (rewrite !AD; lia). auto. }
    exists h'. split; auto. split.
    + intros i j Hi Hj. destruct (Z.eqb_spec j k) as [->|Hne].
      * replace (addr A [i; k]) with (addr A [0; k] + i * s0) by (rewrite !AD; lia). auto.
      * rewrite H2; auto. intros (j' & Hj' & Ej).
        replace (addr A [0; k] + j' * s0) with (addr A [j'; k]) in Ej by (rewrite !AD; lia).
        apply HI2 in Ej; tauto.
    + intros z Hz. apply H2. intros (j & Hj & ->). apply Hz. exists [j; k].
      split; [rewrite Hd; apply inb2; auto|]. rewrite !AD; lia.
Qed.

Example C22_case :
  let A := mkDesc 0 [2; 3] [4; 1] in
  let h := fun z => if (0 <=? z) && (z <? 8) then Some z else None in
  match @la_scale_row ZOps 1 10 A h, @la_scale_column ZOps 2 10 A h with
  | Ok h1, Ok h2 => map h1 [0;1;2;3;4;5;6;7] = map Some [0;1;2;3;40;50;60;7] /\
                    map h2 [0;1;2;3;4;5;6;7] = map Some [0;1;20;3;4;5;60;7]
  | _, _ => False
  end.
Proof. split; reflexivity. Qed.

(** C23: [dot] is the sum of the products of corresponding elements, for
    contiguous tensors ([full_view_of_underlying], flags [fA fB]) and for
    arbitrarily strided views.  The three-operand form is only right for
    contiguous operands, see below. *)
Theorem C23_dot :
  forall (O : Ops), is_ring O ->
  forall (fA fB : bool) (A B : desc) (a b : list Z -> car O) (h : heap (car O)),
    ddims A <> [] -> nonneg (ddims A) -> ddims B = ddims A ->
    (fA = true -> contiguous A) -> (fB = true -> contiguous B) ->
    (forall s, In s (dstrides A) -> 0 <= s) -> (forall s, In s (dstrides B) -> 0 <= s) ->
    length (dstrides A) = length (ddims A) -> length (dstrides B) = length (ddims B) ->
    holds h A a -> holds h B b ->
    la_dot fA fB A B h = Ok (lsum (indices (ddims A)) (fun idx => omul (a idx) (b idx))).
Proof.
  intros. apply la_dot_spec; auto; intros; apply contiguous_rowmaj; auto.
Qed.

(** Three operands, any schedule of the parallel reduction. *)
Theorem C23_dot3_partial :
  forall (O : Ops), is_ring O ->
  forall (sched : Z -> list (list Z)) (A B C : desc) (a b c : list Z -> car O) (h : heap (car O)),
    (forall n, Permutation (concat (sched n)) (zrange n)) ->
    ddims A <> [] -> nonneg (ddims A) -> ddims B = ddims A -> ddims C = ddims A ->
    contiguous A -> contiguous B -> contiguous C ->
    holds h A a -> holds h B b -> holds h C c ->
    la_dot3 sched A B C h
      = Ok (lsum (indices (ddims A)) (fun idx => omul (omul (a idx) (b idx)) (c idx))).
Proof.
  intros O HR sched A B C a b c h HS Hne HN HB HC CA CB CC HA HHB HHC.
  apply contiguous_rowmaj in CA. apply contiguous_rowmaj in CB. apply contiguous_rowmaj in CC.
  unfold la_dot3. rewrite fold_mul_zprod, Z.mul_1_l.
  rewrite view_flat by auto. simpl bind.
  assert (EB : view_ctor B [zprod (ddims A)] None None = Ok (mkDesc (dbase B) [zprod (ddims A)] [1])).
  { rewrite <- HB. apply view_flat; auto; congruence. }
  assert (EC : view_ctor C [zprod (ddims A)] None None = Ok (mkDesc (dbase C) [zprod (ddims A)] [1])).
  { rewrite <- HC. apply view_flat; auto; congruence. }
  rewrite EB. simpl bind. rewrite EC. simpl bind.
  set (sti := fun n => sentinel_to_indices n (row_major_strides (ddims A))).
  rewrite (omp_sum_spec HR) with (l := zrange (zprod (ddims A)))
    (g := fun n => omul (omul (a (sti n)) (b (sti n))) (c (sti n))).
  - simpl bind. rewrite (lsum_flat HR) by auto. reflexivity.
  - apply HS.
  - intros n Hn. apply zrange_in in Hn.
    assert (SB : forall (bb : Z), subscript (mkDesc bb [zprod (ddims A)] [1]) [n] = bb + n * 1).
    { intros. rewrite subscript_inb by (apply inb1; auto). unfold addr. simpl. lia. }
    rewrite !SB. simpl.
    rewrite (rowmaj_holds_flat _ h A a) by auto.
    rewrite (rowmaj_holds_flat _ h B b) by (auto; rewrite ?HB; auto).
    rewrite (rowmaj_holds_flat _ h C c) by (auto; rewrite ?HC; auto).
    rewrite HB, HC. reflexivity.
Qed.

(** First column of a 2 x 2 matrix (1,2;3,4), three times: 1+27 = 28 expected,
    1+8 = 9 returned. *)
Theorem C23_dot3_refuted :
  exists (A : desc) (a : list Z -> Z) (h : heap Z) (r : Z),
    inj A /\ @holds Z h A a /\ @la_dot3 ZOps (fun n => [zrange n]) A A A h = Ok r /\
    r <> @lsum ZOps _ (indices (ddims A)) (fun idx => a idx * a idx * a idx).
Proof.
  exists (mkDesc 0 [2; 1; 1] [2; 1; 1]), (fun i => 2 * hd 0 i + 1).
  exists (fun z => if (0 <=? z) && (z <? 4) then Some (z + 1) else None). exists 9.
  assert (V : forall x, inb x [2; 1; 1] -> x = [0; 0; 0] \/ x = [1; 0; 0]).
  { intros x Hx. assert (HL := inb_length _ _ Hx). destruct x as [|i [|j [|k [|]]]]; try discriminate.
    rewrite !inb_cons in Hx. assert (j = 0) by lia. assert (k = 0) by lia. subst.
    assert (i = 0 \/ i = 1) as [-> | ->] by lia; auto. }
  split.
  { intros x y Hx Hy E. apply V in Hx as [-> | ->]; apply V in Hy as [-> | ->]; auto; discriminate. }
  split. { intros x Hx. apply V in Hx as [-> | ->]; reflexivity. }
  split; [reflexivity|]. vm_compute. discriminate.
Qed.

Example C23_case :
  let A := mkDesc 0 [2; 2] [4; 2] in let B := tensor_ctor 10 [2; 2] in
  let h := fun z => if (0 <=? z) && (z <? 20) then Some z else None in
  @la_dot ZOps false true A B h = Ok (0 * 10 + 2 * 11 + 4 * 12 + 6 * 13).
Proof. reflexivity. Qed.

(** ** C24: determinant *)

Section DetLower.
  Context {O : Ops} (HR : is_ring O).
  Add Ring DetRing : (ir_rt O HR).

  Lemma nsum_first : forall n (f : nat -> car O), (forall j, (0 < j < S n)%nat -> f j = o0) -> nsum (S n) f = f 0%nat.
  Proof.
    induction n as [|n IH]; intros f H.
    - simpl. ring.
    - change (oadd (nsum (S n) f) (f (S n)) = f 0%nat). rewrite IH by (intros; apply H; lia).
      rewrite (H (S n)) by lia. ring.
  Qed.

  Lemma det_lower : forall n (m : nat -> nat -> car O),
    (forall i j, (i < j)%nat -> (j < n)%nat -> m i j = o0) ->
    determinant n m = fold_right (fun i acc => omul (m i i) acc) o1 (seq 0 n).
  Proof.
    induction n as [|n IH]; intros m H; [reflexivity|].
    change (nsum (S n) (fun j => omul (if Nat.even j then o1 else oopp o1) (omul (m 0%nat j) (determinant n (minor m j))))
      = omul (m 0%nat 0%nat) (fold_right (fun i acc => omul (m i i) acc) o1 (seq 1 n))).
    rewrite nsum_first.
    - simpl Nat.even. cbv iota. rewrite IH.
      + rewrite <- seq_shift.
        assert (G : forall l, fold_right (fun i acc => omul (minor m 0 i i) acc) o1 l
                   = fold_right (fun i acc => omul (m i i) acc) o1 (map S l)).
        { induction l as [|x l IHl]; simpl; auto. rewrite IHl. reflexivity. }
        rewrite G. ring.
      + intros i j Hij Hj. unfold minor. simpl. apply H; lia.
    - intros j Hj. rewrite H by lia. ring.
  Qed.

  Lemma fold_prod : forall (l : list nat) (g : nat -> car O) acc,
    fold_left (fun s i => omul s (g i)) l acc = omul acc (fold_right (fun i s => omul (g i) s) o1 l).
  Proof.
    induction l as [|x l IH]; intros g acc; simpl; [ring|]. rewrite IH. ring.
  Qed.
End DetLower.

Lemma det_chain_stuck : forall n p i, valid_pivots n p -> 0 <= i ->
  forall fuel curr tp, i + 1 < curr <= n -> det_chain fuel p i curr tp = None.
Proof.
  intros n p i (HL & HV) Hi fuel. induction fuel as [|f IH]; intros curr tp Hc; simpl; auto.
  destruct (Z.eqb_spec curr (i + 1)); [lia|]. destruct (Z.ltb_spec curr (i + 1)); [lia|].
  destruct (nth_error p (Z.to_nat (curr - 1))) as [c|] eqn:E.
  - apply IH. specialize (HV (curr - 1) ltac:(lia)). apply nth_error_nth with (d := 0) in E. lia.
  - apply nth_error_None in E. lia.
Qed.

Lemma det_parity_iff : forall n p l fuel par, valid_pivots n p -> (0 < fuel)%nat -> (forall i, In i l -> 0 <= i < n) ->
  (forall i, In i l -> nth (Z.to_nat i) p 0 = i + 1) /\ det_parity fuel p l par = Some (Ok par)
  \/ (exists i, In i l /\ nth (Z.to_nat i) p 0 <> i + 1) /\ det_parity fuel p l par = None.
Proof.
  intros n p l fuel par HV Hf. revert par. induction l as [|i r IH]; intros par Hin; simpl.
  - left. split; [tauto|auto].
  - assert (Hi := Hin i (or_introl eq_refl)). destruct HV as (HL & HV).
    destruct (nth_error p (Z.to_nat i)) as [c|] eqn:E; [|apply nth_error_None in E; lia].
    assert (Ec := nth_error_nth p (Z.to_nat i) 0 E). assert (HVi := HV i Hi). rewrite Ec in HVi.
    destruct (Z.eq_dec c (i + 1)) as [->|Hne].
    + destruct fuel as [|f]; [lia|]. cbn [det_chain]. rewrite Z.eqb_refl.
      replace (par + 0) with par by lia.
      destruct (IH par ltac:(intros; apply Hin; simpl; auto)) as [(G1 & G2)|((j & G1 & G2) & G3)].
      * left. split; auto. intros j [<-|Hj]; auto.
      * right. split; auto. exists j. auto.
    + right. rewrite (det_chain_stuck n p i (conj HL HV)) by lia. split; auto.
      exists i. split; auto. lia.
Qed.

(** [det] of a square matrix that LAPACK found nonsingular ([info] = 0) returns
    exactly when LAPACK exchanged no rows: with any row exchange the loop over
    the pivots never ends. *)
Theorem C24_det_terminates_iff_no_interchange :
  forall (O : Ops) (A : desc) (n : Z) (a : list Z -> car O) (pivots : list Z) (h : heap (car O)),
    0 <= n -> ddims A = [n; n] -> holds h A a -> valid_pivots n pivots ->
    ((exists fuel r, la_det fuel 0 pivots A h = Some r) <-> no_interchange n pivots).
Proof.
  intros O A n a p h Hn Hd HA HV.
  assert (ED : tdim A 0 = n /\ tdim A 1 = n) by (unfold tdim; rewrite Hd; auto). destruct ED as (E0 & E1).
  split.
  - intros (fuel & r & E) i Hi. unfold la_det in E. rewrite E0, E1, Z.eqb_refl in E. simpl in E.
    destruct fuel as [|f].
    + exfalso. destruct HV as (HL & HV).
      assert (zrange n <> []) by (intros Ez; assert (In i (zrange n)) by (apply zrange_in; auto); rewrite Ez in *; auto).
      destruct (zrange n) as [|j l] eqn:Ez; [congruence|].
      assert (Hj : 0 <= j < n) by (apply zrange_in; rewrite Ez; simpl; auto).
      simpl in E. destruct (nth_error p (Z.to_nat j)) eqn:En; [discriminate|].
      apply nth_error_None in En. lia.
    + destruct (det_parity_iff n p (zrange n) (S f) 0 HV ltac:(lia)) as [(G1 & G2)|(G1 & G2)].
      * intros j Hj. apply zrange_in. auto.
      * apply G1. apply zrange_in. auto.
      * rewrite G2 in E. discriminate.
  - intros HI. exists 1%nat. eexists. unfold la_det. rewrite E0, E1, Z.eqb_refl. simpl.
    destruct (det_parity_iff n p (zrange n) 1%nat 0 HV ltac:(lia)) as [(G1 & G2)|((i & G0 & G1) & G2)].
    + intros j Hj. apply zrange_in. auto.
    + rewrite G2. reflexivity.
    + apply zrange_in in G0. elim G1. apply HI. auto.
Qed.

(** What it then returns: right for lower triangular matrices.  Full
    statement: the determinant of every matrix; refuted below. *)
Theorem C24_det_partial :
  forall (O : Ops), is_ring O ->
  forall (A : desc) (n : Z) (a : list Z -> car O) (pivots : list Z) (h : heap (car O)),
    0 <= n -> ddims A = [n; n] -> holds h A a -> valid_pivots n pivots -> no_interchange n pivots ->
    (forall i j, 0 <= i < j -> j < n -> a [i; j] = o0) ->
    forall fuel, (0 < fuel)%nat ->
    la_det fuel 0 pivots A h
      = Some (Ok (determinant (Z.to_nat n) (fun i j => a [Z.of_nat i; Z.of_nat j]))).
Proof.
  intros O HR A n a p h Hn Hd HA HV HI HT fuel Hf.
  assert (ED : tdim A 0 = n /\ tdim A 1 = n) by (unfold tdim; rewrite Hd; auto). destruct ED as (E0 & E1).
  unfold la_det. rewrite E0, E1, Z.eqb_refl. simpl negb. cbv iota. simpl Z.ltb. cbv iota.
  destruct (det_parity_iff n p (zrange n) fuel 0 HV Hf) as [(G1 & G2)|((i & G0 & G1) & G2)].
  { intros j Hj. apply zrange_in. auto. }
  2:{ apply zrange_in in G0. elim G1. apply HI. auto. }
  rewrite G2. f_equal.
  destruct (pfold_pure (car O) Z (car O) (fun _ => True) (fun _ => True) (zrange n)
    (fun ret i => PRd (subscript A [i; i]) (fun v => PRet (omul ret v)))
    (fun ret i => omul ret (a [i; i])) h) with (s := @o1 O) as (_ & E).
  { intros s i Hi. apply zrange_in in Hi. assert (HIb : inb [i; i] (ddims A)) by (rewrite Hd; apply inb2; auto).
    rewrite subscript_inb by auto. simpl. rewrite (HA _ HIb). split; auto. split; auto. eauto. }
  rewrite E. simpl. f_equal.
  rewrite (det_lower HR).
  - unfold zrange.
    assert (G : forall l acc, fold_left (fun ret i => omul ret (a [i; i])) (map Z.of_nat l) acc
      = fold_left (fun ret i => omul ret (a [Z.of_nat i; Z.of_nat i])) l acc).
    { induction l as [|x l IHl]; intros acc; simpl; auto. }

    rewrite G, (fold_prod HR _ (fun i => a [Z.of_nat i; Z.of_nat i])).
    f_equal. apply (Rmul_1_l (ir_rt O HR)).
  - intros i j Hij Hj. apply HT; lia.
Qed.

(** (1 1; 1 2) has determinant 1 and is factored without row exchanges; the
    code returns the product of its own diagonal, 2. *)
Theorem C24_det_value_refuted :
  exists (A : desc) (a : list Z -> Z) (pivots : list Z) (h : heap Z) (l u : Z -> Z -> Z) (r : Z),
    ddims A = [2; 2] /\ @holds Z h A a /\ valid_pivots 2 pivots /\ no_interchange 2 pivots /\
    @lu_factors ZOps 2 (fun i j => a [j; i]) l u /\
    @la_det ZOps 10 0 pivots A h = Some (Ok r) /\
    r <> @determinant ZOps 2 (fun i j => a [Z.of_nat i; Z.of_nat j]).
Proof.
  exists (tensor_ctor 0 [2; 2]), (fun i => match i with [1; 1] => 2 | _ => 1 end), [1; 2].
  exists (fun z => if (0 <=? z) && (z <? 3) then Some 1 else if z =? 3 then Some 2 else None).
  exists (fun i j => if (i =? 0) && (j =? 1) then 0 else 1), (fun i j => if (i =? 1) && (j =? 0) then 0 else 1).
  exists 2.
  assert (V : forall i : Z, 0 <= i < 2 -> i = 0 \/ i = 1) by lia.
  split; [reflexivity|]. split.
  { intros x Hx. simpl in Hx. apply inb2_inv in Hx as (i & j & -> & H1 & H2).
    apply V in H1 as [-> | ->]; apply V in H2 as [-> | ->]; reflexivity. }
  split. { split; [reflexivity|]. intros i Hi. apply V in Hi as [-> | ->]; simpl; lia. }
  split. { intros i Hi. apply V in Hi as [-> | ->]; reflexivity. }
  split.
  { split; [|split; [|split]].
    - intros i j Hi Hj. apply V in Hi as [-> | ->]; apply V in Hj as [-> | ->]; reflexivity.
    - intros i Hi. apply V in Hi as [-> | ->]; reflexivity.
    - intros i j Hi Hj. assert (i = 0) by lia. assert (j = 1) by lia. subst. reflexivity.
    - intros i j Hi Hj. assert (i = 1) by lia. assert (j = 0) by lia. subst. reflexivity. }
  split; [reflexivity|]. vm_compute. discriminate.
Qed.

(** A factorisation reported singular ([info > 0]) gives 0, whatever the pivots
    and the number of loop iterations allowed; a non-square matrix is rejected. *)
Theorem C24_singular :
  forall (O : Ops) (A : desc) (r c info : Z) (pivots : list Z) (h : heap (car O)) (fuel : nat),
    ddims A = [r; c] ->
    (r <> c -> la_det fuel info pivots A h = Some Throw) /\
    (r = c -> 0 < info -> la_det fuel info pivots A h = Some (Ok o0)).
Proof.
  intros O A r c info p h fuel Hd. unfold la_det, tdim. rewrite Hd. simpl nth. split.
  - intros H. destruct (Z.eqb_spec r c); [contradiction|reflexivity].
  - intros -> H. rewrite Z.eqb_refl. destruct (Z.ltb_spec 0 info); [reflexivity|lia].
Qed.

Example C24_case : @la_det ZOps 1 0 [1; 2] (tensor_ctor 0 [2; 2])
    (fun z => nth_error [2; 0; 7; 5] (Z.to_nat z)) = Some (Ok 10).
Proof. reflexivity. Qed.

(** Hence [det] of (0 1; 1 0), for which LAPACK exchanges the two rows
    (pivots 2, 2), never returns. *)
Theorem C24_det_termination_refuted :
  exists (A : desc) (a : list Z -> Z) (pivots : list Z) (h : heap Z),
    ddims A = [2; 2] /\ @holds Z h A a /\ a [0; 0] = 0 /\ a [0; 1] = 1 /\ a [1; 0] = 1 /\ a [1; 1] = 0 /\
    valid_pivots 2 pivots /\
    forall fuel, @la_det ZOps fuel 0 pivots A h = None.
Proof.
  exists (tensor_ctor 0 [2; 2]), (fun i => if hd 0 i =? nth 1 i 0 then 0 else 1), [2; 2].
  exists (fun z => nth_error [0; 1; 1; 0] (Z.to_nat z)).
  assert (V : forall i : Z, 0 <= i < 2 -> i = 0 \/ i = 1) by lia.
  assert (HV : valid_pivots 2 [2; 2]).
  { split; [reflexivity|]. intros i Hi. apply V in Hi as [-> | ->]; simpl; lia. }
  split; [reflexivity|]. split.
  { intros x Hx. simpl in Hx. apply inb2_inv in Hx as (i & j & -> & H1 & H2).
    apply V in H1 as [-> | ->]; apply V in H2 as [-> | ->]; reflexivity. }
  repeat (split; [reflexivity|]). split; [exact HV|].
  intros fuel. unfold la_det. simpl negb. cbv iota. simpl Z.ltb. cbv iota.
  change (zrange (tdim (tensor_ctor 0 [2; 2]) 0)) with [0; 1].
  assert (E := det_chain_stuck 2 [2; 2] 0 HV ltac:(lia) fuel 2 0 ltac:(lia)).
  cbn [det_parity]. change (nth_error [2; 2] (Z.to_nat 0)) with (Some 2). cbv beta iota. rewrite E. reflexivity.
Qed.

(** ** C46: [symm_gemm] computes op(B)^T op(A) op(B). *)
Theorem C46_symm_gemm :
  forall (O : Ops), is_ring O ->
  forall (TransA TransB : bool) (A B C : desc) (m n lda ldb ldc tmp : Z) (a b c : list Z -> car O) (h : heap (car O)),
    0 <= m -> 0 <= n ->
    mat A n n lda -> (if TransB then mat B m n ldb else mat B n m ldb) -> mat C m m ldc ->
    holds h A a -> holds h B b -> holds h C c -> disj C A -> disj C B ->
    (forall z, tmp <= z < tmp + n * m -> h z = None) ->
    exists h', la_symm_gemm TransA TransB A B C tmp h = Ok h' /\
      (forall i j, 0 <= i < m -> 0 <= j < m ->
         h' (addr C [i; j]) = Some (zsum n (fun p => omul (op TransB b p i)
              (zsum n (fun q => omul (op TransA a p q) (op TransB b q j)))))) /\
      (forall z, ~ cell C z -> ~ (tmp <= z < tmp + n * m) -> h' z = h z).
Proof.
  intros O HR TA TB A B C m n lda ldb ldc tmp a b c h Hm Hn MA MB MC HA HB HC DA DB Hfr.
  assert (MA' := MA). destruct MA' as (EdA & EsA & EA). assert (MC' := MC). destruct MC' as (EdC & EsC & EC).
  assert (EdB : ddims B = if TB then [m; n] else [n; m]) by (destruct TB; destruct MB as (E & _); auto).
  unfold la_symm_gemm.
  replace (if TA then tdim A 1 else tdim A 0) with n by (unfold tdim; rewrite EdA; destruct TA; auto).
  replace (if TB then tdim B 0 else tdim B 1) with m by (unfold tdim; rewrite EdB; destruct TB; auto).
  destruct (exec_w (list Z) (indices (ddims C)) (addr C) (fun _ => @o0 O)
    (fun idx => PWr (subscript C idx) o0 (PRet tt)) h) as (h1 & E1 & H1 & F1).
  { apply NoDup_addrs. eapply mat_inj; eauto. }
  { intros idx h1 Hi Hag. apply in_indices in Hi. rewrite subscript_inb by auto.
    apply wtask_wr with (w := c idx); auto. rewrite Hag by auto. apply HC. auto. }
  rewrite E1. simpl bind.
  assert (F1' : forall z, ~ cell C z -> h1 z = h z).
  { intros z Hz. apply F1. rewrite owned_cells. auto. }
  set (temp := tensor_ctor tmp [n; m]).
  assert (Edt : data_size [n; m] = n * m) by (rewrite data_size_eq by discriminate; simpl; lia).
  rewrite Edt.
  set (h2 := alloc_buffer o0 tmp (n * m) h1).
  assert (B2 : forall z, ~ (tmp <= z < tmp + n * m) -> h2 z = h1 z).
  { intros z Hz. unfold h2, alloc_buffer. destruct (Z.leb_spec tmp z); destruct (Z.ltb_spec z (tmp + n * m)); simpl; auto; lia. }
  assert (B3 : forall z, tmp <= z < tmp + n * m -> h2 z = Some o0).
  { intros z Hz. unfold h2, alloc_buffer. destruct (Z.leb_spec tmp z); destruct (Z.ltb_spec z (tmp + n * m)); simpl; auto; lia. }
  assert (OutS : forall z v, h z = Some v -> ~ (tmp <= z < tmp + n * m)).
  { intros z v Hz Hr. rewrite Hfr in Hz by auto. discriminate. }
  assert (H2A : holds h2 A a).
  { intros idx Hi. assert (G := HA idx Hi). rewrite B2 by eauto. rewrite F1'; auto.
    intros (q & Hq & Eq). symmetry in Eq. revert Eq. apply DA; auto. }
  assert (H2B : holds h2 B b).
  { intros idx Hi. assert (G := HB idx Hi). rewrite B2 by eauto. rewrite F1'; auto.
    intros (q & Hq & Eq). symmetry in Eq. revert Eq. apply DB; auto. }
  assert (H2C : holds h2 C (fun _ => o0)).
  { intros idx Hi. assert (G := HC idx Hi). rewrite B2 by eauto. apply H1. apply in_indices. auto. }
  assert (CT : forall z, cell temp z -> tmp <= z < tmp + n * m).
  { intros z (idx & Hi & ->). simpl in Hi. apply inb2_inv in Hi as (i & j & -> & H3 & H4).
    unfold addr, temp. simpl. nia. }
  assert (FR : forall h3, (forall z, ~ cell C z -> ~ cell temp z -> h3 z = h2 z) ->
     forall z, ~ cell C z -> ~ (tmp <= z < tmp + n * m) -> h3 z = h z).
  { intros h3 H3 z Hz1 Hz2. rewrite H3 by auto. rewrite B2, F1' by auto. reflexivity. }
  assert (tdT : tdim temp 0 = n /\ tdim temp 1 = m) by (split; reflexivity). destruct tdT as (tdT0 & tdT1).
  assert (tdC : tdim C 0 = m /\ tdim C 1 = m) by (unfold tdim; rewrite EdC; auto). destruct tdC as (tdC0 & tdC1).
  destruct (Z.eq_dec m 0) as [Em|Em]; [|destruct (Z.eq_dec n 0) as [En|En]].
  - assert (G1 : la_gemm TA TB o1 A B o0 temp h2 = Ok h2).
    { unfold la_gemm, vgemm. rewrite tdT0, tdT1, Em, orb_true_r. reflexivity. }
    assert (G2 : la_gemm (negb TB) false o1 B temp o0 C h2 = Ok h2).
    { unfold la_gemm, vgemm. rewrite tdC0, Em. reflexivity. }
    rewrite G1. simpl bind. exists h2. split; auto. split; [intros; lia|]. apply FR; auto.
  - assert (G1 : la_gemm TA TB o1 A B o0 temp h2 = Ok h2).
    { unfold la_gemm, vgemm. rewrite tdT0, En. reflexivity. }
    assert (G2 : la_gemm (negb TB) false o1 B temp o0 C h2 = Ok h2).
    { unfold la_gemm, vgemm.
      replace (if negb TB then tdim B 0 else tdim B 1) with 0 by (unfold tdim; rewrite EdB, En; destruct TB; auto).
      rewrite orb_true_r. reflexivity. }
    rewrite G1. simpl bind. exists h2. split; auto. split.
    + intros i j Hi Hj. rewrite En, zsum_empty. apply H2C. rewrite EdC. apply inb2. auto.
    + apply FR; auto.
  - assert (MT : mat temp n m m).
    { unfold temp, tensor_ctor. repeat split; simpl; rewrite ?rms_cons, ?rms_nil; simpl; try lia. f_equal. lia. }
    assert (DT : forall d f, holds h d f -> disj temp d).
    { intros d f Hd x y Hx Hy E. assert (G := Hd y Hy). apply (OutS (addr d y) _ G). rewrite <- E.
      apply CT. exists x. auto. }
    destruct (la_gemm_nolaw TA TB o1 o0 A B temp n m n lda ldb m a b (fun _ => o0) h2) as (h3 & G1 & V3 & F3); auto; try lia.
    { destruct TA; auto. }
    { intros idx Hi. apply B3. apply CT. exists idx. auto. }
    { eapply DT; eauto. } { eapply DT; eauto. }
    rewrite G1. simpl bind.
    assert (H3B : holds h3 B b).
    { intros idx Hi. rewrite F3; [apply H2B; auto|]. intros Hc. apply CT in Hc. revert Hc. eapply OutS. apply HB. auto. }
    assert (H3C : holds h3 C (fun _ => o0)).
    { intros idx Hi. rewrite F3; [apply H2C; auto|]. intros Hc. apply CT in Hc. revert Hc. eapply OutS. apply HC. auto. }
    set (t := fun idx => match idx with
                         | [i; j] => zsum n (fun q => omul (op TA a i q) (op TB b q j))
                         | _ => @o0 O end).
    assert (R := ir_rt O HR).
    assert (H3T : holds h3 temp t).
    { intros idx Hi. simpl in Hi. apply inb2_inv in Hi as (i & j & -> & Hi & Hj). rewrite V3 by auto.
      rewrite (updv_ring HR), (gemm_val HR). f_equal. rewrite (omul_0_l HR), (Rmul_1_l R), (Radd_comm R), (Radd_0_l R).
      unfold t, op, opi. destruct TA, TB; reflexivity. }
    destruct (la_gemm_nolaw (negb TB) false o1 o0 B temp C m m n ldb m ldc b t (fun _ => o0) h3)
      as (h4 & G2 & V4 & F4); auto; try lia.
    { destruct TB; auto. }
    { intros x y Hx Hy E. symmetry in E. revert E. apply (DT C c HC); auto. }
    exists h4. split; auto. split.
    + intros i j Hi Hj. rewrite V4 by auto. rewrite (updv_ring HR), (gemm_val HR). f_equal.
      rewrite (omul_0_l HR), (Rmul_1_l R), (Radd_comm R), (Radd_0_l R).
      apply zsum_ext. intros p Hp. unfold op, opi, t. destruct TB; reflexivity.
    + apply FR. intros z Hz1 Hz2. rewrite F4, F3; auto.
Qed.

Example C46_case :
  let A := tensor_ctor 0 [2; 2] in let B := tensor_ctor 10 [2; 1] in let C := tensor_ctor 20 [1; 1] in
  let h := fun z => if ((0 <=? z) && (z <? 4)) || ((10 <=? z) && (z <? 12)) || (z =? 20) then Some z else None in
  match @la_symm_gemm ZOps false false A B C 30 h with
  | Ok h' => h' 20 = Some (10 * (0 * 10 + 1 * 11) + 11 * (2 * 10 + 3 * 11))
  | _ => False
  end.
Proof. reflexivity. Qed.

Print Assumptions C19_gemm_partial.
Print Assumptions C19_empty_sum_refuted.
Print Assumptions C19_column_stride_refuted.
Print Assumptions C20_gemv_partial.
Print Assumptions C20_empty_sum_refuted.
Print Assumptions C20_ger.
Print Assumptions C20_ger_rejects.
Print Assumptions C21_scale_partial.
Print Assumptions C21_axpby_partial.
Print Assumptions C21_scale_refuted.
Print Assumptions C21_axpy_refuted.
Print Assumptions C22_scale_row_column.
Print Assumptions C23_dot.
Print Assumptions C23_dot3_partial.
Print Assumptions C23_dot3_refuted.
Print Assumptions C24_det_terminates_iff_no_interchange.
Print Assumptions C24_det_partial.
Print Assumptions C24_singular.
Print Assumptions C24_det_value_refuted.
Print Assumptions C24_det_termination_refuted.
Print Assumptions C46_symm_gemm.
