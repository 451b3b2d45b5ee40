(** * L_Lapack: memory lemmas for the LAPACK wrappers, matrix algebra. *)
From Coq Require Import List ZArith Lia Bool Ring.
From Verif Require Import Base Heap Conc M_Addr L_Addr M_Elt L_Elt M_Einsum S_Einsum M_Blas S_Blas L_Blas
  M_Lapack S_Lapack.
Import ListNotations.
Open Scope Z_scope.

(** Cells of a Fortran array. *)
Definition fcell (a m n ld z : Z) : Prop := exists i j, 0 <= i < m /\ 0 <= j < n /\ z = a + i + j * ld.

Lemma mul_sep : forall ld i i' j j', 0 <= i < ld -> 0 <= i' < ld -> i + j * ld = i' + j' * ld -> i = i' /\ j = j'.
Proof. intros. assert (j = j') by nia. subst. split; auto. lia. Qed.

Lemma in_idx2 : forall m n ij, In ij (indices [m; n]) -> exists i j, ij = [i; j] /\ 0 <= i < m /\ 0 <= j < n.
Proof. intros. apply in_indices, inb2_inv in H as (i & j & -> & H1 & H2). eauto. Qed.
Lemma idx2_in : forall m n i j, 0 <= i < m -> 0 <= j < n -> In [i; j] (indices [m; n]).
Proof. intros. apply in_indices, inb2; auto. Qed.

Lemma NoDup_idx2 : forall m n (ad : list Z -> Z),
  (forall i j i' j', 0 <= i < m -> 0 <= j < n -> 0 <= i' < m -> 0 <= j' < n ->
     ad [i; j] = ad [i'; j'] -> i = i' /\ j = j') ->
  NoDup (map ad (indices [m; n])).
Proof.
  intros m n ad H.
  assert (G : forall l, NoDup l -> incl l (indices [m; n]) -> NoDup (map ad l)).
  { induction l as [|x l IH]; intros ND HI; simpl; [constructor|].
    inversion ND; subst. constructor.
    - intros Hin. apply in_map_iff in Hin as (y & Ey & Hy).
      assert (Hx := HI x (or_introl eq_refl)). assert (Hy' := HI y (or_intror Hy)).
      apply in_idx2 in Hx as (i & j & -> & Hi & Hj). apply in_idx2 in Hy' as (i' & j' & -> & Hi' & Hj').
      destruct (H i' j' i j) as (-> & ->); auto.
    - apply IH; auto. intros z Hz. apply HI. now right. }
  apply G; [apply indices_NoDup|apply incl_refl].
Qed.

Lemma forM_zrange_inv : forall S (P : Z -> S -> Prop) (body : Z -> S -> res S) n s,
  0 <= n -> P 0 s ->
  (forall i s, 0 <= i < n -> P i s -> exists s', body i s = Ok s' /\ P (i + 1) s') ->
  exists s', forM (zrange n) body s = Ok s' /\ P n s'.
Proof.
  intros S P body n s Hn H0 HS. revert HS. pattern n. revert n Hn. apply natlike_ind.
  - intros _. exists s. split; auto.
  - intros n Hn IH HS. change (Z.succ n) with (n + 1). rewrite zrange_succ by lia.
    destruct IH as (s1 & E & P1). { intros. apply HS; auto. lia. }
    destruct (HS n s1) as (s2 & E2 & P2); auto; [lia|].
    exists s2. rewrite forM_app, E. simpl. rewrite E2. simpl. auto.
Qed.

Section Mem.
  Context {O : Ops}.
  Notation T := (car O).
  Implicit Types (h : heap T) (f : Z -> Z -> T).

  Lemma farr_addr : forall a m n ld i j, addr (farr a m n ld) [i; j] = a + i + j * ld.
  Proof. intros. unfold addr, farr. simpl. lia. Qed.

  Lemma fread_ok : forall m n a ld h f,
    (forall i j, 0 <= i < m -> 0 <= j < n -> h (a + i + j * ld) = Some (f i j)) ->
    exists A, fread m n a ld h = Ok A /\ agree m n A f.
  Proof.
    intros m n a ld h f H. unfold fread.
    rewrite (proj2 (forallb_forall _ _)).
    - eexists. split; [reflexivity|]. intros i j Hi Hj.
      rewrite (proj2 (Z.leb_le 0 i)), (proj2 (Z.ltb_lt i m)), (proj2 (Z.leb_le 0 j)), (proj2 (Z.ltb_lt j n)) by lia.
      simpl. now rewrite H.
    - intros x Hx. apply in_idx2 in Hx as (i & j & -> & Hi & Hj). now rewrite farr_addr, H.
  Qed.

  Lemma fread_ub : forall m n a ld h i j,
    0 <= i < m -> 0 <= j < n -> h (a + i + j * ld) = None -> fread m n a ld h = UB.
  Proof.
    intros. unfold fread. destruct (forallb _ _) eqn:E; auto.
    rewrite forallb_forall in E. specialize (E [i; j] (idx2_in _ _ _ _ H H0)).
    rewrite farr_addr, H1 in E. discriminate.
  Qed.

  Lemma fwrite_ok : forall m n a ld h f,
    m <= ld -> (forall i j, 0 <= i < m -> 0 <= j < n -> h (a + i + j * ld) <> None) ->
    exists h', fwrite m n a ld f h = Ok h' /\
      (forall i j, 0 <= i < m -> 0 <= j < n -> h' (a + i + j * ld) = Some (f i j)) /\
      (forall z, ~ fcell a m n ld z -> h' z = h z).
  Proof.
    intros m n a ld h f Hld HA. unfold fwrite.
    match goal with |- context [forM _ ?bd h] =>
      destruct (forM_cells _ T (indices [m; n]) (addr (farr a m n ld)) (fun ij => f (nth 0 ij 0) (nth 1 ij 0)) bd h)
        as (h' & E & Hv & Hf) end.
    - apply NoDup_idx2. intros i j i' j' Hi Hj Hi' Hj' E. rewrite !farr_addr in E.
      apply (mul_sep ld); lia.
    - intros ij h' Hin Hag. assert (Hin2 := Hin). apply in_idx2 in Hin as (i & j & -> & Hi & Hj).
      specialize (HA i j Hi Hj). destruct (h (a + i + j * ld)) as [v|] eqn:Ev; [|congruence].
      apply (wr_some T _ _ _ v). rewrite Hag by auto. now rewrite farr_addr.
    - exists h'. split; auto. split.
      + intros i j Hi Hj. specialize (Hv [i; j] (idx2_in _ _ _ _ Hi Hj)). rewrite farr_addr in Hv. exact Hv.
      + intros z Hz. apply Hf. intros Hin. apply in_map_iff in Hin as (ij & <- & Hin).
        apply in_idx2 in Hin as (i & j & -> & Hi & Hj). apply Hz. exists i, j. rewrite farr_addr. auto.
  Qed.

  Lemma fvwrite_ok : forall n x (h : heap T) (f : Z -> T),
    (forall i, 0 <= i < n -> h (x + i) <> None) ->
    exists h', fvwrite n x f h = Ok h' /\
      (forall i, 0 <= i < n -> h' (x + i) = Some (f i)) /\
      (forall z, ~ (x <= z < x + n) -> h' z = h z).
  Proof.
    intros n x h f HA. unfold fvwrite.
    destruct (fwrite_ok n 1 x (Z.max 1 n) h (fun i _ => f i)) as (h' & E & Hv & Hf).
    - lia.
    - intros i j Hi Hj. replace (x + i + j * Z.max 1 n) with (x + i) by nia. auto.
    - exists h'. split; auto. split.
      + intros i Hi. rewrite <- (Hv i 0) by lia. f_equal. lia.
      + intros z Hz. apply Hf. intros (i & j & Hi & Hj & ->). apply Hz. nia.
  Qed.

  Lemma fvread_ok : forall n x (h : heap T) (f : Z -> T),
    (forall i, 0 <= i < n -> h (x + i) = Some (f i)) ->
    exists v, fvread n x h = Ok v /\ vagree n v f.
  Proof.
    intros n x h f H. unfold fvread.
    destruct (fread_ok n 1 x (Z.max 1 n) h (fun i _ => f i)) as (A & E & HA).
    - intros i j Hi Hj. replace (x + i + j * Z.max 1 n) with (x + i) by nia. auto.
    - rewrite E. simpl. eexists. split; [reflexivity|]. intros i Hi. apply HA; lia.
  Qed.

  (** The transposing copy. *)
  Lemma xpose_ok : forall x y (hin : heap T) pin ldin pout ldout (hout : heap T) (f : Z -> Z -> T),
    y <= ldin -> x <= ldout ->
    (forall j i, 0 <= j < x -> 0 <= i < y -> hin (pin + j * ldin + i) = Some (f j i)) ->
    (forall j i, 0 <= j < x -> 0 <= i < y -> hout (pout + i * ldout + j) <> None) ->
    exists h', xpose x y hin pin ldin pout ldout hout = Ok h' /\
      (forall j i, 0 <= j < x -> 0 <= i < y -> h' (pout + i * ldout + j) = Some (f j i)) /\
      (forall z, ~ fcell pout x y ldout z -> h' z = hout z).
  Proof.
    intros x y hin pin ldin pout ldout hout f Hy Hx Hin Hout. unfold xpose.
    rewrite !Z.min_l by lia.
    match goal with |- context [forM _ ?bd hout] =>
      destruct (forM_cells _ T (indices [y; x]) (fun ij => pout + nth 0 ij 0 * ldout + nth 1 ij 0)
                  (fun ij => f (nth 1 ij 0) (nth 0 ij 0)) bd hout) as (h' & E & Hv & Hf) end.
    - apply NoDup_idx2. simpl. intros i j i' j' Hi Hj Hi' Hj' E.
      destruct (mul_sep ldout j j' i i'); try lia.
    - intros ij h' Hi Hag. apply in_idx2 in Hi as (i & j & -> & Hi & Hj). cbn [nth] in *.
      rewrite (rd_some _ _ _ (f j i)) by auto. simpl.
      specialize (Hout j i Hj Hi). destruct (hout (pout + i * ldout + j)) as [v|] eqn:Ev; [|congruence].
      apply (wr_some T _ _ _ v). rewrite Hag by auto. auto.
    - exists h'. split; auto. split.
      + intros j i Hj Hi. apply (Hv [i; j]). apply idx2_in; auto.
      + intros z Hz. apply Hf. intros Hi. apply in_map_iff in Hi as (ij & <- & Hi).
        apply in_idx2 in Hi as (i & j & -> & Hi & Hj). apply Hz. exists j, i. cbn [nth]. repeat split; try lia.
  Qed.

  Lemma fresh_vec_some : forall n z, 0 <= z < n -> @fresh_vec O n z = Some o0.
  Proof.
    intros. unfold fresh_vec, alloc_buffer.
    rewrite (proj2 (Z.leb_le 0 z)), (proj2 (Z.ltb_lt z (0 + n))) by lia. auto.
  Qed.

  (** Copy of a row-major matrix into a column-major temporary. *)
  Lemma xpose_in : forall m n h a lda (f : Z -> Z -> T),
    0 <= m -> 0 <= n -> n <= lda ->
    (forall i j, 0 <= i < m -> 0 <= j < n -> h (a + i * lda + j) = Some (f i j)) ->
    exists ht, xpose_row m n h a lda 0 (Z.max 1 m) (fresh_vec (Z.max 1 m * Z.max 1 n)) = Ok ht /\
      (forall i j, 0 <= i < m -> 0 <= j < n -> ht (i + j * Z.max 1 m) = Some (f i j)).
  Proof.
    intros m n h a lda f Hm Hn Hl H. unfold xpose_row.
    destruct (xpose_ok m n h a lda 0 (Z.max 1 m) (fresh_vec (Z.max 1 m * Z.max 1 n)) f) as (h' & E & Hv & _); auto; try lia.
    - intros j i Hj Hi. rewrite fresh_vec_some; [congruence|nia].
    - exists h'. split; auto. intros i j Hi Hj. rewrite <- (Hv i j) by auto. f_equal. lia.
  Qed.

  (** Read of that temporary by LAPACK. *)
  Lemma xpose_fread : forall m n h a lda (f : Z -> Z -> T),
    0 <= m -> 0 <= n -> n <= lda ->
    (forall i j, 0 <= i < m -> 0 <= j < n -> h (a + i * lda + j) = Some (f i j)) ->
    exists ht A, xpose_row m n h a lda 0 (Z.max 1 m) (fresh_vec (Z.max 1 m * Z.max 1 n)) = Ok ht /\
      fread m n 0 (Z.max 1 m) ht = Ok A /\ agree m n A f /\
      (forall i j, 0 <= i < m -> 0 <= j < n -> ht (i + j * Z.max 1 m) <> None).
  Proof.
    intros m n h a lda f Hm Hn Hl H.
    destruct (xpose_in m n h a lda f Hm Hn Hl H) as (ht & E & Hv).
    destruct (fread_ok m n 0 (Z.max 1 m) ht f) as (A & EA & HA).
    { intros i j Hi Hj. rewrite <- (Hv i j) by auto. f_equal. }
    exists ht, A. repeat split; auto. intros i j Hi Hj. rewrite Hv by auto. discriminate.
  Qed.

  (** LAPACK's result in a temporary, copied back to row-major memory. *)
  Lemma xpose_out : forall m n ht g h a lda,
    0 <= m -> 0 <= n -> n <= lda ->
    (forall i j, 0 <= i < m -> 0 <= j < n -> ht (i + j * Z.max 1 m) <> None) ->
    (forall i j, 0 <= i < m -> 0 <= j < n -> h (a + i * lda + j) <> None) ->
    exists ht' h', fwrite m n 0 (Z.max 1 m) g ht = Ok ht' /\
      xpose_col m n ht' 0 (Z.max 1 m) a lda h = Ok h' /\
      (forall i j, 0 <= i < m -> 0 <= j < n -> h' (a + i * lda + j) = Some (g i j)) /\
      (forall z, ~ fcell a n m lda z -> h' z = h z).
  Proof.
    intros m n ht g h a lda Hm Hn Hl Ht Hh. unfold xpose_col.
    destruct (fwrite_ok m n 0 (Z.max 1 m) ht g) as (ht' & E & Hv & _); [lia|auto|].
    exists ht'.
    destruct (xpose_ok n m ht' 0 (Z.max 1 m) a lda h (fun j i => g i j)) as (h' & E2 & Hv2 & Hf); auto; try lia.
    - intros j i Hj Hi. rewrite <- (Hv i j) by auto. f_equal. lia.
    - exists h'. repeat split; auto.
  Qed.

  Lemma fresh_cells : forall m n, 0 <= m -> 0 <= n ->
    forall i j, 0 <= i < m -> 0 <= j < n -> @fresh_vec O (Z.max 1 m * Z.max 1 n) (i + j * Z.max 1 m) <> None.
  Proof. intros. rewrite fresh_vec_some; [congruence|nia]. Qed.
End Mem.

(** ** Matrix algebra *)
Section Alg.
  Context {O : Ops}.
  Hypothesis HR : is_ring O.
  Notation T := (car O).
  Add Ring LRing : (ir_rt O HR).
  Implicit Types A B C U V : Z -> Z -> T.

  Lemma agree_sym : forall m n A B, agree m n A B -> agree m n B A.
  Proof. intros m n A B H i j Hi Hj. symmetry. auto. Qed.
  Lemma agree_trans : forall m n A B C, agree m n A B -> agree m n B C -> agree m n A C.
  Proof. intros m n A B C H H' i j Hi Hj. rewrite H; auto. Qed.
  Lemma agree_refl : forall m n A, agree m n A A.
  Proof. intros m n A i j Hi Hj. auto. Qed.
  Lemma agree_trn : forall m n A B, agree m n A B -> agree n m (trn A) (trn B).
  Proof. intros m n A B H i j Hi Hj. unfold trn. auto. Qed.

  Lemma mmul_ext : forall m k n A A' B B', agree m k A A' -> agree k n B B' -> agree m n (mmul k A B) (mmul k A' B').
  Proof.
    intros m k n A A' B B' HA HB i j Hi Hj. unfold mmul. apply zsum_ext. intros l Hl. rewrite HA, HB; auto.
  Qed.
  Lemma mmul_assoc : forall k l A B C i j, mmul k (mmul l A B) C i j = mmul l A (mmul k B C) i j.
  Proof.
    intros. unfold mmul, zsum.
    rewrite (lsum_ext O _ _ _ (fun p => lsum (zrange l) (fun q => omul (omul (A i q) (B q p)) (C p j)))).
    2: { intros p _. now rewrite <- (lsum_mul_r O HR). }
    rewrite (lsum_swap O HR). apply lsum_ext. intros q _.
    rewrite <- (lsum_mul_l O HR). apply lsum_ext. intros p _. ring.
  Qed.
  Lemma mmul_ident_l : forall m n A, agree m n (mmul m ident A) A.
  Proof.
    intros m n A i j Hi Hj. unfold mmul, zsum.
    rewrite (lsum_single O HR _ (zrange m) i (fun l => omul (ident i l) (A l j))).
    - unfold ident. rewrite Z.eqb_refl. ring.
    - apply zrange_NoDup.
    - now apply zrange_in.
    - intros a _ Ha. unfold ident. destruct (Z.eqb_spec i a); [congruence|ring].
  Qed.
  Lemma mmul_ident_r : forall m n A, agree m n (mmul n A ident) A.
  Proof.
    intros m n A i j Hi Hj. unfold mmul, zsum.
    rewrite (lsum_single O HR _ (zrange n) j (fun l => omul (A i l) (ident l j))).
    - unfold ident. rewrite Z.eqb_refl. ring.
    - apply zrange_NoDup.
    - now apply zrange_in.
    - intros a _ Ha. unfold ident. destruct (Z.eqb_spec a j); [congruence|ring].
  Qed.
  Lemma mmul_trn : forall k A B i j, mmul k (trn A) (trn B) i j = mmul k B A j i.
  Proof. intros. unfold mmul, trn. apply zsum_ext. intros l _. ring. Qed.
  Lemma ident_sym : forall i j, @ident O i j = ident j i.
  Proof. intros. unfold ident. rewrite Z.eqb_sym. auto. Qed.

  Lemma inverse_ext : forall n A A' B B', agree n n A A' -> agree n n B B' -> inverse n A B -> inverse n A' B'.
  Proof.
    intros n A A' B B' HA HB (H1 & H2). split.
    - eapply agree_trans; [|exact H1]. apply mmul_ext; now apply agree_sym.
    - eapply agree_trans; [|exact H2]. apply mmul_ext; now apply agree_sym.
  Qed.
  Lemma inverse_trn : forall n A B, inverse n A B -> inverse n (trn A) (trn B).
  Proof.
    intros n A B (H1 & H2). split; intros i j Hi Hj; rewrite mmul_trn, ident_sym; auto.
  Qed.
  Lemma inverse_sym : forall n A B, inverse n A B -> inverse n B A.
  Proof. intros n A B (H1 & H2). split; auto. Qed.
  Lemma orthogonal_ext : forall n A A', agree n n A A' -> orthogonal n A -> orthogonal n A'.
  Proof. intros n A A' H HO. eapply inverse_ext; eauto. now apply agree_trn. Qed.
  Lemma orthogonal_trn : forall n A, orthogonal n A -> orthogonal n (trn A).
  Proof. intros n A H. unfold orthogonal. apply inverse_sym. exact H. Qed.
End Alg.
