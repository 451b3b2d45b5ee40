(** * L_HipSolver: arrays in host memory and their copies in device memory. *)
From Coq Require Import Ascii List ZArith Lia Bool.
From Verif Require Import Base Heap Conc M_Addr M_Einsum M_Blas M_Lapack L_Lapack M_GpuLin.
From Verif Require Import M_HipBlas S_HipBlas L_HipBlas L2_HipBlas S_HipSolver.
Import ListNotations.
Open Scope Z_scope.

Section Img.
  Context {O : Ops}.
  Notation T := (car O).
  Implicit Types (host d : heap T).

  Definition img d (p : Z) host (a n : Z) : Prop :=
    forall o, 0 <= o < n -> d (p + o) = host (a + o) /\ exists x, host (a + o) = Some x.

  Lemma img_covers_d : forall d p host a n, img d p host a n -> covers d p n.
  Proof. intros d p host a n H z Hz. destruct (H (z - p)) as (E & x & X); [lia|]. exists x.
    rewrite <- X, <- E. f_equal. lia. Qed.
  Lemma img_covers_h : forall d p host a n, img d p host a n -> covers host a n.
  Proof. intros d p host a n H z Hz. destruct (H (z - a)) as (E & x & X); [lia|]. exists x.
    rewrite <- X. f_equal. lia. Qed.
  Lemma img_copy : forall host d a p n, covers host a n -> (forall z, inn p n z -> d z = host (a + (z - p))) -> img d p host a n.
  Proof. intros host d a p n C H o Ho. split; [rewrite H by (unfold inn; lia); f_equal; lia|]. apply C. lia. Qed.
  Lemma img_keep : forall d d' host host' p a n, img d p host a n ->
    (forall z, inn p n z -> d' z = d z) -> (forall z, inn a n z -> host' z = host z) -> img d' p host' a n.
  Proof. intros d d' host host' p a n H K1 K2 o Ho. rewrite K1, K2 by (unfold inn; lia). apply H. exact Ho. Qed.

  Lemma cell_in : forall m n ld sz i j : Z, m <= ld -> 0 <= n -> n * ld <= sz -> 0 <= i < m -> 0 <= j < n ->
    0 <= i + j * ld < sz.
  Proof. intros. nia. Qed.

  Lemma fread_img : forall d p host a m n ld sz, img d p host a sz -> m <= ld -> 0 <= n -> n * ld <= sz ->
    exists A B, fread m n p ld d = Ok A /\ fread m n a ld host = Ok B /\ eqm A B.
  Proof.
    intros d p host a m n ld sz H Hm Hn Hs. unfold fread.
    match goal with |- context [if ?c then Ok ?u else UB] => assert (E1 : c = true); [|rewrite E1; exists u] end.
    { apply forallb_forall. intros x Hx. apply in_idx2 in Hx as (i & j & -> & Hi & Hj). rewrite farr_addr.
      destruct (H (i + j * ld)) as (E & v & V); [eapply cell_in; eauto|]. rewrite Z.add_assoc in E. rewrite E, V. reflexivity. }
    match goal with |- context [if ?c then Ok ?u else UB] => assert (E2 : c = true); [|rewrite E2; exists u] end.
    { apply forallb_forall. intros x Hx. apply in_idx2 in Hx as (i & j & -> & Hi & Hj). rewrite farr_addr.
      destruct (H (i + j * ld)) as (E & v & V); [eapply cell_in; eauto|]. rewrite Z.add_assoc in V. rewrite V. reflexivity. }
    split; [reflexivity|]. split; [reflexivity|]. intros i j.
    destruct ((0 <=? i) && (i <? m) && (0 <=? j) && (j <? n)) eqn:G; [|reflexivity].
    rewrite !andb_true_iff, !Z.leb_le, !Z.ltb_lt in G.
    destruct (H (i + j * ld)) as (E & _); [eapply cell_in with (m := m) (n := n); eauto; lia|].
    rewrite !Z.add_assoc in E. rewrite E. reflexivity.
  Qed.

  Lemma fwrite_img : forall d p host a m n ld sz f g, img d p host a sz -> m <= ld -> 0 <= n -> n * ld <= sz -> eqm f g ->
    exists d' host', fwrite m n p ld f d = Ok d' /\ fwrite m n a ld g host = Ok host' /\ img d' p host' a sz /\
      (forall z, ~ inn p sz z -> d' z = d z) /\ (forall z, ~ inn a sz z -> host' z = host z).
  Proof.
    intros d p host a m n ld sz f g H Hm Hn Hs HE.
    destruct (fwrite_ok m n p ld d f Hm) as (d' & E1 & X1 & Y1).
    { intros i j Hi Hj. destruct (H (i + j * ld)) as (E & v & V); [eapply cell_in; eauto|]. rewrite Z.add_assoc in E. congruence. }
    destruct (fwrite_ok m n a ld host g Hm) as (host' & E2 & X2 & Y2).
    { intros i j Hi Hj. destruct (H (i + j * ld)) as (E & v & V); [eapply cell_in; eauto|]. rewrite Z.add_assoc in V. congruence. }
    exists d', host'. split; [exact E1|]. split; [exact E2|]. split.
    - intros o Ho.
      assert (D : {ij | 0 <= fst ij < m /\ 0 <= snd ij < n /\ o = fst ij + snd ij * ld} +
                  {forall i j, 0 <= i < m -> 0 <= j < n -> o <> i + j * ld}).
      { destruct (Z_le_gt_dec ld 0) as [L|L].
        { right. intros i j Hi Hj. lia. }
        assert (Q := Z.div_mod o ld ltac:(lia)). assert (R := Z.mod_pos_bound o ld ltac:(lia)).
        destruct (Z_lt_ge_dec (o mod ld) m) as [L1|L1]; [destruct (Z_lt_ge_dec (o / ld) n) as [L2|L2]|].
        - left. exists (o mod ld, o / ld). cbn [fst snd]. assert (0 <= o / ld) by (apply Z.div_pos; lia). lia.
        - right. intros i j Hi Hj E. assert (j = o / ld) by nia. lia.
        - right. intros i j Hi Hj E. assert (j = o / ld) by nia. nia. }
      destruct D as [((i & j) & Hi & Hj & ->)|D]; cbn [fst snd] in *.
      + rewrite !Z.add_assoc. rewrite X1, X2 by assumption. rewrite HE. eauto.
      + rewrite Y1, Y2; [apply H; exact Ho| |].
        * intros (i & j & Hi & Hj & E). apply (D i j Hi Hj). lia.
        * intros (i & j & Hi & Hj & E). apply (D i j Hi Hj). lia.
    - split; intros z Hz; [apply Y1|apply Y2]; intros (i & j & Hi & Hj & E); apply Hz; unfold inn;
        assert (X := cell_in m n ld sz i j Hm Hn Hs Hi Hj); lia.
  Qed.

  (** The solvers on the device and on the host. *)
  Lemma gesv_img : forall (L : @lapack O) n r pa lda pb ldb px a b d host sa sb, numeric L ->
    0 <= n -> 0 <= r -> Z.max 1 n <= lda -> Z.max 1 n <= ldb -> n * lda <= sa -> r * ldb <= sb ->
    img d pa host a sa -> img d pb host b sb -> img d px host b sb ->
    (forall z, inn pa sa z -> ~ inn px sb z) -> (forall z, inn a sa z -> ~ inn b sb z) ->
    exists info d' host', hgesv L n r pa lda pb ldb px ldb d = Ok (info, d') /\
      vgesv L n r a lda b ldb host = Ok (info, host') /\
      img d' pa host' a sa /\ img d' px host' b sb /\
      (forall z, ~ inn pa sa z -> ~ inn px sb z -> d' z = d z) /\
      (forall z, ~ inn a sa z -> ~ inn b sb z -> host' z = host z).
  Proof.
    intros L n r pa lda pb ldb px a b d host sa sb (_ & HL & _) Hn Hr La Lb Sa Sb IA IB IX DD DH.
    unfold hgesv, vgesv.
    assert (G1 : (n <? 0) || (r <? 0) || (lda <? Z.max 1 n) || (ldb <? Z.max 1 n) || (ldb <? Z.max 1 n) = false).
    { rewrite !orb_false_iff. repeat split; apply Z.ltb_ge; lia. }
    assert (G2 : (n <? 0) || (r <? 0) || (lda <? Z.max 1 n) || (ldb <? Z.max 1 n) = false).
    { rewrite !orb_false_iff. repeat split; apply Z.ltb_ge; lia. }
    rewrite G1, G2.
    destruct (fread_img d pa host a n n lda sa IA) as (A & A' & EA & EA' & QA); [lia|lia|lia|].
    destruct (fread_img d pb host b n r ldb sb IB) as (B & B' & EB & EB' & QB); [lia|lia|lia|].
    rewrite EA, EA', EB, EB'. cbn [bind]. specialize (HL n r A A' B B' QA QB).
    destruct (x_gesv L n r A B) as [[i F] X]. destruct (x_gesv L n r A' B') as [[i' F'] X']. destruct HL as (<- & QF & QX).
    destruct (fwrite_img d pa host a n n lda sa F F' IA) as (d1 & h1 & E1 & E1' & I1 & N1 & M1); [lia|lia|lia|exact QF|].
    assert (IX1 : img d1 px h1 b sb).
    { eapply img_keep; [exact IX| |].
      - intros z Hz. apply N1. intros K. exact (DD z K Hz).
      - intros z Hz. apply M1. intros K. exact (DH z K Hz). }
    destruct (fwrite_img d1 px h1 b n r ldb sb X X' IX1) as (d2 & h2 & E2 & E2' & I2 & N2 & M2); [lia|lia|lia|exact QX|].
    rewrite E1, E1'. cbn [bind]. rewrite E2, E2'. cbn [bind]. exists i, d2, h2.
    split; [reflexivity|]. split; [reflexivity|]. split.
    { eapply img_keep; [exact I1| |]; intros z Hz; [apply N2|apply M2]; auto. }
    split; [exact I2|]. split.
    { intros z K1 K2. rewrite N2, N1 by assumption. reflexivity. }
    { intros z K1 K2. rewrite M2, M1 by assumption. reflexivity. }
  Qed.

  Lemma syev_img : forall (L : @lapack O) n pa lda pw a w d host sa, numeric L ->
    0 <= n -> Z.max 1 n <= lda -> n * lda <= sa ->
    img d pa host a sa -> covers d pw n -> covers host w n ->
    (forall z, inn pa sa z -> ~ inn pw n z) -> (forall z, inn a sa z -> ~ inn w n z) ->
    exists info d' host', vsyev L n pa lda pw d = Ok (info, d') /\ vsyev L n a lda w host = Ok (info, host') /\
      img d' pa host' a sa /\ img d' pw host' w n /\
      (forall z, ~ inn pa sa z -> ~ inn pw n z -> d' z = d z) /\
      (forall z, ~ inn a sa z -> ~ inn w n z -> host' z = host z).
  Proof.
    intros L n pa lda pw a w d host sa (HL & _) Hn La Sa IA CD CH DD DH.
    unfold vsyev.
    assert (G : (n <? 0) || (lda <? Z.max 1 n) = false) by (rewrite !orb_false_iff; split; apply Z.ltb_ge; lia).
    rewrite G.
    destruct (fread_img d pa host a n n lda sa IA) as (A & A' & EA & EA' & QA); [lia|lia|lia|].
    rewrite EA, EA'. cbn [bind].
    assert (QU : eqm (upper_part A) (upper_part A')). { intros i j. unfold upper_part. rewrite QA. reflexivity. }
    specialize (HL n _ _ QU).
    destruct (x_syev L n (upper_part A)) as [[i V] W]. destruct (x_syev L n (upper_part A')) as [[i' V'] W'].
    destruct HL as (<- & QV & QW).
    destruct (fwrite_img d pa host a n n lda sa V V' IA) as (d1 & h1 & E1 & E1' & I1 & N1 & M1); [lia|lia|lia|exact QV|].
    destruct (fvwrite_ok n pw d1 W) as (d2 & E2 & X2 & Y2).
    { intros k Hk. destruct (CD (pw + k)) as (x & X); [lia|]. rewrite N1; [congruence|]. intros K. apply (DD _ K). unfold inn. lia. }
    destruct (fvwrite_ok n w h1 W') as (h2 & E3 & X3 & Y3).
    { intros k Hk. destruct (CH (w + k)) as (x & X); [lia|]. rewrite M1; [congruence|]. intros K. apply (DH _ K). unfold inn. lia. }
    rewrite E1, E1'. cbn [bind]. rewrite E2, E3. cbn [bind]. exists i, d2, h2.
    split; [reflexivity|]. split; [reflexivity|]. split.
    { eapply img_keep; [exact I1| |]; intros z Hz; [apply Y2|apply Y3]; auto. apply DD; exact Hz. apply DH; exact Hz. }
    split. { intros o Ho. rewrite X2, X3, QW by exact Ho. eauto. }
    split. { intros z K1 K2. rewrite Y2, N1 by assumption. reflexivity. }
    intros z K1 K2. rewrite Y3, M1 by assumption. reflexivity.
  Qed.

  Lemma getrf_img : forall (L : @lapack O) m n pa lda a d host sa, numeric L ->
    0 <= m -> 0 <= n -> Z.max 1 m <= lda -> n * lda <= sa -> img d pa host a sa ->
    exists info piv d' host', vgetrf L m n pa lda d = Ok (info, piv, d') /\ vgetrf L m n a lda host = Ok (info, piv, host') /\
      img d' pa host' a sa /\ (forall z, ~ inn pa sa z -> d' z = d z) /\ (forall z, ~ inn a sa z -> host' z = host z).
  Proof.
    intros L m n pa lda a d host sa (_ & _ & HL) Hm Hn La Sa IA. unfold vgetrf.
    assert (G : (m <? 0) || (n <? 0) || (lda <? Z.max 1 m) = false) by (rewrite !orb_false_iff; repeat split; apply Z.ltb_ge; lia).
    rewrite G.
    destruct (fread_img d pa host a m n lda sa IA) as (A & A' & EA & EA' & QA); [lia|lia|lia|].
    rewrite EA, EA'. cbn [bind]. specialize (HL m n A A' QA).
    destruct (x_getrf L m n A) as [[i F] p]. destruct (x_getrf L m n A') as [[i' F'] p']. destruct HL as (<- & QF & <-).
    destruct (fwrite_img d pa host a m n lda sa F F' IA) as (d1 & h1 & E1 & E1' & I1 & N1 & M1); [lia|lia|lia|exact QF|].
    rewrite E1, E1'. cbn [bind]. exists i, p, d1, h1. auto 8.
  Qed.

  Lemma st_reg : forall k p l h d lv r v i,
    hrun never k (CRegister p :: l) (mkH h d lv r v i) = hrun never (S k) l (mkH (O := O) h d lv (p :: r) v i).
  Proof. reflexivity. Qed.
  Lemma st_unreg : forall k p l h d lv r r' v i, drop_ptr p r = Some r' ->
    hrun never k (CUnregister p :: l) (mkH h d lv r v i) = hrun never (S k) l (mkH (O := O) h d lv r' v i).
  Proof. intros k p l h d lv r r' v i E. cbn [hrun hstep never h_reg]. rewrite E. reflexivity. Qed.
  Lemma dptr_hd : forall p r, drop_ptr p (p :: r) = Some r.
  Proof. intros. cbn. now rewrite Z.eqb_refl. Qed.
End Img.
