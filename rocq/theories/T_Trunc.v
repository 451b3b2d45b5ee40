(** * T_Trunc: theorems about truncated_svd, truncated_syev and heev (C88-C90). *)
From Coq Require Import List ZArith Lia Bool Ring QArith Qcanon.
From Verif Require Import Base Heap Conc M_Addr L_Addr M_Elt L_Elt M_Einsum S_Einsum M_Blas S_Blas L_Blas
  M_Lapack S_Lapack L_Lapack T_Blas T_Lapack T_Lapack2 M_Trunc S_Trunc L_Trunc.
Import ListNotations.
Open Scope Z_scope.

(** Real element types: conjugation does nothing. *)
Definition real {T : Type} (x : T) : T := x.

Section Alg.
  Context {O : Ops} (HR : is_ring O).
  Notation T := (car O).

  Lemma agree_assoc : forall r c k l (A B C : Z -> Z -> T), agree r c (mmul k (mmul l A B) C) (mmul l A (mmul k B C)).
  Proof. intros r c k l A B C i j _ _. apply (mmul_assoc HR). Qed.
  Lemma agree_assoc' : forall r c k l (A B C : Z -> Z -> T), agree r c (mmul l A (mmul k B C)) (mmul k (mmul l A B) C).
  Proof. intros r c k l A B C i j _ _. symmetry. apply (mmul_assoc HR). Qed.

  (** The projection on the columns of Q keeps what lies in the range of Q R. *)
  Lemma projected : forall m n p (A Y Q R W : Z -> Z -> T),
    orthonormal real m p Q -> agree m p Y (mmul p Q R) -> agree m n A (mmul p Y W) ->
    agree m n (mmul p Q (mmul m (trn Q) A)) A.
  Proof.
    intros m n p A Y Q R W HO HY HA.
    assert (H1 : agree m n A (mmul p Q (mmul p R W))).
    { eapply agree_trans; [exact HA|]. eapply agree_trans; [apply (mmul_ext m p n); [exact HY|apply agree_refl]|].
      apply agree_assoc. }
    eapply agree_trans; [|apply agree_sym; exact H1].
    apply (mmul_ext m p n); [apply agree_refl|].
    eapply agree_trans; [apply (mmul_ext p m n); [apply agree_refl|exact H1]|].
    eapply agree_trans; [apply agree_assoc'|].
    eapply agree_trans; [apply (mmul_ext p p n); [exact HO|apply agree_refl]|].
    apply (mmul_ident_l HR).
  Qed.
  (** Orthonormal columns times an orthogonal matrix. *)
  Lemma orthonormal_mul : forall m p (Q V : Z -> Z -> T),
    orthonormal real m p Q -> orthogonal p V -> orthonormal real m p (mmul p Q V).
  Proof.
    intros m p Q V HQ (_ & HV). unfold orthonormal. 
    eapply agree_trans; [|exact HV].
    eapply agree_trans with (B := mmul p (mmul m (mmul p (trn V) (trn Q)) Q) V).
    - eapply agree_trans; [|apply agree_assoc']. apply (mmul_ext p m p); [|apply agree_refl].
      intros i j Hi Hj. unfold ctrn, real. rewrite (mmul_trn HR). reflexivity.
    - apply (mmul_ext p p p); [|apply agree_refl].
      eapply agree_trans; [apply agree_assoc|].
      eapply agree_trans; [apply (mmul_ext p p p); [apply agree_refl|exact HQ]|]. apply (mmul_ident_r HR).
  Qed.
  Lemma orthonormal_ext : forall m p (Q V : Z -> Z -> T), agree m p Q V -> orthonormal real m p Q -> orthonormal real m p V.
  Proof.
    intros m p Q V H HQ. unfold orthonormal. eapply agree_trans; [|exact HQ]. apply agree_sym.
    apply (mmul_ext p m p); auto. intros i j Hi Hj. unfold ctrn, real. auto.
  Qed.
End Alg.

(** C88.  truncated_svd for real elements, [k + 5 <= m]: whatever the random
    matrix [om], the columns of U are orthonormal, Vt is orthogonal, S is
    nonnegative and descending, U diag(S) Vt is the projection of A on the
    columns of an orthonormal Q with A Omega = Q R, and it is A itself when the
    columns of A are combinations of those of A Omega. *)
Theorem C88_truncated_svd_partial :
  forall (O : Ops), is_ring O ->
  forall (lt : car O -> car O -> bool) (L : lapack) (A : desc) (m n k ld base : Z) (om : Z -> car O)
         (a : list Z -> car O) (h : heap (car O)),
    let p := k + 5 in
    let Y := mmul n (mx a) (fun i j => om (i * p + j)) in
    let USV := fun (u s v : list Z -> car O) i j => zsum (Z.min p n) (fun l => omul (u [i; l]) (omul (s [l]) (v [l; j]))) in
    0 < n -> 0 <= k -> p <= m -> mat A m n ld -> holds h A a ->
    (forall M, agree m p M Y -> thin_qr_contract real L m p M) ->
    (forall Q M, lapack_q L m p Y Q -> agree p n M (mmul m (trn Q) (mx a)) ->
       gesdd_contract lt L p n M /\ fst (fst (fst (fst (x_gesdd L p n M)))) = 0) ->
    (forall z, base <= z -> h z = None) ->
    exists U S Vt h' u s v Q R, la_truncated_svd L A k om base h = Ok (U, S, Vt, h') /\
      ddims U = [m; p] /\ ddims S = [Z.min p n] /\ ddims Vt = [n; n] /\
      holds h' U u /\ holds h' S s /\ holds h' Vt v /\
      orthonormal real m p (mx u) /\ orthogonal n (mx v) /\
      (forall l, 0 <= l < Z.min p n -> lt (s [l]) o0 = false) /\
      (forall l, 0 <= l < Z.min p n - 1 -> lt (s [l]) (s [l + 1]) = false) /\
      orthonormal real m p Q /\ agree m p Y (mmul p Q R) /\
      agree m n (USV u s v) (mmul p Q (mmul m (trn Q) (mx a))) /\
      (forall W, agree m n (mx a) (mmul p Y W) -> agree m n (USV u s v) (mx a)) /\
      (forall z, h z <> None -> h' z = h z).
Proof.
  intros O HR lt L A m n k ld base om a h p Y USV Hn Hk Hpm MA HA HQ HS Hfr.
  assert (Hp : 0 < p <= m) by (unfold p in *; lia).
  unfold la_truncated_svd. destruct (tdim2 _ _ _ _ MA) as (-> & -> & _). fold p.
  replace (Z.min m p) with p by lia.
  set (pb := base + n * p + m * p + p). set (ps := pb + p * n). set (pu := ps + (p * n + p * p + Z.min p n + n * n)).
  assert (P1 : 0 <= n * p) by nia. assert (P2 : 0 <= m * p) by nia. assert (P3 : 0 <= p * p) by nia. assert (P4 : 0 <= n * n) by nia.
  destruct (range_ok O HR real L A m n p ld base om a h) as (Q & R & h1 & E1 & LQ & OQ & YQ & R1 & F1); auto.
  { intros z Hz. apply Hfr. lia. }
  replace (Z.min m p) with p in F1 by lia. fold pb in F1.
  rewrite E1. cbn [bind].
  assert (KA : forall z, cell A z -> z < base).
  { intros z (idx & Hi & ->). specialize (HA idx Hi). destruct (Z.lt_ge_cases (addr A idx) base); auto.
    rewrite Hfr in HA by lia. discriminate. }
  set (DY := tensor_ctor (base + n * p) [m; p]). set (q := fun idx => Q (nth 0 idx 0) (nth 1 idx 0)).
  assert (CY : forall z, cell DY z -> base <= z < pb) by (intros z Hz; apply tc_cell2 in Hz; unfold pb; lia).
  assert (HY1 : holds h1 DY q) by (apply rows_tc; auto).
  assert (HA1 : holds h1 A a).
  { intros idx Hi. rewrite F1; auto. assert (addr A idx < base) by (apply KA; exists idx; auto). lia. }
  destruct (gemm_buf_ok O HR true false DY A p n m p ld pb q a h1) as (h2 & E2 & V2 & F2); auto; try lia.
  { apply tc_mat. } { intros z Hz. apply CY in Hz. lia. } { intros z Hz. apply KA in Hz. unfold pb. lia. }
  rewrite E2. cbn [bind].
  set (b := fun idx => mmul m (trn Q) (mx a) (nth 0 idx 0) (nth 1 idx 0)). set (B := tensor_ctor pb [p; n]).
  assert (HB2 : holds h2 B b) by (apply rows_tc; auto).
  destruct (C61_svd_dd_partial O lt L B p n n ps b h2) as (Ut & S & Vt & h3 & ut & s & v & E3 & MU & VS & MV & HU3 & HS3 & HV3 & SV & C3 & F3);
    auto; try lia.
  { apply tc_mat. } { intros M HM. apply (HS Q); auto. }
  { intros z Hz. rewrite F2 by (unfold ps in *; lia). rewrite F1 by (unfold ps, pb in *; lia). apply Hfr. unfold ps, pb in *; lia. }
  rewrite E3. cbn [bind].
  assert (CS : forall z, cell Ut z \/ cell S z \/ cell Vt z -> ps <= z < pu) by (intros z Hz; apply C3 in Hz; unfold pu; lia).
  assert (F3' : forall z, ~ (ps <= z < pu) -> h3 z = h2 z) by (intros z Hz; apply F3; unfold pu in Hz; lia).
  destruct (gemm_buf_ok O HR false false DY Ut m p p p p pu q ut h3) as (h4 & E4 & V4 & F4); auto; try lia.
  { apply tc_mat. }
  { intros idx Hi. assert (Hc : cell DY (addr DY idx)) by (exists idx; auto). apply CY in Hc.
    rewrite F3' by (unfold ps; lia). rewrite F2 by lia. auto. }
  { intros z Hz. apply CY in Hz. unfold pu, ps. lia. }
  { intros z Hz. assert (ps <= z < pu) by auto. lia. }
  rewrite E4. cbn [bind].
  set (u := fun idx => mmul p Q (mx ut) (nth 0 idx 0) (nth 1 idx 0)).
  destruct SV as (OU & OV & ES & NS & DS).
  assert (HUSV : agree m n (USV u s v) (mmul p Q (mmul m (trn Q) (mx a)))).
  { intros i j Hi Hj. transitivity (mmul p Q (mx b) i j); [|reflexivity].
    transitivity (mmul p Q (mmul (Z.min p n) (mx ut) (fun l j => omul (s [l]) (v [l; j]))) i j).
    - rewrite <- (mmul_assoc HR). reflexivity.
    - unfold mmul at 1 3. apply zsum_ext. intros l Hl. rewrite (ES l j) by auto. reflexivity. }
  exists (tensor_ctor pu [m; p]), S, Vt, h4, u, s, v, Q, R.
  split; [reflexivity|]. split; [reflexivity|]. split; [exact (proj1 VS)|]. split; [exact (proj1 MV)|].
  split; [apply rows_tc; auto|].
  assert (K4 : forall d f, (forall z, cell d z -> ps <= z < pu) -> holds h3 d f -> holds h4 d f).
  { intros d f Hd Hf idx Hi. rewrite F4; auto. assert (ps <= addr d idx < pu) by (apply Hd; exists idx; auto). lia. }
  split; [apply K4; auto|]. split; [apply K4; auto|].
  split; [apply (orthonormal_mul HR m p Q (mx ut)); auto|].
  split; [exact OV|]. split; [exact NS|]. split; [exact DS|]. split; [exact OQ|]. split; [exact YQ|]. split; [exact HUSV|]. split.
  - intros W HW. eapply agree_trans; [exact HUSV|]. apply (projected HR m n p (mx a) Y Q R W); auto.
  - intros z Hz. assert (z < base). { destruct (Z.lt_ge_cases z base); auto. rewrite Hfr in Hz by lia. congruence. }
    rewrite F4 by (unfold pu, ps, pb; lia). rewrite F3' by (unfold ps, pb; lia). rewrite F2 by (unfold pb; lia). apply F1; lia.
Qed.

(** Fewer than [k + 5] rows: the call never returns a result. *)
Theorem C88_few_rows_refuted :
  forall (O : Ops) (L : lapack) (A : desc) (k base : Z) (om : Z -> car O) (h : heap (car O)) r,
    tdim A 0 < k + 5 -> la_truncated_svd L A k om base h <> Ok r.
Proof.
  intros O L A k base om h r Hm E. unfold la_truncated_svd, la_range in E.
  match type of E with context [la_gemm ?a ?b ?c ?d ?e ?f ?g ?i] => destruct (la_gemm a b c d e f g i) as [h2| |]; try discriminate E end.
  cbn [bind] in E.
  match type of E with context [vgeqrf ?a ?b ?c ?d ?e ?f ?g] => destruct (vgeqrf a b c d e f g) as [[i1 h3]| |]; try discriminate E end.
  cbn [bind snd] in E. unfold vorgqr in E. rewrite Z.ltb_irrefl in E.
  rewrite (proj2 (Z.ltb_lt (tdim A 0) (k + 5)) Hm), ?orb_true_r in E. discriminate E.
Qed.

(** A successful call returns [k + 5] columns, not [k]. *)
Theorem C88_count_refuted :
  forall (O : Ops) (L : lapack) (A : desc) (k base : Z) (om : Z -> car O) (h h' : heap (car O)) U S Vt,
    la_truncated_svd L A k om base h = Ok (U, S, Vt, h') -> ddims U = [tdim A 0; k + 5] /\ ddims U <> [tdim A 0; k].
Proof.
  intros O L A k base om h h' U S Vt E. unfold la_truncated_svd in E.
  destruct (la_range L A (k + 5) om base h) as [[Y h1]| |]; try discriminate E. cbn [bind] in E.
  match type of E with context [la_gemm ?a ?b ?c ?d ?e ?f ?g ?i] => destruct (la_gemm a b c d e f g i) as [h2| |]; try discriminate E end.
  cbn [bind] in E.
  match type of E with context [la_svd_dd ?a ?b ?c ?d] => destruct (la_svd_dd a b c d) as [[[[Ut Sg] V] h3]| |]; try discriminate E end.
  cbn [bind] in E.
  match type of E with context [la_gemm ?a ?b ?c ?d ?e ?f ?g ?i] => destruct (la_gemm a b c d e f g i) as [h4| |]; try discriminate E end.
  cbn [bind] in E. injection E as <- _ _ _. split; [reflexivity|]. intros H. cbn in H. injection H as H. lia.
Qed.

(** ** A case: a 6 x 2 matrix of rank 2, k = 0. *)
Definition A62 : list Z -> Z := fun i => match nth 0 i 0, nth 1 i 0 with 0, 0 => 3 | 1, 1 => 2 | _, _ => 0 end.
Definition om62 : Z -> Z := fun z => if (z =? 0) || (z =? 6) then 1 else 0.
Definition h62 : heap Z := buf 0 [3; 0; 0; 2; 0; 0; 0; 0; 0; 0; 0; 0].
(** LAPACK's answers for this input. *)
Definition L62 : @lapack ZOps :=
  @mkLapack ZOps (fun m n A => (0, A, [1])) (fun n A p => (0, A)) (fun n k A B => (0, A, B))
    (fun n A => (0, idZ, fun i => A i i)) (fun m n A => (0, A, fun i => 3 - i, idZ, idZ))
    (fun m n A => (0, A, fun _ => 0, A, A, fun _ => 0)) (fun m n A => (0, A, fun _ => 0))
    (fun m n k A t => (0, idZ)) (fun n A => (0, A, fun _ => 0, fun _ => 0, A))
    (fun m n A B C => (0, C, 1)) (fun n A => (0, A, fun _ => 0, A, A)).
Lemma zlt6 : forall i, 0 <= i < 6 -> i = 0 \/ i = 1 \/ i = 2 \/ i = 3 \/ i = 4 \/ i = 5.
Proof. intros. lia. Qed.
Ltac upto6 i Hi := apply zlt6 in Hi; destruct Hi as [-> | [-> | [-> | [-> | [-> | ->]]]]].
Definition Y62 : Z -> Z -> Z := mmul (O := ZOps) 2 (mx (O := ZOps) A62) (fun i j => om62 (i * 5 + j)).
Lemma L62_qr : forall M, @agree ZOps 6 5 M Y62 -> thin_qr_contract (O := ZOps) real L62 6 5 M.
Proof.
  intros M HM. unfold thin_qr_contract, L62. cbn [x_geqrf x_orgqr]. split; [reflexivity|]. intros F t HF _.
  split; [reflexivity|]. split.
  - intros i j Hi Hj. assert (Hi6 : 0 <= i < 6) by lia. assert (Hj6 : 0 <= j < 6) by lia. clear Hi Hj.
    upto6 i Hi6; upto6 j Hj6; vm_compute; reflexivity.
  - intros i j Hi Hj. rewrite HM by auto.
    transitivity (mmul (O := ZOps) 5 idZ (upper (O := ZOps) Y62) i j).
    + assert (Hj6 : 0 <= j < 6) by lia. clear HF. destruct (Z.eq_dec j 5) as [->|]; [lia|]. clear Hj.
      upto6 i Hi; upto6 j Hj6; try lia; vm_compute; reflexivity.
    + apply zsum_ext. intros l Hl. f_equal. unfold upper. destruct (l <=? j); auto. symmetry. apply HM; lia.
Qed.
Lemma L62_svd : forall Q M, lapack_q (O := ZOps) L62 6 5 Y62 Q ->
  @agree ZOps 5 2 M (mmul (O := ZOps) 6 (trn (O := ZOps) Q) (mx (O := ZOps) A62)) ->
  gesdd_contract (O := ZOps) Z.ltb L62 5 2 M /\ fst (fst (fst (fst (x_gesdd L62 5 2 M)))) = 0.
Proof.
  intros Q M (Y & F & t & _ & _ & _ & HQ) HM. split; [|reflexivity]. unfold gesdd_contract, L62. cbn [x_gesdd]. intros _.
  cbn [x_orgqr L62 snd] in HQ.
  assert (I : forall n i j, 0 <= i < n -> 0 <= j < n -> n <= 6 -> idZ i j = ident (O := ZOps) i j).
  { intros n i j Hi Hj Hn. assert (Hi6 : 0 <= i < 6) by lia. assert (Hj6 : 0 <= j < 6) by lia. upto6 i Hi6; upto6 j Hj6; reflexivity. }
  assert (OI : forall n, n <= 6 -> orthogonal (O := ZOps) n idZ).
  { intros n Hn. apply (orthogonal_ext (O := ZOps) n (ident (O := ZOps))).
    - intros i j Hi Hj. symmetry. apply (I n); auto.
    - split; intros i j Hi Hj.
      + rewrite (mmul_ident_l ZOps_ring n n) by auto. unfold trn. apply ident_sym.
      + rewrite (mmul_ident_r ZOps_ring n n) by auto. unfold trn. apply ident_sym. }
  split; [apply OI; lia|]. split; [apply OI; lia|]. split; [|split].
  - intros i j Hi Hj. rewrite HM by auto.
    transitivity (mmul (O := ZOps) 6 (trn (O := ZOps) idZ) (mx (O := ZOps) A62) i j).
    + apply zsum_ext. intros l Hl. f_equal. unfold trn. apply HQ; lia.
    + assert (Hi6 : 0 <= i < 6) by lia. upto6 i Hi6; try lia; two j Hj; vm_compute; reflexivity.
  - intros k Hk. apply Z.ltb_ge. change (Z.min 5 2) with 2 in Hk. change (0 <= 3 - k). lia.
  - intros k Hk. apply Z.ltb_ge. lia.
Qed.
Example C88_case : exists U S Vt h' u s v,
  la_truncated_svd (O := ZOps) L62 (tensor_ctor 0 [6; 2]) 0 om62 100 h62 = Ok (U, S, Vt, h') /\
  ddims U = [6; 5] /\ @holds Z h' U u /\ @holds Z h' S s /\ @holds Z h' Vt v /\ orthonormal (O := ZOps) real 6 5 (mx (O := ZOps) u) /\
  @agree ZOps 6 2 (fun i j => @zsum ZOps 2 (fun l => u [i; l] * (s [l] * v [l; j]))) (mx (O := ZOps) A62).
Proof.
  destruct (C88_truncated_svd_partial ZOps ZOps_ring Z.ltb L62 (tensor_ctor 0 [6; 2]) 6 2 0 2 100 om62 A62 h62)
    as (U & S & Vt & h' & u & s & v & Q & R & E & DU & _ & _ & HU & HS & HV & OU & _ & _ & _ & _ & _ & _ & EA & _); try lia.
  - apply tc_mat.
  - intros idx Hi. apply inb2_inv in Hi as (i & j & -> & Hi & Hj). upto6 i Hi; two j Hj; reflexivity.
  - exact L62_qr.
  - exact L62_svd.
  - intros z Hz. unfold h62, buf. replace ((0 <=? z) && (z <? 0 + Z.of_nat (length [3; 0; 0; 2; 0; 0; 0; 0; 0; 0; 0; 0]))) with false; auto.
    symmetry. apply andb_false_iff. right. apply Z.ltb_ge. simpl. lia.
  - exists U, S, Vt, h', u, s, v. split; [exact E|]. split; [exact DU|]. split; [exact HU|]. split; [exact HS|]. split; [exact HV|].
    split; [exact OU|]. apply (EA (fun i j => if (i <? 2) && (i =? j) then 1 else 0)).
    intros i j Hi Hj. upto6 i Hi; two j Hj; vm_compute; reflexivity.
Qed.
