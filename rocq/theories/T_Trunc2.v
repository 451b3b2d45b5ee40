(** * T_Trunc2: truncated_svd of complex matrices (C88), truncated_syev (C89)
      and heev (C90). *)
From Coq Require Import List ZArith Lia Bool Ring QArith Qcanon.
From Verif Require Import Base Heap Conc M_Addr L_Addr M_Elt L_Elt M_Einsum S_Einsum M_Blas S_Blas L_Blas
  M_Lapack S_Lapack L_Lapack T_Blas T_Lapack T_Lapack2 M_Trunc S_Trunc L_Trunc T_Trunc Num.
Import ListNotations.
Open Scope Z_scope.

Section Cx.
  Context {O : Ops} (HR : is_ring O).
  Add Ring CxR : (ir_rt O HR).
  Lemma cconj_ok : conjugation (O := CxOps O) cconj.
  Proof.
    unfold conjugation, cconj. repeat split; intros; repeat match goal with x : car (CxOps O) |- _ => destruct x end; simpl; f_equal; ring.
  Qed.
End Cx.

(** C88, complex elements: truncated_svd multiplies by the transpose of Q, not
    its conjugate transpose.  Here A is the identity and all of its range is in
    the range of A Omega, but U diag(S) Vt is not A. *)
Definition GOps := CxOps ZOps.
Definition eye : Z -> Z -> Z * Z := fun i j => if i =? j then (1, 0) else (0, 0).
Definition dgi : Z -> Z -> Z * Z := fun i j => if i =? j then (if i =? 0 then (0, 1) else (1, 0)) else (0, 0).
Definition LG : @lapack GOps :=
  @mkLapack GOps (fun m n A => (0, A, [1])) (fun n A p => (0, A)) (fun n k A B => (0, A, B))
    (fun n A => (0, A, fun _ => (0, 0))) (fun m n A => (0, A, fun _ => (1, 0), dgi, eye))
    (fun m n A => (0, A, fun _ => (0, 0), A, A, fun _ => (0, 0))) (fun m n A => (0, eye, fun _ => (0, 0)))
    (fun m n k A t => (0, dgi)) (fun n A => (0, A, fun _ => (0, 0), fun _ => (0, 0), A))
    (fun m n A B C => (0, C, (1, 0))) (fun n A => (0, A, fun _ => (0, 0), A, A)).
Lemma zlt5 : forall i, 0 <= i < 5 -> i = 0 \/ i = 1 \/ i = 2 \/ i = 3 \/ i = 4.
Proof. intros. lia. Qed.
Ltac upto5 i Hi := apply zlt5 in Hi; destruct Hi as [-> | [-> | [-> | [-> | ->]]]].
Definition aG : list Z -> Z * Z := fun idx => eye (nth 0 idx 0) (nth 1 idx 0).
Definition hG : heap (Z * Z) := fun z => if (0 <=? z) && (z <? 25) then Some (eye (z / 5) (z mod 5)) else None.
Definition omG : Z -> Z * Z := fun z => dgi (z / 5) (z mod 5).
Theorem C88_complex_refuted :
  let Y := mmul (O := GOps) 5 (mx (O := GOps) aG) (fun i j => omG (i * 5 + j)) in
  let A := tensor_ctor 0 [5; 5] in
  @holds (Z * Z) hG A aG /\
  (forall M, @agree GOps 5 5 M Y -> thin_qr_contract (O := GOps) cconj LG 5 5 M) /\
  (forall Q M, lapack_q (O := GOps) LG 5 5 Y Q -> @agree GOps 5 5 M (mmul (O := GOps) 5 (trn (O := GOps) Q) (mx (O := GOps) aG)) ->
     cgesdd_contract (O := GOps) cconj LG 5 5 M) /\
  (exists W, @agree GOps 5 5 (mx (O := GOps) aG) (mmul (O := GOps) 5 Y W)) /\
  exists U S Vt h',
    la_truncated_svd (O := GOps) LG A 0 omG 100 hG = Ok (U, S, Vt, h') /\
    forall u s v, @holds (Z * Z) h' U u -> @holds (Z * Z) h' S s -> @holds (Z * Z) h' Vt v ->
      ~ @agree GOps 5 5 (fun i j => @zsum GOps 5 (fun l => @omul GOps (u [i; l]) (@omul GOps (s [l]) (v [l; j])))) (mx (O := GOps) aG).
Proof.
  intros Y A.
  assert (EY : @agree GOps 5 5 Y dgi).
  { intros i j Hi Hj. upto5 i Hi; upto5 j Hj; vm_compute; reflexivity. }
  split; [|split; [|split; [|split]]].
  - intros idx Hi. apply inb2_inv in Hi as (i & j & -> & Hi & Hj). upto5 i Hi; upto5 j Hj; vm_compute; reflexivity.
  - intros M HM. unfold thin_qr_contract, LG. cbn [x_geqrf x_orgqr]. split; [reflexivity|]. intros F t _ _. split; [reflexivity|]. split.
    + intros i j Hi Hj. upto5 i Hi; upto5 j Hj; vm_compute; reflexivity.
    + intros i j Hi Hj. rewrite HM, EY by auto. upto5 i Hi; upto5 j Hj; vm_compute; reflexivity.
  - intros Q M (Y' & F & t & _ & _ & _ & HQ) HM. unfold cgesdd_contract, LG. cbn [x_gesdd]. intros _.
    cbn [x_orgqr LG snd] in HQ.
    split; [split; intros i j Hi Hj; upto5 i Hi; upto5 j Hj; vm_compute; reflexivity|].
    split; [split; intros i j Hi Hj; upto5 i Hi; upto5 j Hj; vm_compute; reflexivity|].
    intros i j Hi Hj. rewrite HM by auto.
    transitivity (mmul (O := GOps) 5 (trn (O := GOps) dgi) (mx (O := GOps) aG) i j).
    + apply zsum_ext. intros l Hl. f_equal. unfold trn. apply HQ; auto.
    + upto5 i Hi; upto5 j Hj; vm_compute; reflexivity.
  - exists (fun i j => cconj (O := ZOps) (dgi i j)). intros i j Hi Hj. upto5 i Hi; upto5 j Hj; vm_compute; reflexivity.
  - assert (C : match la_truncated_svd (O := GOps) LG A 0 omG 100 hG with
      | Ok (U, Sg, Vt, h') => map (fun l => h' (addr U [0; l])) (zrange 5) = [Some (-1, 0); Some (0, 0); Some (0, 0); Some (0, 0); Some (0, 0)] /\
          h' (addr Sg [0]) = Some (1, 0) /\ h' (addr Vt [0; 0]) = Some (1, 0) /\ ddims U = [5; 5] /\ ddims Sg = [5] /\ ddims Vt = [5; 5]
      | _ => False end) by (vm_compute; repeat split; reflexivity).
    destruct (la_truncated_svd (O := GOps) LG A 0 omG 100 hG) as [[[[U Sg] Vt] h']| |]; try contradiction.
    destruct C as (C1 & C2 & C3 & D1 & D2 & D3). exists U, Sg, Vt, h'. split; [reflexivity|]. intros u s v HU HS HV HA.
    specialize (HA 0 0 ltac:(lia) ltac:(lia)). cbn [zrange map] in C1.
    change (zrange 5) with [0; 1; 2; 3; 4] in C1. cbn [map] in C1. injection C1 as U0 U1 U2 U3 U4.
    rewrite HU in U0, U1, U2, U3, U4 by (rewrite D1; apply inb2; lia).
    rewrite HS in C2 by (rewrite D2; apply inb1; lia). rewrite HV in C3 by (rewrite D3; apply inb2; lia).
    injection U0 as U0. injection U1 as U1. injection U2 as U2. injection U3 as U3. injection U4 as U4. injection C2 as C2. injection C3 as C3.
    unfold zsum in HA. change (zrange 5) with [0; 1; 2; 3; 4] in HA. unfold mx in HA. cbn [lsum fold_right map] in HA.
    rewrite U0, U1, U2, U3, U4, C2, C3 in HA. cbn -[Z.mul Z.add] in HA.
    apply (f_equal fst) in HA. cbn [fst] in HA. lia.
Qed.

(** ** truncated_syev *)

Section Sy.
  Context {O : Ops} (HR : is_ring O).
  Notation T := (car O).

  Lemma sandwich_sym : forall n p (A Q : Z -> Z -> T), agree n n A (trn A) ->
    agree p p (mmul n (mmul n (trn Q) A) Q) (trn (mmul n (mmul n (trn Q) A) Q)).
  Proof.
    intros n p A Q HA i j Hi Hj.
    change (mmul n (mmul n (trn Q) A) Q i j = mmul n (mmul n (trn Q) A) Q j i).
    rewrite <- (mmul_trn HR n Q (mmul n (trn Q) A) i j), (mmul_assoc HR).
    apply zsum_ext. intros l Hl. f_equal.
    change (mmul n A Q l j = mmul n (trn Q) A j l). rewrite <- (mmul_trn HR n A (trn Q) l j).
    apply zsum_ext. intros r Hr. rewrite (HA l r) by auto. reflexivity.
  Qed.
  (** Diagonal matrices. *)
  Definition diag (w : Z -> T) : Z -> Z -> T := fun i j => if i =? j then w i else o0.

  Add Ring SyR : (ir_rt O HR).
  Lemma mul_diag : forall n (A : Z -> Z -> T) w i j, 0 <= j < n ->
    mmul n A (diag w) i j = omul (w j) (A i j).
  Proof.
    intros n A w i j Hj. unfold mmul, zsum.
    rewrite (lsum_single O HR _ (zrange n) j (fun l => omul (A i l) (diag w l j))).
    - unfold diag. rewrite Z.eqb_refl. ring.
    - apply zrange_NoDup.
    - now apply zrange_in.
    - intros l _ Hl. unfold diag. destruct (Z.eqb_spec l j); [congruence|ring].
  Qed.

  (** Rayleigh-Ritz: [V]'s rows are eigenvectors of Q^T A Q. *)
  Lemma ritz : forall n p (A Q V : Z -> Z -> T) (w : Z -> T),
    agree n n A (trn A) -> orthonormal real n p Q -> orthogonal p V ->
    (forall k, 0 <= k < p -> eigenpair p (mmul n (mmul n (trn Q) A) Q) (w k) (fun j => V k j)) ->
    let U := mmul p Q (trn V) in
    agree p p (mmul n (mmul n (trn U) A) U) (diag w) /\
    (agree n n (mmul p Q (mmul n (trn Q) A)) A ->
       agree n p (mmul n A U) (mmul p U (diag w)) /\
       agree n n A (mmul p (mmul p U (diag w)) (trn U))).
  Proof.
    intros n p A Q V w SA OQ OV HE U. set (B := mmul n (mmul n (trn Q) A) Q).
    assert (BV : agree p p (mmul p B (trn V)) (mmul p (trn V) (diag w))).
    { intros i k Hi Hk. rewrite mul_diag by auto. exact (HE k Hk i Hi). }
    (* Q^T A U = V^T diag(w) *)
    assert (H1 : agree p p (mmul n (mmul n (trn Q) A) U) (mmul p (trn V) (diag w))).
    { eapply agree_trans; [|exact BV]. apply agree_assoc'. auto. }
    assert (TU : forall i j, trn U i j = mmul p V (trn Q) i j).
    { intros i j. change (mmul p Q (trn V) j i = mmul p V (trn Q) i j). rewrite <- (mmul_trn HR p (trn V) Q i j). reflexivity. }
    split; [|intros HP; assert (HU : agree n p (mmul n A U) (mmul p U (diag w))); [|split; [exact HU|]]].
    - eapply agree_trans with (B := mmul n (mmul p V (mmul n (trn Q) A)) U).
      { apply (mmul_ext p n p); [|apply agree_refl]. intros i j Hi Hj.
        rewrite <- (mmul_assoc HR). apply zsum_ext. intros l Hl. now rewrite TU. }
      eapply agree_trans; [apply (agree_assoc HR)|].
      eapply agree_trans; [apply (mmul_ext p p p); [apply agree_refl|exact H1]|].
      eapply agree_trans; [apply (agree_assoc' HR)|].
      eapply agree_trans; [apply (mmul_ext p p p); [exact (proj1 OV)|apply agree_refl]|].
      apply (mmul_ident_l HR).
    - eapply agree_trans; [apply (mmul_ext n n p); [apply agree_sym; exact HP|apply agree_refl]|].
      eapply agree_trans; [apply (agree_assoc HR)|].
      eapply agree_trans; [apply (mmul_ext n p p); [apply agree_refl|exact H1]|].
      apply (agree_assoc' HR).
    - apply agree_sym. eapply agree_trans; [apply (mmul_ext n p n); [apply agree_sym; exact HU|apply agree_refl]|].
      eapply agree_trans; [apply (agree_assoc HR)|].
      assert (UU : agree n n (mmul p U (trn U)) (mmul p Q (trn Q))).
      { eapply agree_trans with (B := mmul p U (mmul p V (trn Q))).
        { apply (mmul_ext n p n); [apply agree_refl|]. intros i j Hi Hj. apply TU. }
        eapply agree_trans; [apply (agree_assoc HR)|]. apply (mmul_ext n p n); [apply agree_refl|].
        eapply agree_trans; [apply (agree_assoc' HR)|].
        eapply agree_trans; [apply (mmul_ext p p n); [exact (proj2 OV)|apply agree_refl]|]. apply (mmul_ident_l HR). }
      eapply agree_trans; [apply (mmul_ext n n n); [apply agree_refl|exact UU]|].
      intros i j Hi Hj. transitivity (mmul n (mmul p Q (trn Q)) A j i).
      2: { rewrite (mmul_assoc HR), (HP j i) by auto. apply SA; auto. }
      rewrite <- (mmul_trn HR n A (mmul p Q (trn Q)) i j). apply zsum_ext. intros l Hl. f_equal.
      + apply SA; auto.
      + unfold trn at 3. unfold mmul. apply zsum_ext. intros r Hr. unfold trn. ring.
  Qed.
End Sy.

(** C89.  truncated_syev of a symmetric matrix, [k + 5 <= n]: the columns of U
    are orthonormal, w ascends and U^T A U = diag(w); if the columns of A are
    combinations of those of A Omega, every column of U is an eigenvector of A
    and A = U diag(w) U^T. *)
Theorem C89_truncated_syev_partial :
  forall (O : Ops), is_ring O ->
  forall (lt : car O -> car O -> bool) (L : lapack) (A : desc) (n k ld base : Z) (om : Z -> car O)
         (a : list Z -> car O) (h : heap (car O)),
    let p := k + 5 in
    let Y := mmul n (mx a) (fun i j => om (i * p + j)) in
    0 <= k -> p <= n -> mat A n n ld -> holds h A a -> agree n n (mx a) (trn (mx a)) ->
    (forall M, agree n p M Y -> thin_qr_contract real L n p M) ->
    (forall Q M, lapack_q L n p Y Q -> agree p p M (upper (trn (mmul n (mmul n (trn Q) (mx a)) Q))) ->
       syev_contract lt L p M /\ fst (fst (x_syev L p M)) = 0) ->
    (forall z, base <= z -> h z = None) ->
    exists U W h' u w, la_truncated_syev L A k om base h = Ok (U, W, h') /\
      ddims U = [n; p] /\ ddims W = [p] /\ holds h' U u /\ holds h' W w /\
      orthonormal real n p (mx u) /\
      (forall l, 0 <= l < p - 1 -> lt (w [l + 1]) (w [l]) = false) /\
      agree p p (mmul n (mmul n (trn (mx u)) (mx a)) (mx u)) (fun i j => if i =? j then w [i] else o0) /\
      (forall X, agree n n (mx a) (mmul p Y X) ->
         (forall l, 0 <= l < p -> eigenpair n (mx a) (w [l]) (fun i => u [i; l])) /\
         (forall i j, 0 <= i < n -> 0 <= j < n ->
            a [i; j] = zsum p (fun l => omul (omul (w [l]) (u [i; l])) (u [j; l])))) /\
      (forall z, h z <> None -> h' z = h z).
Proof.
  intros O HR lt L A n k ld base om a h p Y Hk Hpn MA HA SA HQ HS Hfr.
  assert (Hp : 0 < p <= n) by (unfold p in *; lia). assert (Hn : 0 < n) by lia.
  unfold la_truncated_syev. destruct (tdim2 _ _ _ _ MA) as (-> & -> & _). fold p. rewrite Z.eqb_refl. cbn [negb].
  replace (Z.min n p) with p by lia.
  set (pb := base + n * p + n * p + p). set (pc := pb + p * n). set (pw := pc + p * p). set (pu := pw + p).
  assert (P1 : 0 <= n * p) by nia. assert (P3 : 0 <= p * p) by nia.
  destruct (range_ok O HR real L A n n p ld base om a h) as (Q & R & h1 & E1 & LQ & OQ & YQ & R1 & F1); auto.
  { intros z Hz. apply Hfr. lia. }
  replace (Z.min n p) with p in F1 by lia. fold pb in F1.
  rewrite E1. cbn [bind].
  assert (KA : forall z, cell A z -> z < base).
  { intros z (idx & Hi & ->). specialize (HA idx Hi). destruct (Z.lt_ge_cases (addr A idx) base); auto.
    rewrite Hfr in HA by lia. discriminate. }
  set (DY := tensor_ctor (base + n * p) [n; p]). set (q := fun idx => Q (nth 0 idx 0) (nth 1 idx 0)).
  assert (CY : forall z, cell DY z -> base <= z < pb) by (intros z Hz; apply tc_cell2 in Hz; unfold pb; lia).
  assert (HY1 : holds h1 DY q) by (apply rows_tc; auto).
  assert (HA1 : holds h1 A a).
  { intros idx Hi. rewrite F1; auto. assert (addr A idx < base) by (apply KA; exists idx; auto). lia. }
  destruct (gemm_buf_ok O HR true false DY A p n n p ld pb q a h1) as (h2 & E2 & V2 & F2); auto; try lia.
  { apply tc_mat. } { intros z Hz. apply CY in Hz. lia. } { intros z Hz. apply KA in Hz. unfold pb. lia. }
  rewrite E2. cbn [bind].
  set (bt := fun idx => mmul n (trn Q) (mx a) (nth 0 idx 0) (nth 1 idx 0)). set (Bt := tensor_ctor pb [p; n]).
  assert (HB2 : holds h2 Bt bt) by (apply rows_tc; auto).
  assert (CB : forall z, cell Bt z -> pb <= z < pc) by (intros z Hz; apply tc_cell2 in Hz; unfold pc; lia).
  assert (HY2 : holds h2 DY q).
  { intros idx Hi. assert (Hc : cell DY (addr DY idx)) by (exists idx; auto). apply CY in Hc. rewrite F2 by lia. auto. }
  destruct (gemm_buf_ok O HR false false Bt DY p p n n p pc bt q h2) as (h3 & E3 & V3 & F3); auto; try lia.
  { apply tc_mat. } { apply tc_mat. } { intros z Hz. apply CB in Hz. lia. } { intros z Hz. apply CY in Hz. unfold pc. lia. }
  rewrite E3. cbn [bind].
  set (b := fun idx => mmul n (mmul n (trn Q) (mx a)) Q (nth 0 idx 0) (nth 1 idx 0)). set (B := tensor_ctor pc [p; p]).
  assert (HB3 : holds h3 B b) by (apply rows_tc; auto).
  assert (CC : forall z, cell B z -> pc <= z < pw) by (intros z Hz; apply tc_cell2 in Hz; unfold pw; lia).
  set (h3' := alloc_buffer o0 pw p h3). set (W := tensor_ctor pw [p]).
  assert (CW : forall z, cell W z -> pw <= z < pu) by (intros z Hz; apply tc_cell1 in Hz; unfold pu; lia).
  destruct (C58_syev_partial O HR lt L B W p p b h3') as (h4 & v & w & E4 & HV4 & HW4 & OV & EV & AS & F4); auto; try lia.
  { apply tc_mat. } { apply tc_vect. }
  { intros idx Hi. unfold h3'. rewrite alloc_buffer_other; auto. assert (Hc : cell B (addr B idx)) by (exists idx; auto). apply CC in Hc. lia. }
  { intros idx Hi. assert (Hc : cell W (addr W idx)) by (exists idx; auto). apply CW in Hc.
    exists o0. unfold h3'. apply alloc_buffer_cell. unfold pu in Hc. lia. }
  { apply disj_cells. intros z Hz1 Hz2. apply CC in Hz1. apply CW in Hz2. lia. }
  { intros M HM. apply (HS Q); auto. }
  rewrite E4. cbn [bind].
  assert (Out4 : forall z, ~ (pc <= z < pu) -> h4 z = h2 z).
  { intros z Hz. rewrite F4.
    - unfold h3'. rewrite alloc_buffer_other by (unfold pu, pw in *; lia). apply F3. unfold pu, pw in *; lia.
    - intros Hc. apply CC in Hc. unfold pu in Hz; lia.
    - intros Hc. apply CW in Hc. unfold pw in *; lia. }
  destruct (gemm_buf_ok O HR false true DY B n p p p p pu q v h4) as (h5 & E5 & V5 & F5); auto; try lia.
  { apply tc_mat. } { apply tc_mat. }
  { intros idx Hi. assert (Hc : cell DY (addr DY idx)) by (exists idx; auto). apply CY in Hc.
    rewrite Out4 by (unfold pc; lia). auto. }
  { intros z Hz. apply CY in Hz. unfold pu, pw, pc. lia. }
  { intros z Hz. apply CC in Hz. unfold pu. lia. }
  rewrite E5. cbn [bind].
  set (u := fun idx => mmul p Q (trn (mx v)) (nth 0 idx 0) (nth 1 idx 0)).
  assert (EB : forall l, 0 <= l < p -> eigenpair p (mmul n (mmul n (trn Q) (mx a)) Q) (w [l]) (fun j => mx v l j)).
  { intros l Hl i Hi. transitivity (zsum p (fun j => omul (from_lower (mx b) i j) (v [l; j]))); [|exact (EV l Hl i Hi)].
    apply zsum_ext. intros j Hj. f_equal. unfold from_lower.
    destruct (j <=? i); [reflexivity|]. apply (sandwich_sym HR n p (mx a) Q SA); auto. }
  destruct (ritz HR n p (mx a) Q (mx v) (fun l => w [l]) SA OQ OV EB) as (RZ1 & RZ2).
  exists (tensor_ctor pu [n; p]), W, h5, u, w.
  split; [reflexivity|]. split; [reflexivity|]. split; [reflexivity|].
  split; [apply rows_tc; auto|].
  split. { intros idx Hi. assert (Hc : cell W (addr W idx)) by (exists idx; auto). apply CW in Hc. rewrite F5 by lia. auto. }
  split; [apply (orthonormal_mul HR n p Q (trn (mx v))); auto; now apply orthogonal_trn|].
  split; [exact AS|]. split; [exact RZ1|]. split.
  - intros X HX. destruct RZ2 as (Z1 & Z2). { apply (projected HR n n p (mx a) Y Q R X); auto. }
    split.
    + intros l Hl i Hi. transitivity (mmul p (mmul p Q (trn (mx v))) (diag (fun l => w [l])) i l).
      * exact (Z1 i l Hi Hl).
      * rewrite (mul_diag HR) by auto. reflexivity.
    + intros i j Hi Hj. change (mx a i j = zsum p (fun l => omul (omul (w [l]) (u [i; l])) (u [j; l]))).
      rewrite (Z2 i j) by auto. apply zsum_ext. intros l Hl. rewrite (mul_diag HR) by auto. reflexivity.
  - intros z Hz. assert (z < base). { destruct (Z.lt_ge_cases z base); auto. rewrite Hfr in Hz by lia. congruence. }
    rewrite F5 by (unfold pu, pw, pc, pb; lia). rewrite Out4 by (unfold pc, pb; lia). rewrite F2 by (unfold pb; lia). apply F1; lia.
Qed.

(** Fewer than [k + 5] rows: no result. *)
Theorem C89_few_rows_refuted :
  forall (O : Ops) (L : lapack) (A : desc) (k base : Z) (om : Z -> car O) (h : heap (car O)) r,
    tdim A 0 < k + 5 -> la_truncated_syev L A k om base h <> Ok r.
Proof.
  intros O L A k base om h r Hm E. unfold la_truncated_syev, la_range in E.
  destruct (negb (tdim A 0 =? tdim A 1)); [discriminate E|].
  match type of E with context [la_gemm ?a ?b ?c ?d ?e ?f ?g ?i] => destruct (la_gemm a b c d e f g i) as [h2| |]; try discriminate E end.
  cbn [bind] in E.
  match type of E with context [vgeqrf ?a ?b ?c ?d ?e ?f ?g] => destruct (vgeqrf a b c d e f g) as [[i1 h3]| |]; try discriminate E end.
  cbn [bind snd] in E. unfold vorgqr in E. rewrite Z.ltb_irrefl in E.
  rewrite (proj2 (Z.ltb_lt (tdim A 0) (k + 5)) Hm), ?orb_true_r in E. discriminate E.
Qed.
(** [k + 5] columns. *)
Theorem C89_count_refuted :
  forall (O : Ops) (L : lapack) (A : desc) (k base : Z) (om : Z -> car O) (h h' : heap (car O)) U W,
    la_truncated_syev L A k om base h = Ok (U, W, h') -> ddims W = [k + 5] /\ ddims W <> [k].
Proof.
  intros O L A k base om h h' U W E. unfold la_truncated_syev in E.
  destruct (negb (tdim A 0 =? tdim A 1)); [discriminate E|].
  destruct (la_range L A (k + 5) om base h) as [[Y h1]| |]; try discriminate E. cbn [bind] in E.
  do 2 (match type of E with context [la_gemm ?a ?b ?c ?d ?e ?f ?g ?i] => destruct (la_gemm a b c d e f g i) as [?| |]; try discriminate E end;
  cbn [bind] in E).
  match type of E with context [la_syev ?a ?b ?c ?d] => destruct (la_syev a b c d) as [?| |]; try discriminate E end.
  cbn [bind] in E.
  match type of E with context [la_gemm ?a ?b ?c ?d ?e ?f ?g ?i] => destruct (la_gemm a b c d e f g i) as [?| |]; try discriminate E end.
  cbn [bind] in E. injection E as _ <- _. split; [reflexivity|]. intros H. cbn in H. injection H as H. lia.
Qed.

(** A case: diag(1, ..., 5), k = 0. *)
Definition A55 : list Z -> Z := fun i => if nth 0 i 0 =? nth 1 i 0 then nth 0 i 0 + 1 else 0.
Definition h55 : heap Z := fun z => if (0 <=? z) && (z <? 25) then Some (A55 [z / 5; z mod 5]) else None.
Definition om55 : Z -> Z := fun z => idZ (z / 5) (z mod 5).
Definition Y55 : Z -> Z -> Z := mmul (O := ZOps) 5 (mx (O := ZOps) A55) (fun i j => om55 (i * 5 + j)).
Example C89_case : exists U W h' u w,
  la_truncated_syev (O := ZOps) L62 (tensor_ctor 0 [5; 5]) 0 om55 100 h55 = Ok (U, W, h') /\
  ddims U = [5; 5] /\ @holds Z h' U u /\ @holds Z h' W w /\
  (forall l, 0 <= l < 5 -> @eigenpair ZOps 5 (mx (O := ZOps) A55) (w [l]) (fun i => u [i; l])).
Proof.
  assert (EY : @agree ZOps 5 5 Y55 (mx (O := ZOps) A55)).
  { intros i j Hi Hj. upto5 i Hi; upto5 j Hj; vm_compute; reflexivity. }
  destruct (C89_truncated_syev_partial ZOps ZOps_ring Z.ltb L62 (tensor_ctor 0 [5; 5]) 5 0 5 100 om55 A55 h55)
    as (U & W & h' & u & w & E & DU & _ & HU & HW & _ & _ & _ & EA & _); try lia.
  - apply tc_mat.
  - intros idx Hi. apply inb2_inv in Hi as (i & j & -> & Hi & Hj). upto5 i Hi; upto5 j Hj; vm_compute; reflexivity.
  - intros i j Hi Hj. upto5 i Hi; upto5 j Hj; vm_compute; reflexivity.
  - intros M HM. unfold thin_qr_contract, L62. cbn [x_geqrf x_orgqr]. split; [reflexivity|]. intros F t HF _.
    split; [reflexivity|]. split.
    + intros i j Hi Hj. upto5 i Hi; upto5 j Hj; vm_compute; reflexivity.
    + intros i j Hi Hj. change (0 + 5) with 5 in *. change (@agree ZOps 5 5 M Y55) in HM. rewrite HM, EY by auto.
      transitivity (mmul (O := ZOps) 5 idZ (upper (O := ZOps) (mx (O := ZOps) A55)) i j).
      * upto5 i Hi; upto5 j Hj; vm_compute; reflexivity.
      * apply zsum_ext. intros l Hl. f_equal. unfold upper. destruct (l <=? j); auto. symmetry. rewrite HM by lia. apply EY; lia.
  - intros Q M (Y & F & t & _ & _ & _ & HQ) HM. split; [|reflexivity]. cbn [x_orgqr L62 snd] in HQ.
    change (0 + 5) with 5 in *.
    assert (EM : @agree ZOps 5 5 M (mx (O := ZOps) A55)).
    { intros i j Hi Hj. rewrite HM by auto.
      transitivity (upper (O := ZOps) (trn (O := ZOps) (mmul (O := ZOps) 5 (mmul (O := ZOps) 5 (trn (O := ZOps) idZ) (mx (O := ZOps) A55)) idZ)) i j).
      - unfold upper, trn at 1 3. destruct (i <=? j); auto. apply zsum_ext. intros l Hl. f_equal; [|apply HQ; auto].
        apply zsum_ext. intros r Hr. f_equal. unfold trn. apply HQ; auto.
      - upto5 i Hi; upto5 j Hj; vm_compute; reflexivity. }
    unfold syev_contract, L62. cbn [x_syev]. split; [lia|]. intros _. split; [|split].
    + split; intros i j Hi Hj; upto5 i Hi; upto5 j Hj; vm_compute; reflexivity.
    + intros i l Hi Hl. rewrite EM by auto.
      transitivity (mmul (O := ZOps) 5 (from_upper (O := ZOps) (mx (O := ZOps) A55)) idZ i l).
      * apply zsum_ext. intros r Hr. f_equal. unfold from_upper. destruct (i <=? r); apply EM; auto.
      * upto5 i Hi; upto5 l Hl; vm_compute; reflexivity.
    + intros l Hl. rewrite !EM by lia. apply Z.ltb_ge. unfold mx, A55. cbn [nth]. rewrite !Z.eqb_refl. lia.
  - intros z Hz. unfold h55. replace ((0 <=? z) && (z <? 25)) with false; auto.
    symmetry. apply andb_false_iff. right. apply Z.ltb_ge. lia.
  - exists U, W, h', u, w. split; [exact E|]. split; [exact DU|]. split; [exact HU|]. split; [exact HW|].
    apply (EA idZ). intros i j Hi Hj. change (0 + 5) with 5. change (mmul (O := ZOps) 5 (mx (O := ZOps) A55) (fun i j => om55 (i * (0 + 5) + j))) with Y55.
    upto5 i Hi; upto5 j Hj; vm_compute; reflexivity.
Qed.

(** ** heev *)

Lemma conj_zsum : forall (O : Ops) (conj : car O -> car O) n f, conjugation conj -> conj (zsum n f) = zsum n (fun i => conj (f i)).
Proof.
  intros O conj n f (C0 & _ & CA & _). unfold zsum. induction (zrange n) as [|x l IH]; simpl; auto. now rewrite CA, IH.
Qed.

(** C90.  heev: row k of the result is the conjugate of an eigenvector of the
    Hermitian matrix given by the lower triangle, for the k-th of the real,
    ascending eigenvalues; the result is unitary. *)
Theorem C90_heev_partial :
  forall (O : Ops), is_ring O ->
  forall (conj : car O -> car O) (lt : car O -> car O -> bool) (L : lapack) (A W : desc) (n ld : Z)
         (a : list Z -> car O) (h : heap (car O)),
    conjugation conj ->
    0 < n -> mat A n n ld -> vect W n 1 -> holds h A a -> alloc h W -> disj A W ->
    (forall i, 0 <= i < n -> conj (a [i; i]) = a [i; i]) ->
    (forall M, agree n n M (upper (trn (mx a))) -> heev_contract conj lt L n M /\ fst (fst (x_syev L n M)) = 0) ->
    exists h' v w, la_heev L A W h = Ok h' /\ holds h' A v /\ holds h' W w /\
      unitary conj n (mx v) /\
      (forall k, 0 <= k < n -> conj (w [k]) = w [k]) /\
      (forall k, 0 <= k < n -> eigenpair n (herm_lower conj (mx a)) (w [k]) (fun j => conj (v [k; j]))) /\
      (forall k, 0 <= k < n - 1 -> lt (w [k + 1]) (w [k]) = false) /\
      (forall z, ~ cell A z -> ~ cell W z -> h' z = h z).
Proof.
  intros O HR conj lt L A W n ld a h CJ Hn MA VW HA AW D HD HC.
  unfold la_heev. destruct (tdim2 _ _ _ _ MA) as (-> & _ & ->).
  unfold vsyev. assert (Hld := proj2 (proj2 MA)).
  replace ((n <? 0) || (ld <? Z.max 1 n)) with false
    by (symmetry; repeat rewrite orb_false_iff; repeat split; apply Z.ltb_ge; lia).
  destruct (fread_ok n n (dbase A) ld h (trn (mx a))) as (M & EM & AM).
  { intros i j Hi Hj. unfold trn, mx. rewrite <- (mat_holds _ h A n n ld a) by auto. f_equal. lia. }
  rewrite EM. cbn [bind].
  assert (AU : agree n n (upper_part M) (upper (trn (mx a)))).
  { intros i j Hi Hj. unfold upper_part, upper. destruct (i <=? j); auto. }
  destruct (HC _ AU) as (C1 & C0). unfold heev_contract in C1.
  destruct (x_syev L n (upper_part M)) as [[info V] w]. cbn [fst] in C0. subst info.
  destruct C1 as (_ & C1). destruct (C1 eq_refl) as (HO & HW & HE & Hasc). clear C1.
  destruct (fwrite_ok n n (dbase A) ld h V) as (h1 & E1 & V1 & F1); [lia| |].
  { intros i j Hi Hj. replace (dbase A + i + j * ld) with (dbase A + j * ld + i) by lia.
    rewrite (mat_holds _ h A n n ld a) by auto. discriminate. }
  rewrite E1. cbn [bind].
  assert (CW : forall z, dbase W <= z < dbase W + n -> cell W z).
  { intros z Hz. exists [z - dbase W]. rewrite (proj1 VW), (vect_addr W n 1) by auto. split; [apply inb1; lia|lia]. }
  assert (WA : forall z, cell W z -> ~ cell A z).
  { intros z (x & Hx & Ex) (y & Hy & Ey). apply (D y x Hy Hx). congruence. }
  destruct (fvwrite_ok n (dbase W) h1 w) as (h2 & E2 & V2 & F2).
  { intros i Hi. assert (Hc : cell W (dbase W + i)) by (apply CW; lia).
    rewrite F1 by (intros HF; apply (WA _ Hc), (cell_fcell A n n ld); auto).
    destruct (AW [i]) as (v & Hv).
    - rewrite (proj1 VW). apply inb1; auto.
    - rewrite (vect_addr W n 1) in Hv by auto. replace (dbase W + i) with (dbase W + i * 1) by lia. congruence. }
  rewrite E2. cbn [bind snd].
  exists h2, (fun idx => trn V (nth 0 idx 0) (nth 1 idx 0)), (fun idx => w (nth 0 idx 0)).
  split; [reflexivity|]. split; [|split; [|split; [|split; [|split; [|split]]]]].
  - apply (holds_mat _ h2 A n n ld); auto. intros i j Hi Hj. unfold trn. rewrite F2.
    + rewrite <- V1 by auto. f_equal. lia.
    + intros Hz. apply (WA _ (CW _ Hz)). exists [i; j]. rewrite (mat_addr A n n ld), (proj1 MA) by auto. split; [apply inb2; auto|lia].
  - intros idx Hi. rewrite (proj1 VW) in Hi. apply inb1_inv in Hi as (i & -> & Hi).
    rewrite (vect_addr W n 1) by auto. cbn [nth]. rewrite <- V2 by auto. f_equal. lia.
  - destruct HO as (O1 & O2). destruct CJ as (K0 & K1 & KA & KM & KK).
    assert (KI : forall i j, conj (ident i j) = ident i j) by (intros; unfold ident; destruct (i =? j); auto).
    pose proof (conj_zsum O conj) as KS.
    split; intros i j Hi Hj.
    + rewrite <- KI, <- (O2 i j) by auto. unfold mmul. rewrite KS by (repeat split; auto).
      apply zsum_ext. intros l Hl. rewrite KM. unfold ctrn, mx, trn. cbn [nth]. now rewrite KK.
    + rewrite <- KI, <- (O1 i j) by auto. unfold mmul. rewrite KS by (repeat split; auto).
      apply zsum_ext. intros l Hl. rewrite KM. unfold ctrn, mx, trn. cbn [nth]. now rewrite KK.
  - exact HW.
  - intros k Hk i Hi. assert (CJ' := CJ). destruct CJ as (K0 & K1 & KA & KM & KK). cbn [nth]. unfold trn.
    rewrite <- (HW k Hk), <- KM, <- (HE i k Hi Hk). unfold mmul. rewrite (conj_zsum O conj) by auto.
    apply zsum_ext. intros j Hj. rewrite KM. f_equal.
    unfold herm_lower, herm_upper, upper_part.
    destruct (Z.leb_spec j i), (Z.leb_spec i j); try lia.
    + assert (j = i) by lia. subst j. rewrite AM by auto. unfold trn, mx. symmetry. apply HD; auto.
    + rewrite AM by auto. rewrite KK. reflexivity.
    + rewrite AM by auto. reflexivity.
  - exact Hasc.
  - intros z Hz1 Hz2. rewrite F2, F1; auto. intros HF. apply Hz1, (cell_fcell A n n ld); auto.
Qed.

(** The rows themselves are not eigenvectors: A = [[16, 12i], [-12i, 9]]. *)
Definition QiOps := CxOps QcOps.
Definition qi (x y : Z) (d : positive) : Qc * Qc := (Q2Qc (x # d), Q2Qc (y # d)).
Definition aH : list Z -> Qc * Qc := fun idx =>
  match nth 0 idx 0, nth 1 idx 0 with 0, 0 => qi 16 0 1 | 0, _ => qi 0 12 1 | _, 0 => qi 0 (-12) 1 | _, _ => qi 9 0 1 end.
Definition VH : Z -> Z -> Qc * Qc := fun i j =>
  match i, j with 0, 0 => qi 0 3 5 | 0, _ => qi 0 (-4) 5 | _, 0 => qi 4 0 5 | _, _ => qi 3 0 5 end.
Definition LH : @lapack QiOps :=
  let z := qi 0 0 1 in
  @mkLapack QiOps (fun m n A => (0, A, [1])) (fun n A p => (0, A)) (fun n k A B => (0, A, B))
    (fun n A => (0, VH, fun k => qi (25 * k) 0 1)) (fun m n A => (0, A, fun _ => z, A, A))
    (fun m n A => (0, A, fun _ => z, A, A, fun _ => z)) (fun m n A => (0, A, fun _ => z))
    (fun m n k A t => (0, A)) (fun n A => (0, A, fun _ => z, fun _ => z, A))
    (fun m n A B C => (0, C, z)) (fun n A => (0, A, fun _ => z, A, A)).
Definition Qilt (x y : Qc * Qc) : bool := match (fst x ?= fst y)%Qc with Lt => true | _ => false end.
Definition hH : heap (Qc * Qc) := fun z =>
  if (0 <=? z) && (z <? 4) then Some (aH [z / 2; z mod 2]) else if (10 <=? z) && (z <? 12) then Some (qi 0 0 1) else None.
Lemma qc_pair : forall x y : Qc * Qc, this (fst x) = this (fst y) -> this (snd x) = this (snd y) -> x = y.
Proof. intros [x1 x2] [y1 y2] H1 H2. simpl in *. f_equal; apply Qc_is_canon; rewrite ?H1, ?H2; reflexivity. Qed.
Lemma LH_ok : forall M, @agree QiOps 2 2 M (upper (O := QiOps) (trn (O := QiOps) (mx (O := QiOps) aH))) ->
  heev_contract (O := QiOps) cconj Qilt LH 2 M /\ fst (fst (x_syev LH 2 M)) = 0.
Proof.
  intros M HM. split; [|reflexivity]. unfold heev_contract, LH. cbn [x_syev]. split; [lia|]. intros _.
  split; [|split; [|split]].
  - split; intros i j Hi Hj; two i Hi; two j Hj; apply qc_pair; vm_compute; reflexivity.
  - intros k Hk. two k Hk; apply qc_pair; vm_compute; reflexivity.
  - intros i k Hi Hk.
    transitivity (mmul (O := QiOps) 2 (herm_upper (O := QiOps) cconj (upper (O := QiOps) (trn (O := QiOps) (mx (O := QiOps) aH)))) VH i k).
    + apply zsum_ext. intros l Hl. f_equal. unfold herm_upper. destruct (i <=? l); rewrite HM by auto; reflexivity.
    + two i Hi; two k Hk; apply qc_pair; vm_compute; reflexivity.
  - intros k Hk. assert (k = 0) by lia. subst. vm_compute. reflexivity.
Qed.
Lemma hH_holds : @holds (Qc * Qc) hH (tensor_ctor 0 [2; 2]) aH.
Proof. intros idx Hi. apply inb2_inv in Hi as (i & j & -> & Hi & Hj). two i Hi; two j Hj; reflexivity. Qed.
Lemma hH_alloc : alloc hH (tensor_ctor 10 [2]).
Proof. intros idx Hi. apply inb1_inv in Hi as (i & -> & Hi). exists (qi 0 0 1). two i Hi; reflexivity. Qed.
Lemma hH_disj : disj (tensor_ctor 0 [2; 2]) (tensor_ctor 10 [2]).
Proof. apply disj_cells. intros z H1 H2. apply tc_cell2 in H1; try lia. apply tc_cell1 in H2; lia. Qed.
Lemma some_inj : forall (X : Type) (x y : X), Some x = Some y -> x = y.
Proof. intros X x y H. now injection H. Qed.
Theorem C90_rows_refuted :
  let A := tensor_ctor 0 [2; 2] in let W := tensor_ctor 10 [2] in
  @holds (Qc * Qc) hH A aH /\ alloc hH W /\ disj A W /\
  (forall i j, 0 <= i < 2 -> 0 <= j < 2 -> aH [i; j] = cconj (O := QcOps) (aH [j; i])) /\
  (forall M, @agree QiOps 2 2 M (upper (O := QiOps) (trn (O := QiOps) (mx (O := QiOps) aH))) ->
     heev_contract (O := QiOps) cconj Qilt LH 2 M /\ fst (fst (x_syev LH 2 M)) = 0) /\
  exists h', la_heev (O := QiOps) LH A W hH = Ok h' /\
    forall v w, @holds (Qc * Qc) h' A v -> @holds (Qc * Qc) h' W w ->
      ~ @eigenpair QiOps 2 (mx (O := QiOps) aH) (w [0]) (fun j => v [0; j]).
Proof.
  intros A W. split; [apply hH_holds|]. split; [apply hH_alloc|]. split; [apply hH_disj|]. split.
  { intros i j Hi Hj. two i Hi; two j Hj; apply qc_pair; vm_compute; reflexivity. }
  split; [exact LH_ok|].
  assert (C : match la_heev (O := QiOps) LH A W hH with
              | Ok h' => map h' [0; 1; 10] = [Some (VH 0 0); Some (VH 1 0); Some (qi 0 0 1)] | _ => False end) by reflexivity.
  destruct (la_heev (O := QiOps) LH A W hH) as [h'| |]; try contradiction. exists h'. split; [reflexivity|].
  intros v w Hv Hw HE. cbn [map] in C. injection C as C1 C2 C3.
  specialize (HE 0 ltac:(lia)).
  assert (V0 : v [0; 0] = VH 0 0). { specialize (Hv [0; 0] ltac:(apply inb2; lia)). change (h' 0 = Some (v [0; 0])) in Hv. apply some_inj. exact (eq_trans (eq_sym Hv) C1). }
  assert (V1 : v [0; 1] = VH 1 0). { specialize (Hv [0; 1] ltac:(apply inb2; lia)). change (h' 1 = Some (v [0; 1])) in Hv. apply some_inj. exact (eq_trans (eq_sym Hv) C2). }
  assert (W0 : w [0] = qi 0 0 1). { specialize (Hw [0] ltac:(apply inb1; lia)). change (h' 10 = Some (w [0])) in Hw. apply some_inj. exact (eq_trans (eq_sym Hw) C3). }
  unfold zsum in HE. change (zrange 2) with [0; 1] in HE. cbn [lsum fold_right map] in HE. unfold mx in HE. rewrite V0, V1, W0 in HE.
  apply (f_equal (fun x => this (snd x))) in HE. vm_compute in HE. discriminate.
Qed.
Example C90_case : exists h' v w, la_heev (O := QiOps) LH (tensor_ctor 0 [2; 2]) (tensor_ctor 10 [2]) hH = Ok h' /\
  @holds (Qc * Qc) h' (tensor_ctor 0 [2; 2]) v /\ @holds (Qc * Qc) h' (tensor_ctor 10 [2]) w /\
  (forall k, 0 <= k < 2 -> @eigenpair QiOps 2 (herm_lower (O := QiOps) cconj (mx (O := QiOps) aH)) (w [k]) (fun j => cconj (O := QcOps) (v [k; j]))).
Proof.
  destruct (C90_heev_partial QiOps (CxOps_ring QcOps_ring) cconj Qilt LH (tensor_ctor 0 [2; 2]) (tensor_ctor 10 [2]) 2 2 aH hH)
    as (h' & v & w & E & Hv & Hw & _ & _ & HE & _); try lia.
  - apply (cconj_ok QcOps_ring).
  - apply tc_mat.
  - apply tc_vect.
  - apply hH_holds.
  - apply hH_alloc.
  - apply hH_disj.
  - intros i Hi. two i Hi; apply qc_pair; vm_compute; reflexivity.
  - exact LH_ok.
  - exists h', v, w. auto.
Qed.

Print Assumptions C88_truncated_svd_partial.
Print Assumptions C88_few_rows_refuted.
Print Assumptions C88_count_refuted.
Print Assumptions C88_complex_refuted.
Print Assumptions C89_truncated_syev_partial.
Print Assumptions C89_few_rows_refuted.
Print Assumptions C89_count_refuted.
Print Assumptions C90_heev_partial.
Print Assumptions C90_rows_refuted.
