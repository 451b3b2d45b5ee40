(** * L_Trunc: lemmas for T_Trunc. *)
From Coq Require Import List ZArith Lia Bool Ring.
From Verif Require Import Base Heap Conc M_Addr L_Addr M_Elt L_Elt M_Einsum S_Einsum M_Blas S_Blas L_Blas
  M_Lapack S_Lapack L_Lapack T_Blas T_Lapack T_Lapack2 M_Trunc S_Trunc.
Import ListNotations.
Open Scope Z_scope.

Lemma alloc_with_cell : forall (O : Ops) (om : Z -> car O) b n h z, b <= z < b + n -> alloc_with om b n h z = Some (om (z - b)).
Proof.
  intros. unfold alloc_with. rewrite (proj2 (Z.leb_le b z)), (proj2 (Z.ltb_lt z (b + n))) by lia. reflexivity.
Qed.
Lemma alloc_with_other : forall (O : Ops) (om : Z -> car O) b n h z, ~ (b <= z < b + n) -> alloc_with om b n h z = h z.
Proof.
  intros. unfold alloc_with. destruct (Z.leb_spec b z), (Z.ltb_spec z (b + n)); simpl; auto. lia.
Qed.

(** gemm into a new buffer. *)
Lemma gemm_buf_ok : forall (O : Ops), is_ring O ->
  forall (ta tb : bool) (A B : desc) (m n k lda ldb base : Z) (a b : list Z -> car O) (h : heap (car O)),
    0 <= m -> 0 <= n -> 0 < k ->
    (if ta then mat A k m lda else mat A m k lda) -> (if tb then mat B n k ldb else mat B k n ldb) ->
    holds h A a -> holds h B b ->
    (forall z, cell A z -> ~ (base <= z < base + m * n)) -> (forall z, cell B z -> ~ (base <= z < base + m * n)) ->
    exists h', la_gemm ta tb o1 A B o0 (tensor_ctor base [m; n]) (alloc_buffer o0 base (m * n) h) = Ok h' /\
      (forall i j, 0 <= i < m -> 0 <= j < n ->
         h' (base + i * n + j) = Some (zsum k (fun p => omul (op ta a i p) (op tb b p j)))) /\
      (forall z, ~ (base <= z < base + m * n) -> h' z = h z).
Proof.
  intros O HR ta tb A B m n k lda ldb base a b h Hm Hn Hk MA MB HA HB DA DB.
  set (C := tensor_ctor base [m; n]). set (h0 := alloc_buffer o0 base (m * n) h).
  assert (CC : forall z, cell C z <-> base <= z < base + m * n) by (intros; apply tc_cell2; lia).
  assert (KA : forall z, cell A z -> h0 z = h z) by (intros z Hz; apply alloc_buffer_other; auto).
  assert (KB : forall z, cell B z -> h0 z = h z) by (intros z Hz; apply alloc_buffer_other; auto).
  destruct (C19_gemm_partial O HR ta tb o1 o0 A B C m n k lda ldb n a b (fun _ => o0) h0)
    as (h' & E & V & F); try lia; auto.
  - apply tc_mat.
  - intros idx Hi. rewrite KA by (exists idx; auto). auto.
  - intros idx Hi. rewrite KB by (exists idx; auto). auto.
  - intros idx Hi. apply alloc_buffer_cell. apply CC. exists idx. auto.
  - apply disj_cells. intros z Hz1 Hz2. apply CC in Hz1. apply (DA z); auto.
  - apply disj_cells. intros z Hz1 Hz2. apply CC in Hz1. apply (DB z); auto.
  - exists h'. split; [exact E|]. split.
    + intros i j Hi Hj. specialize (V i j Hi Hj).
      rewrite (mat_addr C m n n i j) in V by apply tc_mat. cbn [dbase tensor_ctor C] in V. rewrite V. f_equal.
      rewrite (add_00 HR). apply (one_l HR).
    + intros z Hz. rewrite F by (rewrite CC; auto). apply alloc_buffer_other. auto.
Qed.

(** The matrix [omega]. *)
Definition sketch {O : Ops} (om : Z -> car O) (p : Z) : Z -> Z -> car O := fun i j => om (i * p + j).

Lemma range_ok : forall (O : Ops), is_ring O ->
  forall (conj : car O -> car O) (L : lapack) (A : desc) (m n p ld base : Z) (om : Z -> car O)
         (a : list Z -> car O) (h : heap (car O)),
    0 < n -> 0 < p <= m -> mat A m n ld -> holds h A a ->
    (forall Y, agree m p Y (mmul n (mx a) (sketch om p)) -> thin_qr_contract conj L m p Y) ->
    (forall z, base <= z < base + n * p + m * p + Z.min m p -> h z = None) ->
    exists Q R h', la_range L A p om base h = Ok (tensor_ctor (base + n * p) [m; p], h') /\
      lapack_q L m p (mmul n (mx a) (sketch om p)) Q /\
      orthonormal conj m p Q /\ agree m p (mmul n (mx a) (sketch om p)) (mmul p Q R) /\
      (forall i j, 0 <= i < m -> 0 <= j < p -> h' (base + n * p + i * p + j) = Some (Q i j)) /\
      (forall z, ~ (base <= z < base + n * p + m * p + Z.min m p) -> h' z = h z).
Proof.
  intros O HR conj L A m n p ld base om a h Hn Hp MA HA HC Hfr.
  unfold la_range. destruct (tdim2 _ _ _ _ MA) as (-> & -> & _).
  replace (Z.min m p) with p in * by lia. set (py := base + n * p) in *. set (pt := py + m * p) in *.
  assert (P1 : 0 <= n * p) by nia. assert (P2 : 0 <= m * p) by nia.
  assert (Hm : 0 <= m) by lia. assert (Hp0 : 0 <= p) by lia.
  set (h0 := alloc_with om base (n * p) h).
  assert (KA : forall z, cell A z -> ~ (base <= z < pt + p)).
  { intros z (idx & Hi & ->) Hz. specialize (HA idx Hi). rewrite Hfr in HA by lia. discriminate. }
  destruct (gemm_buf_ok O HR false false A (tensor_ctor base [n; p]) m p n ld p py a
              (fun idx => sketch om p (nth 0 idx 0) (nth 1 idx 0)) h0) as (h2 & E2 & V2 & F2); auto.
  { apply tc_mat. }
  { intros idx Hi. unfold h0. rewrite alloc_with_other; auto. intros Hz. apply (KA (addr A idx)); [exists idx; auto|unfold pt, py; lia]. }
  { apply rows_tc. intros i j Hi Hj. unfold h0. assert (0 <= i * p + j < n * p) by nia.
    rewrite alloc_with_cell by lia. unfold sketch. do 2 f_equal. lia. }
  { intros z Hz Hr. apply (KA z Hz). unfold pt, py in *; lia. }
  { intros z Hz. apply tc_cell2 in Hz; unfold py; lia. }
  rewrite E2. cbn [bind]. cbn [dbase tensor_ctor].
  set (Y := mmul n (mx a) (sketch om p)).
  set (h3 := alloc_buffer o0 pt p h2).
  assert (R3 : forall i j, 0 <= i < m -> 0 <= j < p -> h3 (py + i * p + j) = Some (Y i j)).
  { intros i j Hi Hj. assert (0 <= i * p + j < m * p) by nia. unfold h3. rewrite alloc_buffer_other by (unfold pt; lia).
    rewrite V2 by auto. reflexivity. }
  unfold vgeqrf. rewrite Z.ltb_irrefl. replace (Z.min m p) with p by lia.
  destruct (xpose_fread m p h3 py p Y Hm Hp0 (Z.le_refl p) R3) as (at0 & M & EX & EM & AM & At).
  rewrite EX. cbn [bind]. rewrite EM. cbn [bind].
  pose proof (HC M AM) as CM. unfold thin_qr_contract in CM.
  destruct (x_geqrf L m p M) as [[info F] tv] eqn:EG. destruct CM as (-> & CM).
  destruct (fvwrite_ok p pt h3 tv) as (h4 & E4 & V4 & F4).
  { intros i Hi. unfold h3. rewrite alloc_buffer_cell by lia. discriminate. }
  destruct (xpose_out m p at0 F h4 py p Hm Hp0 (Z.le_refl p) At) as (at1 & h5 & E5 & E5' & V5 & F5).
  { intros i j Hi Hj. assert (0 <= i * p + j < m * p) by nia.
    rewrite F4 by (unfold pt; lia). rewrite R3 by auto. discriminate. }
  rewrite E5. cbn [bind]. rewrite E4. cbn [bind Z.ltb Z.compare]. rewrite E5'. cbn [bind fst snd].
  unfold vorgqr. rewrite Z.ltb_irrefl.
  replace ((m <? 0) || (p <? 0) || (m <? p) || (p <? 0) || false) with false
    by (symmetry; repeat rewrite orb_false_iff; repeat split; apply Z.ltb_ge; lia).
  destruct (xpose_fread m p h5 py p F Hm Hp0 (Z.le_refl p) V5) as (qt0 & M' & EX' & EM' & AM' & At').
  rewrite EX'. cbn [bind]. rewrite EM'. cbn [bind].
  destruct (fvread_ok p pt h5 tv) as (tv' & ET & AT).
  { intros i Hi. rewrite F5 by (intros HF; apply fcell_range in HF; unfold pt in *; lia). auto. }
  rewrite ET. cbn [bind].
  specialize (CM M' tv' AM' AT). destruct (x_orgqr L m p p M' tv') as [info2 Q] eqn:EQ. destruct CM as (-> & HO & HM).
  destruct (xpose_out m p qt0 Q h5 py p Hm Hp0 (Z.le_refl p) At') as (qt1 & h6 & E6 & E6' & V6 & F6).
  { intros i j Hi Hj. rewrite V5 by auto. discriminate. }
  rewrite E6. cbn [bind Z.ltb Z.compare]. rewrite E6'. cbn [bind snd].
  exists Q, (upper F), h6. split; [reflexivity|]. split; [|split; [exact HO|split; [|split; [exact V6|]]]].
  - exists M, M', tv'. rewrite EG. cbn [fst snd]. split; [exact AM|]. split; [exact AM'|]. split; [exact AT|].
    rewrite EQ. apply agree_refl.
  - eapply agree_trans; [apply agree_sym; exact AM|exact HM].
  - intros z Hz. rewrite F6 by (intros HF; apply fcell_range in HF; unfold pt, py in *; lia).
    rewrite F5 by (intros HF; apply fcell_range in HF; unfold pt, py in *; lia).
    rewrite F4 by (unfold pt, py in *; lia). unfold h3. rewrite alloc_buffer_other by (unfold pt, py in *; lia).
    rewrite F2 by (unfold pt, py in *; lia). unfold h0. apply alloc_with_other. unfold pt, py in *; lia.
Qed.
