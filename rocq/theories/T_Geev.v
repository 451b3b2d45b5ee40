(** * T_Geev: geev for real element types (C64). *)
From Coq Require Import List ZArith Lia Bool Ring.
From Verif Require Import Base Heap Conc M_Addr L_Addr M_Elt L_Elt M_Einsum S_Einsum M_Blas S_Blas L_Blas
  M_Infer M_Lapack S_Lapack L_Lapack T_Blas T_Lapack T_Lapack2 M_Geev S_Geev.
Import ListNotations.
Open Scope Z_scope.

Lemma forM_store : forall (X : Type) (f : Z -> X) n w (h : heap X), 0 <= n -> (forall i, 0 <= i < n -> h (w + i) <> None) ->
  exists h', forM (zrange n) (fun i h => wr h (w + i) (f i)) h = Ok h' /\
    (forall i, 0 <= i < n -> h' (w + i) = Some (f i)) /\ (forall z, ~ (w <= z < w + n) -> h' z = h z).
Proof.
  intros X f n w h Hn HA.
  destruct (forM_zrange_inv (heap X) (fun m h' => (forall i, 0 <= i < m -> h' (w + i) = Some (f i)) /\
     (forall z, ~ (w <= z < w + m) -> h' z = h z)) (fun i h => wr h (w + i) (f i)) n h Hn) as (h' & E & H1 & H2).
  - split; [intros; lia|auto].
  - intros i s Hi (H1 & H2). unfold wr. rewrite H2 by lia. destruct (h (w + i)) eqn:Eh; [|exfalso; apply (HA i Hi Eh)].
    eexists. split; [reflexivity|]. split.
    + intros k Hk. unfold upd. destruct (Z.eqb_spec (w + k) (w + i)).
      * f_equal. f_equal. lia.
      * apply H1. lia.
    + intros z Hz. unfold upd. destruct (Z.eqb_spec z (w + i)); [lia|]. apply H2. lia.
  - exists h'. auto.
Qed.

(** C64, real element types: whatever LAPACK returns with info >= 0 is delivered
    (in row-major order), also when not all eigenvalues converged (info > 0). *)
Theorem C64_geev_real_results :
  forall (O : Ops) (tf : car O -> car O) (G : geev_fun) (A W VL VR : desc) (n lda ldl ldr : Z)
         (a : list Z -> car O) (h : heap (car O)) (hw : heap (car O * car O)),
    0 < n -> mat A n n lda -> vect W n 1 -> mat VL n n ldl -> mat VR n n ldr ->
    holds h A a -> alloc hw W -> alloc h VL -> alloc h VR ->
    disj A VL -> disj A VR -> disj VL VR ->
    exists M, agree n n M (mx a) /\
    let '(info, A', re, im, vl, vr) := G n M in
    0 <= info ->
    exists h' hw', la_geev_real tf G A W VL VR h hw = Ok (h', hw') /\
      holds hw' W (fun idx => (tf (re (nth 0 idx 0)), tf (im (nth 0 idx 0)))) /\
      holds h' VL (fun idx => vl (nth 0 idx 0) (nth 1 idx 0)) /\ holds h' VR (fun idx => vr (nth 0 idx 0) (nth 1 idx 0)) /\
      holds h' A (fun idx => A' (nth 0 idx 0) (nth 1 idx 0)) /\
      (forall z, ~ cell A z -> ~ cell VL z -> ~ cell VR z -> h' z = h z) /\
      (forall z, ~ cell W z -> hw' z = hw z).
Proof.
  intros O tf G A W VL VR n lda ldl ldr a h hw Hn MA VW MVL MVR HA AW AL AR D2 D3 D6.
  assert (Hn0 : 0 <= n) by lia.
  assert (La := proj2 (proj2 MA)). assert (Ll := proj2 (proj2 MVL)). assert (Lr := proj2 (proj2 MVR)).
  unfold la_geev_real. destruct (tdim2 _ _ _ _ MA) as (-> & _ & ->).
  destruct (tdim2 _ _ _ _ MVL) as (_ & _ & ->). destruct (tdim2 _ _ _ _ MVR) as (_ & _ & ->).
  unfold vgeev_real. rewrite (proj2 (Z.ltb_ge lda n)), (proj2 (Z.ltb_ge ldl 1)), (proj2 (Z.ltb_ge ldl n)),
    (proj2 (Z.ltb_ge ldr 1)), (proj2 (Z.ltb_ge ldr n)) by lia. cbn [orb].
  destruct (xpose_fread n n h (dbase A) lda (mx a) Hn0 Hn0 ltac:(lia)) as (at0 & M & EX & EM & AM & At).
  { intros i j Hi Hj. apply (mat_holds _ h A n n lda a); auto. }
  rewrite EX. cbn [bind]. rewrite EM. cbn [bind].
  exists M. split; [exact AM|].
  destruct (G n M) as [[[[[info A'] re] im] vl] vr]. intros Hinfo.
  assert (Wc : forall z, cell W z <-> dbase W <= z < dbase W + n).
  { intros z. split.
    - intros (idx & Hi & ->). rewrite (proj1 VW) in Hi. apply inb1_inv in Hi as (i & -> & Hi).
      rewrite (vect_addr W n 1) by auto. lia.
    - intros Hz. exists [z - dbase W]. rewrite (proj1 VW), (vect_addr W n 1) by auto. split; [apply inb1|]; lia. }
  assert (Sep : forall d e z, disj d e -> cell d z -> cell e z -> False).
  { intros d e z D (i & Hi & ->) (j & Hj & E). apply (D i j); auto. }
  destruct (xpose_out n n at0 A' h (dbase A) lda Hn0 Hn0 ltac:(lia) At) as (at1 & h2 & E2 & E2' & V2 & F2).
  { intros i j Hi Hj. rewrite (mat_holds _ h A n n lda a) by auto. discriminate. }
  assert (F2' : forall z, ~ cell A z -> h2 z = h z) by (intros z Hz; apply F2; rewrite <- (cell_fcell A n n lda); auto).
  destruct (xpose_out n n (fresh_vec (Z.max 1 n * Z.max 1 n)) vl h2 (dbase VL) ldl Hn0 Hn0 ltac:(lia)
              (fresh_cells n n Hn0 Hn0)) as (lt1 & h3 & E3 & E3' & V3 & F3).
  { intros i j Hi Hj.
    assert (CA : cell VL (dbase VL + i * ldl + j)) by (apply (cell_fcell VL n n ldl); auto; exists j, i; repeat split; lia).
    rewrite F2' by (intros HX; apply (Sep A VL _ D2 HX CA)).
    destruct CA as (idx & Hi' & ->). destruct (AL idx Hi') as (x & ->). discriminate. }
  assert (F3' : forall z, ~ cell VL z -> h3 z = h2 z) by (intros z Hz; apply F3; rewrite <- (cell_fcell VL n n ldl); auto).
  destruct (xpose_out n n (fresh_vec (Z.max 1 n * Z.max 1 n)) vr h3 (dbase VR) ldr Hn0 Hn0 ltac:(lia)
              (fresh_cells n n Hn0 Hn0)) as (rt1 & h4 & E4 & E4' & V4 & F4).
  { intros i j Hi Hj.
    assert (CA : cell VR (dbase VR + i * ldr + j)) by (apply (cell_fcell VR n n ldr); auto; exists j, i; repeat split; lia).
    rewrite F3' by (intros HX; apply (Sep VL VR _ D6 HX CA)). rewrite F2' by (intros HX; apply (Sep A VR _ D3 HX CA)).
    destruct CA as (idx & Hi' & ->). destruct (AR idx Hi') as (x & ->). discriminate. }
  assert (F4' : forall z, ~ cell VR z -> h4 z = h3 z) by (intros z Hz; apply F4; rewrite <- (cell_fcell VR n n ldr); auto).
  destruct (forM_store _ (fun i => (tf (re i), tf (im i))) n (dbase W) hw Hn0) as (hw' & E5 & V5 & F5).
  { intros i Hi. destruct (AW [i]) as (x & Hx). { rewrite (proj1 VW). apply inb1. auto. }
    rewrite (vect_addr W n 1), Z.mul_1_r in Hx by auto. rewrite Hx. discriminate. }
  rewrite E2. cbn [bind]. rewrite E3. cbn [bind]. rewrite E4. cbn [bind]. rewrite (proj2 (Z.ltb_ge info 0)) by lia.
  rewrite E2'. cbn [bind]. rewrite E3'. cbn [bind]. rewrite E4'. cbn [bind]. rewrite E5. cbn [bind].
  exists h4, hw'.
  split; [reflexivity|]. split; [|split; [|split; [|split; [|split]]]].
  - intros idx Hi. rewrite (proj1 VW) in Hi. apply inb1_inv in Hi as (i & -> & Hi). rewrite (vect_addr W n 1), Z.mul_1_r by auto.
    cbn [nth]. now rewrite V5 by auto.
  - apply (holds_mat _ h4 VL n n ldl); auto. intros i j Hi Hj.
    assert (CA : cell VL (dbase VL + i * ldl + j)) by (apply (cell_fcell VL n n ldl); auto; exists j, i; repeat split; lia).
    rewrite F4' by (intros HX; apply (Sep VL VR _ D6 CA HX)). auto.
  - apply (holds_mat _ h4 VR n n ldr); auto.
  - apply (holds_mat _ h4 A n n lda); auto. intros i j Hi Hj.
    assert (CA : cell A (dbase A + i * lda + j)) by (apply (cell_fcell A n n lda); auto; exists j, i; repeat split; lia).
    rewrite F4' by (intros HX; apply (Sep A VR _ D3 CA HX)). rewrite F3' by (intros HX; apply (Sep A VL _ D2 CA HX)). auto.
  - intros z Z1 Z3 Z4. rewrite F4', F3', F2'; auto.
  - intros z Hz. apply F5. rewrite <- Wc. auto.
Qed.

(** C64, real element types, contiguous W, when LAPACK converges and the
    eigenvalues survive the conversion to [std::complex<float>]: W and the
    unpacked columns are eigenpairs. *)
Theorem C64_geev_real_partial :
  forall (O : Ops) (lt : car O -> car O -> bool) (tf : car O -> car O) (G : geev_fun) (A W VL VR : desc) (n lda ldl ldr : Z)
         (a : list Z -> car O) (h : heap (car O)) (hw : heap (car O * car O)),
    0 < n -> mat A n n lda -> vect W n 1 -> mat VL n n ldl -> mat VR n n ldr ->
    holds h A a -> alloc hw W -> alloc h VL -> alloc h VR ->
    disj A VL -> disj A VR -> disj VL VR ->
    (forall M, agree n n M (mx a) ->
       geev_real_contract lt G n M /\
       let '(info, _, re, im, _, _) := G n M in
       info = 0 /\ (forall k, 0 <= k < n -> tf (re k) = re k /\ tf (im k) = im k)) ->
    exists h' hw' w l r, la_geev_real tf G A W VL VR h hw = Ok (h', hw') /\
      holds hw' W w /\ holds h' VL l /\ holds h' VR r /\
      (forall k, 0 <= k < n ->
         right_eigen n (mx a) (w [k]) (unpack lt (fun k => w [k]) (mx r) k) /\
         left_eigen n (mx a) (w [k]) (unpack lt (fun k => w [k]) (mx l) k) /\
         (snd (w [k]) <> o0 -> if lt o0 (snd (w [k])) then k + 1 < n else 0 <= k - 1)) /\
      (forall z, ~ cell A z -> ~ cell VL z -> ~ cell VR z -> h' z = h z) /\
      (forall z, ~ cell W z -> hw' z = hw z).
Proof.
  intros O lt tf G A W VL VR n lda ldl ldr a h hw Hn MA VW MVL MVR HA AW AL AR D2 D3 D6 HC.
  destruct (C64_geev_real_results O tf G A W VL VR n lda ldl ldr a h hw) as (M & AM & R); auto.
  destruct (HC M AM) as (CC & C0). unfold geev_real_contract in CC.
  destruct (G n M) as [[[[[info A'] re] im] vl] vr]. destruct C0 as (-> & Htf).
  specialize (CC eq_refl). clear HC. destruct R as (h' & hw' & E & HW & HL & HR & _ & F1 & F2); [lia|].
  exists h', hw', (fun idx => (re (nth 0 idx 0), im (nth 0 idx 0))), (fun idx => vl (nth 0 idx 0) (nth 1 idx 0)),
    (fun idx => vr (nth 0 idx 0) (nth 1 idx 0)).
  split; [exact E|]. split; [|split; [exact HL|split; [exact HR|split; [|split; [exact F1|exact F2]]]]].
  - intros idx Hi. rewrite (HW idx Hi). rewrite (proj1 VW) in Hi. apply inb1_inv in Hi as (i & -> & Hi). cbn [nth].
    destruct (Htf i Hi) as (-> & ->). reflexivity.
  - intros k Hk. destruct (CC k Hk) as (C1 & C2 & C3). split; [|split]; [| |exact C3].
    + intros i Hi. etransitivity; [|apply (C1 i Hi)]. unfold csum. f_equal; apply zsum_ext; intros j Hj; rewrite (AM i j) by auto; reflexivity.
    + intros j Hj. etransitivity; [|apply (C2 j Hj)]. unfold csum. f_equal; apply zsum_ext; intros i Hi; rewrite (AM i j) by auto; reflexivity.
Qed.

(** Integer values of type double; the conversion rounds them to single precision. *)
Definition to_float (z : Z) : Z := match f32_ceil (f32 (Z.abs z)) with Ok v => Z.sgn z * v | _ => 0 end.

(** [[0, -1], [1, 0]] has the eigenvalues i and -i, with vectors (1, -i) and (1, i). *)
Definition Grot : geev_fun (O := ZOps) := fun n A =>
  (0, A, fun _ => 0, fun k => if k =? 0 then 1 else -1,
   fun i j => m2 [1; 0; 0; -1] [i; j], fun i j => m2 [1; 0; 0; -1] [i; j]).
Lemma Grot_contract : forall M, @agree ZOps 2 2 M (mx (O := ZOps) (m2 [0; -1; 1; 0])) ->
  geev_real_contract (O := ZOps) Z.ltb Grot 2 M /\
  let '(info, _, re, im, _, _) := Grot 2 M in
  info = 0 /\ (forall k, 0 <= k < 2 -> to_float (re k) = re k /\ to_float (im k) = im k).
Proof.
  intros M HM. split.
  - unfold geev_real_contract. cbn [Grot]. intros _ k Hk. split; [|split].
    + intros i Hi. unfold csum. rewrite !sumZ2. rewrite !HM by lia. two k Hk; two i Hi; reflexivity.
    + intros i Hi. unfold csum. rewrite !sumZ2. rewrite !HM by lia. two k Hk; two i Hi; reflexivity.
    + two k Hk; intros _; vm_compute; congruence.
  - cbn [Grot]. split; auto. intros k Hk. two k Hk; split; vm_compute; reflexivity.
Qed.
Example C64_real_case :
  match la_geev_real (O := ZOps) to_float Grot (mkDesc 0 [2; 2] [3; 1]) (tensor_ctor 10 [2]) (tensor_ctor 20 [2; 2]) (tensor_ctor 30 [2; 2])
          (hor (buf 0 [0; -1; 77; 1; 0]) (hor (buf 20 [5; 5; 5; 5]) (buf 30 [5; 5; 5; 5])))
          (fun z => if (z =? 10) || (z =? 11) then Some (9, 9) else None) with
  | Ok (h', hw') => map hw' [10; 11] = [Some (0, 1); Some (0, -1)] /\ map h' [20; 21; 22; 23; 30; 31; 32; 33; 2] = map Some [1; 0; 0; -1; 1; 0; 0; -1; 77]
  | _ => False end.
Proof. vm_compute. split; reflexivity. Qed.

(** double: the eigenvalue 2^24 + 1 of the 1 x 1 matrix is returned as 2^24. *)
Theorem C64_double_refuted :
  exists (G : geev_fun (O := ZOps)) (A W VL VR : desc) (a : list Z -> Z) (h h' : heap Z) (hw hw' : heap (Z * Z)) (w : list Z -> Z * Z) (r : list Z -> Z),
    mat A 1 1 1 /\ vect W 1 1 /\ mat VL 1 1 1 /\ mat VR 1 1 1 /\ @holds Z h A a /\
    (forall M, @agree ZOps 1 1 M (mx (O := ZOps) a) ->
       geev_real_contract (O := ZOps) Z.ltb G 1 M /\ let '(info, _, _, _, _, _) := G 1 M in info = 0) /\
    la_geev_real (O := ZOps) to_float G A W VL VR h hw = Ok (h', hw') /\
    @holds (Z * Z) hw' W w /\ @holds Z h' VR r /\
    ~ right_eigen (O := ZOps) 1 (mx (O := ZOps) a) (w [0]) (unpack (O := ZOps) Z.ltb (fun k => w [k]) (mx (O := ZOps) r) 0).
Proof.
  set (v := 2 ^ 24 + 1).
  set (G := (fun n M => (0, M, fun k => M 0 0, fun _ => 0, fun _ _ => 1, fun _ _ => 1)) : geev_fun (O := ZOps)).
  set (A := tensor_ctor 0 [1; 1]). set (W := tensor_ctor 10 [1]). set (VL := tensor_ctor 20 [1; 1]). set (VR := tensor_ctor 30 [1; 1]).
  set (h := hor (buf 0 [v]) (hor (buf 20 [0]) (buf 30 [0]))).
  set (hw := (fun z => if z =? 10 then Some (0, 0) else None) : heap (Z * Z)).
  assert (C : match la_geev_real (O := ZOps) to_float G A W VL VR h hw with
              | Ok (h', hw') => hw' 10 = Some (2 ^ 24, 0) /\ h' 30 = Some 1 | _ => False end) by (vm_compute; split; reflexivity).
  destruct (la_geev_real (O := ZOps) to_float G A W VL VR h hw) as [[h' hw']| |] eqn:E; try contradiction. destruct C as (C1 & C2).
  exists G, A, W, VL, VR, (fun _ => v), h, h', hw, hw', (fun _ => (2 ^ 24, 0)), (fun _ => 1).
  split; [apply tc_mat|]. split; [apply tc_vect|]. split; [apply tc_mat|]. split; [apply tc_mat|].
  assert (I2 : forall idx, inb idx [1; 1] -> idx = [0; 0]).
  { intros idx Hi. apply inb2_inv in Hi as (i & j & -> & Hi & Hj). f_equal; [lia|f_equal; lia]. }
  split; [intros idx Hi; rewrite (I2 idx Hi); reflexivity|]. split; [|split; [exact E|split; [|split]]].
  - intros M HM. split; [|reflexivity]. unfold geev_real_contract. cbn [G]. intros _ k Hk. split; [|split; [|intros Hc; now elim Hc]].
    + intros i Hi. replace i with 0 by lia. unfold csum, zsum, unpack. change (zrange 1) with [0]. unfold cmul; cbn. f_equal; lia.
    + intros i Hi. replace i with 0 by lia. unfold csum, zsum, unpack. change (zrange 1) with [0]. unfold cmul; cbn. f_equal; lia.
  - intros idx Hi. apply inb1_inv in Hi as (i & -> & Hi). replace i with 0 by lia. exact C1.
  - intros idx Hi. rewrite (I2 idx Hi). exact C2.
  - intros H. specialize (H 0 ltac:(lia)). vm_compute in H. discriminate.
Qed.

Print Assumptions C64_geev_real_partial.
Print Assumptions C64_double_refuted.
Print Assumptions C64_geev_real_results.
