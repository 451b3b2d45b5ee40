(** * T_GpuLin: linear algebra on device tensors (C108, C109). *)
From Coq Require Import List ZArith QArith Lia Bool Permutation Ring_theory Ring.
From Verif Require Import Base Num Heap Conc GpuConc M_Addr M_Elt M_Einsum M_Blas M_Lapack M_PyEinsum M_Gpu M_GpuLin S_Einsum S_PyEinsum S_Blas S_Lapack S_Gpu S_GpuLin.
From Verif Require Import L_Addr L_Elt L_Einsum L_Blas L_Dispatch L_Lapack L_PyEinsum L_Gpu L_GpuOps L_GpuLin T_Blas T_Lapack T_Dispatch T_PyEinsum T_GpuOps.
Import ListNotations.
Open Scope Z_scope.

(** ** C108: BLAS *)

(** C = alpha * op(A) * op(B) + beta * C for row-major matrices with any
    leading strides, also when nothing is summed. *)
Theorem C108_gemm_partial :
  forall (O : Ops), is_ring O ->
  forall (TransA TransB : bool) (alpha beta : car O) (A B C : desc) (m n k lda ldb ldc : Z)
         (a b c : list Z -> car O) (h : heap (car O)),
    0 <= m -> 0 <= n -> 0 <= k -> 1 <= lda -> 1 <= ldb -> 1 <= ldc ->
    (if TransA then mat A k m lda else mat A m k lda) ->
    (if TransB then mat B n k ldb else mat B k n ldb) ->
    mat C m n ldc ->
    holds h A a -> holds h B b -> holds h C c -> disj C A -> disj C B ->
    exists h', d_gemm TransA TransB alpha A B beta C h = Ok h' /\
      (forall i j, 0 <= i < m -> 0 <= j < n ->
         h' (addr C [i; j]) =
           Some (oadd (omul alpha (zsum k (fun p => omul (op TransA a i p) (op TransB b p j))))
                      (omul beta (c [i; j])))) /\
      (forall z, ~ cell C z -> h' z = h z).
Proof.
  intros O HR TA TB alpha beta A B C m n k lda ldb ldc a b c h Hm Hn Hk L1 L2 L3 MA MB MC HA HB HC DA DB.
  destruct (d_gemm_nolaw TA TB alpha beta A B C m n k lda ldb ldc a b c h) as (h' & E & H1 & H2); auto.
  exists h'. split; auto. split; auto. intros i j Hi Hj. rewrite H1 by auto.
  rewrite (updv_ring HR), (gemm_val HR). unfold op, opi. destruct TA, TB; reflexivity.
Qed.

Theorem C108_gemv_partial :
  forall (O : Ops), is_ring O ->
  forall (TransA : bool) (alpha beta : car O) (A X Y : desc) (r c lda incx incy : Z)
         (a x y : list Z -> car O) (h : heap (car O)),
    0 < r -> 0 < c -> mat A r c lda -> vect X (if TransA then r else c) incx -> vect Y (if TransA then c else r) incy ->
    holds h A a -> holds h X x -> holds h Y y -> disj Y A -> disj Y X ->
    exists h', d_gemv TransA alpha A X beta Y h = Ok h' /\
      (forall i, 0 <= i < (if TransA then c else r) ->
         h' (addr Y [i]) =
           Some (oadd (omul alpha (zsum (if TransA then r else c) (fun p => omul (op TransA a i p) (x [p]))))
                      (omul beta (y [i])))) /\
      (forall z, ~ cell Y z -> h' z = h z).
Proof.
  intros O HR TA alpha beta A X Y r c lda incx incy a x y h Hr Hc MA VX VY HA HX HY DA DX.
  destruct (C20_gemv_partial O HR TA alpha beta A X Y r c lda incx incy a x y h) as (h' & E & H1 & H2); auto; try lia.
  { left. destruct TA; auto. }
  exists h'. split; [|auto]. revert E. unfold la_gemv, vgemv, d_gemv. destruct (tdim2 _ _ _ _ MA) as (-> & -> & ->).
  rewrite (proj2 (Z.eqb_neq r 0)), (proj2 (Z.eqb_neq c 0)) by lia. auto.
Qed.

(** A = A + alpha * x * y^T for real numbers and contiguous A, whatever the
    schedules of the two transpositions.  Only the temporary changes besides. *)
Theorem C108_ger_partial :
  forall (O : Ops), is_ring O ->
  forall (conj : car O -> car O) (alpha : car O) (X Y A : desc) (tmp m n incx incy : Z) (a t x y : list Z -> car O) (h : heap (car O)),
    (forall v, conj v = v) ->
    0 < m -> 0 <= n -> ddims A = [m; n] -> contiguous A -> vect X m incx -> vect Y n incy ->
    holds h A a -> holds h X x -> holds h Y y -> holds h (ger_temp tmp A) t ->
    disj A X -> disj A Y -> disj (ger_temp tmp A) A -> disj (ger_temp tmp A) X -> disj (ger_temp tmp A) Y ->
    dev_runs (d_ger conj alpha X Y A tmp) h (fun h' =>
      (forall i j, 0 <= i < m -> 0 <= j < n ->
         h' (addr A [i; j]) = Some (oadd (a [i; j]) (omul alpha (omul (x [i]) (y [j]))))) /\
      (forall z, ~ cell A z -> ~ cell (ger_temp tmp A) z -> h' z = h z)).
Proof.
  intros O HR conj alpha X Y A tmp m n incx incy a t x y h Hconj Hm Hn HdA HcA VX VY HA HX HY HT DX DY DA DTX DTY.
  assert (R := ir_rt O HR).
  assert (MA : mat A m n n).
  { unfold contiguous in HcA. rewrite HdA in HcA. destruct (dstrides A) as [|s0 [|s1 [|]]] eqn:E; cbn in HcA; try tauto.
    destruct HcA as (-> & -> & _). split; [auto|]. rewrite E, Z.mul_1_r. split; [auto|lia]. }
  unfold d_ger. set (At := ger_temp tmp A) in *.
  assert (MT : mat At n m m).
  { unfold At, ger_temp. destruct (tdim2 _ _ _ _ MA) as (-> & -> & _). apply tc_mat. }
  assert (dT : dbase At = tmp) by reflexivity.
  assert (CT : contiguous At).
  { unfold contiguous. destruct MT as (-> & -> & _). cbn. rewrite Z.mul_1_r. auto. }
  destruct (tdim2 _ _ _ _ MT) as (_ & _ & ->).
  assert (EX : tdim X 0 = m /\ tstride X 0 = incx) by (destruct VX as (E1 & E2 & _); unfold tdim, tstride; rewrite E1, E2; auto).
  assert (EY : tdim Y 0 = n /\ tstride Y 0 = incy) by (destruct VY as (E1 & E2 & _); unfold tdim, tstride; rewrite E1, E2; auto).
  destruct EX as (-> & ->). destruct EY as (-> & ->). cbn [dev_runs].
  assert (ND : NoDup [0; 1]%nat) by (repeat constructor; simpl; intuition discriminate).
  assert (PM : Permutation [0; 1]%nat [1; 0]%nat) by apply perm_swap.
  set (e1 := fun l : nat => match l with 0%nat => n | _ => m end).
  set (e2 := fun l : nat => match l with 0%nat => m | _ => n end).
  set (env2 := fun (i j : Z) (l : nat) => match l with 0%nat => i | _ => j end).
  assert (OK1 : forall i j, 0 <= i < n -> 0 <= j < m -> env_ok e1 (env2 i j) [0; 1]%nat).
  { intros i j Hi Hj l [<-|[<-|[]]]; auto. }
  assert (OK2 : forall i j, 0 <= i < m -> 0 <= j < n -> env_ok e2 (env2 i j) [0; 1]%nat).
  { intros i j Hi Hj l [<-|[<-|[]]]; auto. }
  assert (P1 : forall l, In l [0; 1]%nat -> 0 <= e1 l) by (intros l [<-|[<-|[]]]; cbn; lia).
  assert (P2 : forall l, In l [0; 1]%nat -> 0 <= e2 l) by (intros l [<-|[<-|[]]]; cbn; lia).
  assert (DA' : disj A At) by (intros i j Hi Hj E; apply (DA j i); auto).
  eapply grid_weaken; [|exact (C105_sort_partial O HR [0; 1]%nat [1; 0]%nat e1 A At a t o1 h ND PM P1 HdA (proj1 MT) HA HT (mat_inj _ _ _ _ MT) DA HcA)].
  cbv beta. intros h1 (V1 & F1).
  assert (H1T : holds h1 At (fun idx => a (rev idx))).
  { intros idx Hi. rewrite (proj1 MT) in Hi. apply inb2_inv in Hi as (j & i & -> & Hj & Hi). cbn [rev app].
    specialize (V1 (env2 j i) (OK1 j i Hj Hi)). cbn [map env2] in V1. rewrite V1. f_equal. apply (Rmul_1_l R). }
  assert (C1 : forall z, ~ cell At z -> h1 z = h z).
  { intros z Hz. apply F1. intros env He ->. apply Hz. exists (map env [0; 1]%nat). split; auto.
    rewrite (proj1 MT). apply inb2. split; [apply (He 0%nat)|apply (He 1%nat)]; simpl; auto. }
  assert (HX1 : holds h1 X x). { intros idx Hi. rewrite C1; auto. intros (j & Hj & E). apply (DTX j idx); auto. }
  assert (HY1 : holds h1 Y y). { intros idx Hi. rewrite C1; auto. intros (j & Hj & E). apply (DTY j idx); auto. }
  assert (HA1 : holds h1 A a). { intros idx Hi. rewrite C1; auto. intros (j & Hj & E). apply (DA j idx); auto. }
  assert (G : exists h2, hger conj m n alpha (dbase X) incx (dbase Y) incy tmp m h1 = Ok h2 /\
    (forall j i, 0 <= j < n -> 0 <= i < m -> h2 (addr At [j; i]) = Some (oadd (a [i; j]) (omul alpha (omul (x [i]) (y [j]))))) /\
    (forall z, ~ cell At z -> h2 z = h1 z)).
  { destruct (oeqb alpha o0) eqn:Ea.
    - exists h1. unfold hger. rewrite Ea.
      match goal with |- context [if ?g then Throw else _] => replace g with false end.
      2:{ symmetry. destruct VX as (_ & _ & ?). destruct VY as (_ & _ & ?). rewrite !orb_false_iff.
          repeat split; try (apply Z.ltb_ge; lia); try (apply Z.eqb_neq; lia). }
      split; auto. split; auto. intros j i Hj Hi. apply (ir_eqb O HR) in Ea. subst alpha.
      rewrite H1T by (rewrite (proj1 MT); apply inb2; auto). cbn [rev app]. f_equal.
      rewrite (omul_0_l HR), (Radd_comm R). symmetry. apply (Radd_0_l R).
    - destruct (hger_ok conj alpha X Y At m n incx incy (fun idx => a (rev idx)) x y h1) as (h2 & E & W & F); auto.
      exists h2. split; auto. split; auto. intros j i Hj Hi. rewrite W by auto. cbn [rev app]. f_equal. f_equal.
      rewrite Hconj, (Rmul_assoc R), (Rmul_comm R (x [i]) alpha). symmetry. apply (Rmul_assoc R). }
  destruct G as (h2 & E2 & V2 & F2). exists h2. split; auto.
  assert (HA2 : holds h2 A a). { intros idx Hi. rewrite F2; auto. intros (j & Hj & E). apply (DA j idx); auto. }
  set (f := fun idx => match idx with [j; i] => oadd (a [i; j]) (omul alpha (omul (x [i]) (y [j]))) | _ => o0 end).
  assert (H2T : holds h2 At f).
  { intros idx Hi. rewrite (proj1 MT) in Hi. apply inb2_inv in Hi as (j & i & -> & Hj & Hi). apply V2; auto. }
  eapply grid_weaken; [|exact (C105_sort_partial O HR [0; 1]%nat [1; 0]%nat e2 At A f a o1 h2 ND PM P2 (proj1 MT) HdA H2T HA2 (mat_inj _ _ _ _ MA) DA' CT)].
  cbv beta. intros h3 (V3 & F3). split.
  - intros i j Hi Hj. specialize (V3 (env2 i j) (OK2 i j Hi Hj)). cbn [map env2] in V3. rewrite V3. f_equal.
    apply (Rmul_1_l R).
  - intros z Hz1 Hz2. rewrite F3, F2, C1; auto. intros env He ->. apply Hz1. exists (map env [0; 1]%nat). split; auto.
    rewrite HdA. apply inb2. split; [apply (He 0%nat)|apply (He 1%nat)]; simpl; auto.
Qed.

(** The complex ger conjugates y, unlike the one for host tensors. *)
Theorem C108_ger_complex_refuted :
  exists (X Y A : desc) (tmp : Z) (a t x y : list Z -> Z * Z) (h : heap (Z * Z)),
    mat A 1 1 1 /\ contiguous A /\ vect X 1 1 /\ vect Y 1 1 /\ holds h A a /\ holds h X x /\ holds h Y y /\ holds h (ger_temp tmp A) t /\
    disj A X /\ disj A Y /\ disj (ger_temp tmp A) A /\ disj (ger_temp tmp A) X /\ disj (ger_temp tmp A) Y /\
    (exists h', la_ger (O := CxOps ZOps) (1, 0) X Y A h = Ok h' /\
       h' (addr A [0; 0]) = Some (oadd (o := CxOps ZOps) (a [0; 0]) (omul (o := CxOps ZOps) (x [0]) (y [0])))) /\
    ~ dev_runs (O := CxOps ZOps) (d_ger (O := CxOps ZOps) (cconj (O := ZOps)) (1, 0) X Y A tmp) h (fun h' =>
        h' (addr A [0; 0]) = Some (oadd (o := CxOps ZOps) (a [0; 0]) (omul (o := CxOps ZOps) (x [0]) (y [0])))).
Proof.
  exists (tensor_ctor 10 [1]), (tensor_ctor 20 [1]), (tensor_ctor 0 [1; 1]), 30,
    (fun _ => (0, 0)), (fun _ => (0, 0)), (fun _ => (2, 1)), (fun _ => (0, 1)).
  set (h := fun z => if z =? 0 then Some (0, 0) else if z =? 10 then Some (2, 1) else if z =? 20 then Some (0, 1)
                     else if z =? 30 then Some (0, 0) else None). exists h.
  assert (S1 : forall idx, inb idx [1] -> idx = [0]).
  { intros idx H. apply inb1_inv in H as (i & -> & Hi). f_equal. lia. }
  assert (S2 : forall idx, inb idx [1; 1] -> idx = [0; 0]).
  { intros idx H. apply inb2_inv in H as (i & j & -> & Hi & Hj). f_equal; [lia|f_equal; lia]. }
  split; [repeat split; cbn; lia|]. split; [cbn; auto|]. split; [repeat split; cbn; lia|]. split; [repeat split; cbn; lia|].
  split; [intros idx H; rewrite (S2 idx H); reflexivity|]. split; [intros idx H; rewrite (S1 idx H); reflexivity|].
  split; [intros idx H; rewrite (S1 idx H); reflexivity|]. split; [intros idx H; rewrite (S2 idx H); reflexivity|].
  split; [apply disj_check; reflexivity|]. split; [apply disj_check; reflexivity|]. split; [apply disj_check; reflexivity|].
  split; [apply disj_check; reflexivity|]. split; [apply disj_check; reflexivity|].
  split; [eexists; split; reflexivity|].
  set (all := map (fun t => Run 0 t) (seq 0 32)).
  apply (dexec_refutes (O := CxOps ZOps) [all; all] _ _
    (fun h' : heap (Z * Z) => match h' 0 with Some (u, v) => negb ((u =? -1) && (v =? 2)) | None => true end)); [vm_compute; reflexivity|].
  intros h' E. change (addr (tensor_ctor 0 [1; 1]) [0; 0]) with 0 in E. rewrite E. reflexivity.
Qed.

(** On a view whose rows are not adjacent the transpositions mix up elements. *)
Theorem C108_ger_view_refuted :
  exists (X Y A : desc) (tmp : Z) (a t x y : list Z -> Z) (h : heap Z),
    mat A 2 2 3 /\ vect X 2 1 /\ vect Y 2 1 /\ holds h A a /\ holds h X x /\ holds h Y y /\ holds h (ger_temp tmp A) t /\
    disj A X /\ disj A Y /\ disj (ger_temp tmp A) A /\ disj (ger_temp tmp A) X /\ disj (ger_temp tmp A) Y /\
    ~ dev_runs (O := ZOps) (d_ger (O := ZOps) (fun v => v) 1 X Y A tmp) h (fun h' =>
        forall i j, 0 <= i < 2 -> 0 <= j < 2 -> h' (addr A [i; j]) = Some (a [i; j] + x [i] * y [j])).
Proof.
  set (A := mkDesc 0 [2; 2] [3; 1]). set (X := rm 100 [2]). set (Y := rm 150 [2]). set (At := ger_temp 200 A).
  exists X, Y, A, 200, (look mem A), (look mem At), (look mem X), (look mem Y), mem.
  split; [repeat split; cbn; lia|]. split; [repeat split; cbn; lia|]. split; [repeat split; cbn; lia|].
  split; [apply holds_check; reflexivity|]. split; [apply holds_check; reflexivity|]. split; [apply holds_check; reflexivity|].
  split; [apply holds_check; reflexivity|].
  split; [apply disj_check; reflexivity|]. split; [apply disj_check; reflexivity|]. split; [apply disj_check; reflexivity|].
  split; [apply disj_check; reflexivity|]. split; [apply disj_check; reflexivity|].
  set (all := map (fun t => Run 0 t) (seq 0 32)).
  apply (dexec_refutes (O := ZOps) [all; all] _ _
    (fun h' : heap Z => negb (forallb (fun ij => match h' (addr A ij) with
        | Some v => v =? look mem A ij + look mem X [nth 0 ij 0] * look mem Y [nth 1 ij 0] | None => false end) (indices [2; 2])))); [vm_compute; reflexivity|].
  intros h' E. apply negb_false_iff, forallb_forall. intros ij Hij. apply in_indices, inb2_inv in Hij as (i & j & -> & Hi & Hj).
  rewrite E by auto. cbn [nth]. apply Z.eqb_refl.
Qed.

Example C108_ger_case :
  let A := rm 0 [2; 3] in let X := rm 100 [2] in let Y := mkDesc 150 [3] [4] in
  dev_runs (O := ZOps) (d_ger (O := ZOps) (fun v => v) 7 X Y A 200) mem (fun h' =>
    h' (addr A [1; 2]) = Some (look mem A [1; 2] + 7 * (look mem X [1] * look mem Y [2])) /\ h' 6 = mem 6 /\ look mem A [1; 2] = 6).
Proof.
  cbv zeta. eapply dev_runs_weaken; [|apply (C108_ger_partial ZOps ZOps_ring (fun v => v) 7 (rm 100 [2]) (mkDesc 150 [3] [4]) (rm 0 [2; 3]) 200 2 3 1 4
     (look mem (rm 0 [2; 3])) (look mem (ger_temp 200 (rm 0 [2; 3]))) (look mem (rm 100 [2])) (look mem (mkDesc 150 [3] [4])))];
    try lia; try reflexivity; try (apply holds_check; reflexivity); try (apply disj_check; reflexivity); try (repeat split; cbn; lia).
  intros h' (H1 & H2). split; [apply (H1 1 2); lia|]. split; [|reflexivity]. apply H2.
  - intros (idx & Hi & E). apply inb2_inv in Hi as (i & j & -> & Hi & Hj). unfold addr in E. cbn in E. lia.
  - intros (idx & Hi & E). apply inb2_inv in Hi as (i & j & -> & Hi & Hj). unfold addr in E. cbn in E. lia.
Qed.

Theorem C108_scale_partial :
  forall (O : Ops) (alpha : car O) (A : desc) (a : list Z -> car O) (h : heap (car O)),
    ddims A <> [] -> nonneg (ddims A) -> contiguous A -> holds h A a ->
    exists h', d_scale alpha A h = Ok h' /\
      holds h' A (fun idx => omul alpha (a idx)) /\ (forall z, ~ cell A z -> h' z = h z).
Proof.
  intros O alpha A a h Hne HN HC HA. destruct (C21_scale_partial O alpha A a h Hne HN HC HA) as (h' & E & H).
  exists h'. split; auto. unfold la_scale in E. rewrite rowmaj_total in E; auto. now apply contiguous_rowmaj.
Qed.
Theorem C108_axpy_partial :
  forall (O : Ops), is_ring O ->
  forall (alpha beta : car O) (X Y : desc) (x y : list Z -> car O) (h : heap (car O)),
    ddims X <> [] -> nonneg (ddims X) -> ddims Y = ddims X -> contiguous X -> contiguous Y ->
    holds h X x -> holds h Y y -> disj Y X ->
    (exists h', d_axpy alpha X Y h = Ok h' /\
      holds h' Y (fun idx => oadd (omul alpha (x idx)) (y idx)) /\ (forall z, ~ cell Y z -> h' z = h z)) /\
    grid_spec (d_axpby alpha X beta Y) h (fun h' =>
      holds h' Y (fun idx => oadd (omul alpha (x idx)) (omul beta (y idx))) /\ (forall z, ~ cell Y z -> h' z = h z)).
Proof.
  intros O HR alpha beta X Y x y h Hne HN HD CX CY HX HY D. split.
  - exact (proj1 (C21_axpby_partial O HR alpha beta X Y x y h Hne HN HD CX CY HX HY D)).
  - apply contiguous_rowmaj in CX. apply contiguous_rowmaj in CY.
    assert (NY : nonneg (ddims Y)) by (rewrite HD; auto).
    set (sti := fun n => sentinel_to_indices n (row_major_strides (ddims X))).
    unfold d_axpby. rewrite rowmaj_total by auto.
    eapply grid_weaken; [|apply (C107_axpby O (zprod (ddims X)) alpha beta (dbase X) 1 (dbase Y) 1 (fun i => x (sti i)) (fun i => y (sti i)))].
    + cbv beta. intros h' (V & F). split.
      * intros idx Hi. destruct (rowmaj_addr_flat Y idx CY Hi) as (G1 & G2). rewrite HD in G1, Hi.
        rewrite G2, HD. rewrite Z.mul_comm, V by auto. unfold sti. rewrite rm_roundtrip by auto. reflexivity.
      * intros z Hz. apply F. intros i Hi ->. apply Hz. apply rowmaj_cell; auto. exists i. split; [rewrite HD; auto|lia].
    + lia.
    + apply zprod_nonneg; auto.
    + intros i Hi. rewrite Z.mul_comm. apply rowmaj_holds_flat; auto.
    + intros i Hi. rewrite Z.mul_comm. unfold sti. rewrite <- HD. apply rowmaj_holds_flat; auto. rewrite HD. auto.
    + intros i j Hi Hj E.
      assert (cell X (dbase X + 1 * i)) as (p & Hp & Ep) by (apply rowmaj_cell; auto; exists i; split; [auto|lia]).
      assert (cell Y (dbase Y + 1 * j)) as (q & Hq & Eq)
        by (apply rowmaj_cell; auto; exists j; split; [rewrite HD; auto|lia]).
      apply (D q p); auto. congruence.
Qed.

(** On the first column of a 2 x 2 matrix [scale], [axpy] and [axpby] change
    the element (0, 1), which is not in the view. *)
Theorem C108_views_refuted :
  exists (A X : desc) (h : heap Z), inj A /\ alloc h A /\ inj X /\ alloc h X /\ disj A X /\ ddims X = ddims A /\ ~ cell A 1 /\
    (exists h', d_scale (O := ZOps) 3 A h = Ok h' /\ h' 1 <> h 1) /\
    (exists h', d_axpy (O := ZOps) 3 X A h = Ok h' /\ h' 1 <> h 1) /\
    ~ grid_spec (O := ZOps) (d_axpby (O := ZOps) 3 X 1 A) h (fun h' => h' 1 = h 1).
Proof.
  exists (mkDesc 0 [2; 1] [2; 1]), (mkDesc 100 [2; 1] [2; 1]), mem.
  assert (I : forall b, inj (mkDesc b [2; 1] [2; 1])).
  { intros b x y Hx Hy E. simpl in *. apply inb2_inv in Hx as (i & j & -> & H1 & H2).
    apply inb2_inv in Hy as (i' & j' & -> & H3 & H4). unfold addr in E. simpl in E.
    assert (i = i') by lia. assert (j = j') by lia. subst. auto. }
  assert (AL : forall b, 0 <= b < 290 -> alloc mem (mkDesc b [2; 1] [2; 1])).
  { intros b Hb x Hx. simpl in Hx. apply inb2_inv in Hx as (i & j & -> & H1 & H2).
    unfold addr, mem. simpl. destruct (Z.leb_spec 0 (b + (i * 2 + (j * 1 + 0)))); [|lia].
    destruct (Z.ltb_spec (b + (i * 2 + (j * 1 + 0))) 300); [|lia]. simpl. eauto. }
  split; [apply I|]. split; [apply AL; lia|]. split; [apply I|]. split; [apply AL; lia|].
  split; [apply disj_check; reflexivity|]. split; [reflexivity|].
  split. { intros (x & Hx & E). simpl in Hx. apply inb2_inv in Hx as (i & j & -> & H1 & H2). unfold addr in E. simpl in E. lia. }
  split; [eexists; split; [reflexivity|discriminate]|]. split; [eexists; split; [reflexivity|discriminate]|].
  apply (ends_refutes (O := ZOps) (map (fun b => Run b 0) (seq 0 32)) _ _
    (fun h : heap Z => match h 1 with Some v => negb (v =? 2) | None => true end)); [vm_compute; reflexivity|].
  intros h' E. rewrite E. reflexivity.
Qed.

Theorem C108_scale_row_column :
  forall (O : Ops) (k : Z) (alpha : car O) (A : desc) (r c s0 s1 : Z) (a : list Z -> car O) (h : heap (car O)),
    ddims A = [r; c] -> dstrides A = [s0; s1] -> 0 < s0 -> 0 < s1 -> inj A -> holds h A a ->
    (0 <= k < r ->
     exists h', d_scale_row k alpha A h = Ok h' /\
       (forall i j, 0 <= i < r -> 0 <= j < c ->
          h' (addr A [i; j]) = Some (if i =? k then omul alpha (a [i; j]) else a [i; j])) /\
       (forall z, ~ cell A z -> h' z = h z)) /\
    (0 <= k < c ->
     exists h', d_scale_column k alpha A h = Ok h' /\
       (forall i j, 0 <= i < r -> 0 <= j < c ->
          h' (addr A [i; j]) = Some (if j =? k then omul alpha (a [i; j]) else a [i; j])) /\
       (forall z, ~ cell A z -> h' z = h z)).
Proof. exact C22_scale_row_column. Qed.

(** With an empty sum gemv leaves y alone instead of scaling it by beta. *)
Theorem C108_gemv_refuted :
  exists (A X Y : desc) (y : list Z -> Z) (h h' : heap Z),
    mat A 1 0 1 /\ vect X 0 1 /\ vect Y 1 1 /\ @holds Z h Y y /\
    @d_gemv ZOps false 1 A X 0 Y h = Ok h' /\
    h' (addr Y [0]) <> Some (1 * @zsum ZOps 0 (fun _ => 0) + 0 * y [0]).
Proof.
  exists (mkDesc 10 [1; 0] [1; 1]), (tensor_ctor 20 [0]), (tensor_ctor 0 [1]), (fun _ => 5).
  set (h := fun z => if z =? 0 then Some 5 else None). exists h, h.
  repeat split; simpl; try lia; try discriminate.
  intros idx H. apply inb1_inv in H as (i & -> & H1). replace i with 0 by lia. reflexivity.
Qed.

Example C108_blas_case :
  let A := mkDesc 0 [2; 3] [5; 1] in let B := mkDesc 20 [3; 2] [4; 1] in let C := mkDesc 40 [2; 2] [3; 1] in
  let X := mkDesc 60 [3] [2] in let Y := mkDesc 70 [2] [3] in let E := rm 90 [2; 2] in
  let v := fun z => match mem z with Some x => x | None => 0 end in
  (exists h', d_gemm (O := ZOps) false false 2 A B 3 C mem = Ok h' /\
     map h' [40; 41; 42; 43; 44] = map Some [2 * ((v 0) * (v 20) + (v 1) * (v 24) + (v 2) * (v 28)) + 3 * (v 40); 2 * ((v 0) * (v 21) + (v 1) * (v 25) + (v 2) * (v 29)) + 3 * (v 41); (v 42);
       2 * ((v 5) * (v 20) + (v 6) * (v 24) + (v 7) * (v 28)) + 3 * (v 43); 2 * ((v 5) * (v 21) + (v 6) * (v 25) + (v 7) * (v 29)) + 3 * (v 44)]) /\
  (exists h', d_gemv (O := ZOps) false 2 A X 3 Y mem = Ok h' /\
     map h' [70; 71; 73] = map Some [2 * ((v 0) * (v 60) + (v 1) * (v 62) + (v 2) * (v 64)) + 3 * (v 70); (v 71); 2 * ((v 5) * (v 60) + (v 6) * (v 62) + (v 7) * (v 64)) + 3 * (v 73)]) /\
  (exists h', d_scale (O := ZOps) 5 E mem = Ok h' /\ map h' [89; 90; 93; 94] = map Some [(v 89); 5 * (v 90); 5 * (v 93); (v 94)]) /\
  (exists h', d_axpy (O := ZOps) 5 E (rm 100 [2; 2]) mem = Ok h' /\ map h' [99; 100; 103; 104] = map Some [(v 99); 5 * (v 90) + (v 100); 5 * (v 93) + (v 103); (v 104)]) /\
  (exists h', d_scale_row (O := ZOps) 1 5 A mem = Ok h' /\ map h' [0; 5; 7; 8] = map Some [(v 0); 5 * (v 5); 5 * (v 7); (v 8)]) /\
  (exists h', d_scale_column (O := ZOps) 2 5 A mem = Ok h' /\ map h' [1; 2; 7; 8] = map Some [(v 1); 5 * (v 2); 5 * (v 7); (v 8)]).
Proof. cbv zeta. repeat split; eexists; (split; [reflexivity|vm_compute; reflexivity]). Qed.

(** ** C109: solving and diagonalising *)

(** On an AMD device gesv solves the same system as on the host and writes the
    solution over the right-hand sides, for any leading strides. *)
Theorem C109_gesv_partial :
  forall (O : Ops), is_ring O ->
  forall (L : lapack) (A B : desc) (n k lda ldb tmp : Z) (a b : list Z -> car O) (h : heap (car O)),
    0 < n -> 0 <= k -> mat A n n lda -> mat B k n ldb -> holds h A a -> holds h B b -> disj A B ->
    (forall M N, S_Lapack.agree n n M (trn (mx a)) -> S_Lapack.agree n k N (trn (mx b)) -> gesv_contract L n k M N) ->
    exists info h' x, d_gesv false L A B tmp h = Ok (info, h') /\ 0 <= info /\ holds h' B x /\
      (info = 0 -> S_Lapack.agree k n (mmul n (mx x) (mx a)) (mx b)) /\
      (info <> 0 -> forall C, ~ inverse n (mx a) C) /\
      (forall z, ~ cell A z -> ~ cell B z -> h' z = h z).
Proof.
  intros O HR L A B n k lda ldb tmp a b h Hn Hk MA MB HA HB D HC.
  assert (La := proj2 (proj2 MA)). assert (Lb := proj2 (proj2 MB)).
  unfold d_gesv. destruct (tdim2 _ _ _ _ MA) as (-> & _ & ->). destruct (tdim2 _ _ _ _ MB) as (-> & _ & ->).
  unfold hgesv.
  replace ((n <? 0) || (k <? 0) || (lda <? Z.max 1 n) || (ldb <? Z.max 1 n) || (ldb <? Z.max 1 n)) with false
    by (symmetry; repeat rewrite orb_false_iff; repeat split; apply Z.ltb_ge; lia).
  destruct (fread_ok n n (dbase A) lda h (trn (mx a))) as (M & EM & AM).
  { intros i j Hi Hj. unfold trn, mx. rewrite <- (mat_holds _ h A n n lda a) by auto. f_equal. lia. }
  destruct (fread_ok n k (dbase B) ldb h (trn (mx b))) as (N & EN & AN).
  { intros i j Hi Hj. unfold trn, mx. rewrite <- (mat_holds _ h B k n ldb b) by auto. f_equal. lia. }
  rewrite EM. simpl. rewrite EN. simpl.
  specialize (HC M N AM AN). unfold gesv_contract in HC.
  destruct (x_gesv L n k M N) as [[info F] X]. destruct HC as (I0 & I1 & I2).
  destruct (fwrite_ok n n (dbase A) lda h F) as (h1 & E1 & V1 & F1); [lia| |].
  { intros i j Hi Hj. replace (dbase A + i + j * lda) with (dbase A + j * lda + i) by lia.
    rewrite (mat_holds _ h A n n lda a) by auto. discriminate. }
  rewrite E1. simpl.
  destruct (fwrite_ok n k (dbase B) ldb h1 X) as (h2 & E2 & V2 & F2); [lia| |].
  { intros i j Hi Hj. rewrite F1.
    - replace (dbase B + i + j * ldb) with (dbase B + j * ldb + i) by lia.
      rewrite (mat_holds _ h B k n ldb b) by auto. discriminate.
    - intros HF. apply (cell_fcell A n n lda) in HF as (idx & Hi1 & Ei); auto.
      apply (D idx [j; i]); auto.
      + rewrite (proj1 MB). apply inb2; auto.
      + rewrite (mat_addr B k n ldb) by auto. lia. }
  rewrite E2. simpl.
  exists info, h2, (fun idx => trn X (nth 0 idx 0) (nth 1 idx 0)).
  split; [reflexivity|]. split; [exact I0|].
  split. { apply (holds_mat _ h2 B k n ldb); auto. intros i j Hi Hj. unfold trn. rewrite <- V2 by auto. f_equal. lia. }
  split; [|split].
  - intros Hz. intros i j Hi Hj.
    assert (E := I1 Hz j i Hj Hi). rewrite (AN j i Hj Hi) in E. unfold trn in E. rewrite <- E.
    rewrite <- (mmul_trn HR n X M i j). unfold mmul. apply zsum_ext. intros l Hl. unfold trn, mx. simpl.
    rewrite (AM j l) by auto. reflexivity.
  - intros Hz C HI. apply (I2 ltac:(lia) (trn C)).
    apply (inverse_ext n (trn (mx a)) M (trn C) (trn C)); [now apply L_Lapack.agree_sym|apply L_Lapack.agree_refl|].
    apply inverse_trn; auto.
  - intros z Hz1 Hz2. rewrite F2, F1; auto.
    + intros HF. apply Hz1, (cell_fcell A n n lda); auto.
    + intros HF. apply Hz2, (cell_fcell B k n ldb); auto.
Qed.

(** On an NVIDIA device the solution goes to a temporary: the caller's
    right-hand sides are never changed, whatever the system. *)
Theorem C109_gesv_nvidia_keeps :
  forall (O : Ops) (L : lapack) (A B : desc) (n k lda ldb tmp : Z) (h h' : heap (car O)) (info : Z),
    0 < n -> 0 <= k -> mat A n n lda -> mat B k n ldb -> disj A B ->
    (forall z, cell B z -> ~ tmp <= z < tmp + k * n) ->
    d_gesv true L A B tmp h = Ok (info, h') ->
    forall z, cell B z -> h' z = h z.
Proof.
  intros O L A B n k lda ldb tmp h h' info Hn Hk MA MB D HT E z Hz. revert E.
  assert (La := proj2 (proj2 MA)). assert (Lb := proj2 (proj2 MB)).
  unfold d_gesv. destruct (tdim2 _ _ _ _ MA) as (-> & _ & ->). destruct (tdim2 _ _ _ _ MB) as (-> & _ & ->).
  rewrite (proj1 MB). destruct (tdim2 _ _ _ _ (tc_mat tmp k n)) as (_ & _ & ->). unfold hgesv.
  rewrite data_size_eq by discriminate. replace (zprod [k; n]) with (k * n) by (simpl; lia).
  set (h0 := alloc_buffer o0 tmp (k * n) h).
  assert (Z0 : h0 z = h z) by (unfold h0; apply alloc_buffer_other; auto).
  destruct (_ || _); [discriminate|].
  destruct (fread n n (dbase A) lda h0) as [M| |] eqn:EM; cbn [bind]; try discriminate.
  destruct (fread n k (dbase B) ldb h0) as [N| |] eqn:EN; cbn [bind]; try discriminate.
  destruct (x_gesv L n k M N) as [[inf F] X].
  destruct (fwrite n n (dbase A) lda F h0) as [h1| |] eqn:E1; cbn [bind]; try discriminate.
  destruct (fwrite n k tmp n X h1) as [h2| |] eqn:E2; cbn [bind]; try discriminate.
  intros EQ. injection EQ as <- <-. rewrite <- Z0.
  rewrite (fwrite_frame O n k tmp n X h1 h2 E2), (fwrite_frame O n n (dbase A) lda F h0 h1 E1); auto.
  - intros HF. apply (cell_fcell A n n lda) in HF as (idx & Hi & ->); auto. destruct Hz as (j & Hj & Ej). apply (D idx j); auto.
  - intros (i & j & Hi & Hj & ->). apply (HT _ Hz). nia.
Qed.

(** So no NVIDIA gesv call solves a system whose right-hand side is not already
    the solution: here 2 x = 4. *)
Theorem C109_gesv_nvidia_refuted :
  exists (L : lapack) (A B : desc) (tmp : Z) (a b : list Z -> Z) (h h' : heap Z) (x : list Z -> Z),
    mat A 1 1 1 /\ mat B 1 1 1 /\ holds h A a /\ holds h B b /\ disj A B /\
    (forall M N, S_Lapack.agree (O := ZOps) 1 1 M (trn (O := ZOps) (mx (O := ZOps) a)) -> S_Lapack.agree (O := ZOps) 1 1 N (trn (O := ZOps) (mx (O := ZOps) b)) -> gesv_contract (O := ZOps) L 1 1 M N) /\
    d_gesv (O := ZOps) true L A B tmp h = Ok (0, h') /\ holds h' B x /\
    ~ S_Lapack.agree (O := ZOps) 1 1 (mmul (O := ZOps) 1 (mx (O := ZOps) x) (mx (O := ZOps) a)) (mx (O := ZOps) b).
Proof.
  set (L := @mkLapack ZOps (fun m n A => (0, A, [])) (fun n A p => (0, A)) (fun n k A B => (0, A, fun i j => B i j / A 0 0))
    (fun n A => (0, A, fun _ => 0)) (fun m n A => (0, A, fun _ => 0, A, A))
    (fun m n A => (0, A, fun _ => 0, A, A, fun _ => 0)) (fun m n A => (0, A, fun _ => 0))
    (fun m n k A t => (0, A)) (fun n A => (0, A, fun _ => 0, fun _ => 0, A))
    (fun m n A B C => (0, C, 1)) (fun n A => (0, A, fun _ => 0, A, A))).
  set (h := hor (buf 0 [2]) (buf 10 [4])).
  exists L, (tensor_ctor 0 [1; 1]), (tensor_ctor 10 [1; 1]), 20, (fun _ => 2), (fun _ => 4), h.
  assert (S2 : forall idx, inb idx [1; 1] -> idx = [0; 0]).
  { intros idx H. apply inb2_inv in H as (i & j & -> & Hi & Hj). f_equal; [lia|f_equal; lia]. }
  eexists. exists (fun _ => 4).
  split; [apply tc_mat|]. split; [apply tc_mat|]. split; [intros idx H; rewrite (S2 idx H); reflexivity|].
  split; [intros idx H; rewrite (S2 idx H); reflexivity|]. split; [apply disj_check; reflexivity|].
  split.
  - intros M N HM HN. unfold gesv_contract. cbn [L x_gesv]. split; [lia|]. split; [|lia]. intros _ i j Hi Hj.
    assert (i = 0) by lia. assert (j = 0) by lia. subst i j. assert (E1 := HM 0 0 ltac:(lia) ltac:(lia)). assert (E2 := HN 0 0 ltac:(lia) ltac:(lia)).
    cbv in E1, E2. unfold mmul, zsum, lsum. change (zrange 1) with [0]. cbn. rewrite E1, E2. reflexivity.
  - split; [reflexivity|]. split; [intros idx H; rewrite (S2 idx H); reflexivity|].
    intros H. specialize (H 0 0 ltac:(lia) ltac:(lia)). cbv in H. discriminate.
Qed.

(** With LAPACK's symmetric eigensolver converging, syev leaves orthonormal
    eigenvectors (rows) and ascending eigenvalues. *)
Theorem C109_syev_partial :
  forall (O : Ops), is_ring O ->
  forall (lt : car O -> car O -> bool) (L : lapack) (A W : desc) (n ld : Z) (a : list Z -> car O) (h : heap (car O)),
    0 < n -> mat A n n ld -> vect W n 1 -> holds h A a -> alloc h W -> disj A W ->
    (forall M, S_Lapack.agree n n M (upper (trn (mx a))) -> syev_contract lt L n M /\ fst (fst (x_syev L n M)) = 0) ->
    exists h' v w, d_syev L A W h = Ok h' /\ holds h' A v /\ holds h' W w /\
      orthogonal n (mx v) /\
      (forall k, 0 <= k < n -> eigenpair n (from_lower (mx a)) (w [k]) (fun j => v [k; j])) /\
      (forall k, 0 <= k < n - 1 -> lt (w [k + 1]) (w [k]) = false) /\
      (forall z, ~ cell A z -> ~ cell W z -> h' z = h z).
Proof. exact C58_syev_partial. Qed.
(** A failure to converge is not reported. *)
Theorem C109_syev_no_convergence_refuted :
  exists (L : lapack) (A W : desc) (a : list Z -> Z) (h h' : heap Z),
    mat A 2 2 2 /\ vect W 2 1 /\ @holds Z h A a /\ alloc h W /\ disj A W /\
    (forall M, syev_contract (O := ZOps) Z.ltb L 2 M /\ 0 < fst (fst (x_syev L 2 M))) /\
    d_syev (O := ZOps) L A W h = Ok h'.
Proof. exact C58_no_convergence_refuted. Qed.

(** The kernel that fills the diagonal. *)
Lemma eig_to_diag_spec : forall (O : Ops) (F : @fops O) (D W : desc) (n ld : Z) expo (d w : list Z -> car O) h,
  0 <= n -> mat D n n ld -> vect W n 1 -> holds h D d -> holds h W w -> disj D W ->
  grid_spec (eig_to_diag F D W expo) h (fun h' =>
    (forall i j, 0 <= i < n -> 0 <= j < n -> h' (addr D [i; j]) = Some (if i =? j then f_pow F (w [i]) expo else d [i; j])) /\
    (forall z, ~ cell D z -> h' z = h z)).
Proof.
  intros O F D W n ld expo d w h Hn MD VW HD HW DD.
  unfold eig_to_diag. destruct (tdim2 _ _ _ _ MD) as (-> & _ & _).
  set (G := mkDesc (dbase D) [n] [ld + 1]).
  assert (Hld := proj2 (proj2 MD)).
  assert (aG : forall i, addr G [i] = dbase D + (i * ld + i)) by (intros; unfold addr, G; cbn; lia).
  assert (pG : zprod (ddims G) = n) by (unfold G, zprod; cbn; lia).
  assert (aD : forall i, addr D [i; i] = addr G [i]) by (intros i; rewrite (mat_addr D n n ld) by auto; rewrite aG; lia).
  assert (cG : forall z, cell G z <-> exists i, 0 <= i < n /\ z = addr G [i]).
  { intros z. split.
    - intros (i & Hi & ->). apply inb1_inv in Hi as (k & -> & Hk). eauto.
    - intros (i & Hi & ->). exists [i]. split; auto. apply L_Blas.inb1; auto. }
  assert (vW : forall i, 0 <= i < n -> h (dbase W + i) = Some (w [i])).
  { intros i Hi. rewrite <- HW by (rewrite (proj1 VW); apply L_Blas.inb1; auto). f_equal. rewrite (vect_addr W n 1) by auto. lia. }
  replace (each_kernel n (diag_body F D W expo)) with (each_kernel (zprod (ddims G)) (diag_body F D W expo)) by now rewrite pG.
  eapply grid_weaken; [|apply (each_cells _ _ (fun s => [s]) G (fun ix => f_pow F (w ix) expo)); auto; try lia].
  - cbv beta. intros h' (H1 & H2).
    assert (H2' : forall z, ~ cell G z -> h' z = h z).
    { intros z Hz. apply H2. intros i Hi E. apply Hz. exists i. auto. }
    split.
    + intros i j Hi Hj. destruct (Z.eqb_spec i j) as [->|Hne].
      * rewrite aD. apply H1. apply L_Blas.inb1; auto.
      * rewrite H2'; [apply HD; rewrite (proj1 MD); apply inb2; auto|].
        rewrite cG. intros (k & Hk & E). rewrite <- aD in E. apply (mat_inj _ _ _ _ MD) in E; try (rewrite (proj1 MD); apply inb2; auto). congruence.
    + intros z Hz. apply H2'. rewrite cG. intros (k & Hk & ->). apply Hz. rewrite <- aD. exists [k; k]. split; auto. rewrite (proj1 MD); apply inb2; auto.
  - intros i j Hi Hj E. apply inb1_inv in Hi as (k & -> & Hk). apply inb1_inv in Hj as (l & -> & Hl). rewrite !aG in E. f_equal. nia.
  - unfold G, zprod. cbn [ddims indices fold_right]. rewrite Z.mul_1_r.
    assert (E : flat_map (fun i => map (cons i) [[]]) (zrange n) = map (fun s => [s]) (zrange n)).
    { clear. induction (zrange n) as [|z l IH]; [reflexivity|]. cbn. now rewrite <- IH. }
    rewrite E. reflexivity.
  - intros s h' Hs Hin Hf. unfold diag_body. rewrite pG in Hs. destruct (tdim2 _ _ _ _ MD) as (_ & _ & ->). rewrite <- aG. cbn [psafe run].
    assert (NW : ~ cell G (dbase W + s)).
    { rewrite cG. intros (k & Hk & E). apply (DD [k; k] [s]).
      - rewrite (proj1 MD); apply inb2; auto.
      - rewrite (proj1 VW); apply L_Blas.inb1; auto.
      - rewrite aD, <- E, (vect_addr W n 1) by auto. lia. }
    assert (VG : h' (addr G [s]) = Some (d [s; s])) by (rewrite Hf by auto; rewrite <- aD; apply HD; rewrite (proj1 MD); apply inb2; auto).
    rewrite (Hf (dbase W + s)), vW by auto. split.
    + split; [auto|]. eexists; split; [reflexivity|]. split; [reflexivity|]. split; [eauto|exact I].
    + rewrite VG. eexists; split; [reflexivity|]. now rewrite upd_same.
Qed.

(** pow: the result has the eigenvectors of the symmetric argument, with each
    eigenvalue raised to the power, under every schedule of every kernel. *)
Theorem C109_pow_partial :
  forall (O : Ops), is_ring O ->
  (forall x y : car O, omul x y = o0 -> x = o0 \/ y = o0) ->
  forall (L : lapack) (F : fops) (A : desc) (n ld base : Z) (alpha cutoff : car O)
         (a : list Z -> car O) (h : heap (car O)),
    0 < n -> mat A n n ld -> holds h A a -> (forall i j, 0 <= i < n -> 0 <= j < n -> a [i; j] = a [j; i]) ->
    (forall M, S_Lapack.agree n n M (upper (trn (mx a))) ->
       syev_contract (f_lt F) L n M /\ fst (fst (x_syev L n M)) = 0) ->
    (forall z, base <= z < base + 3 * (n * n) + n -> h z = None) ->
    let '(P, steps) := d_pow L F A alpha cutoff base in
    ddims P = [n; n] /\ (forall z, cell P z -> base <= z < base + 3 * (n * n) + n) /\
    dev_runs steps h (fun h' => exists p, holds h' P p /\
      (forall lam x, eigenpair n (mx a) lam x -> eigenpair n (mx p) (f_pow F lam alpha) x) /\
      (forall z, ~ (base <= z < base + 3 * (n * n) + n) -> h' z = h z)).
Proof.
  intros O HR HI L F A n ld base alpha cutoff a h Hn MA HA Hs HC Hfr.
  assert (R := ir_rt O HR).
  unfold d_pow, d_pow_tensors. rewrite (proj1 (tdim2 _ _ _ _ MA)), (proj1 MA).
  replace (zprod [n; n]) with (n * n) by (simpl; lia).
  set (sz := n * n) in *. assert (Hsz : 0 < sz) by (unfold sz; nia).
  set (Ev := tensor_ctor base [n; n]). set (Dg := tensor_ctor (base + sz) [n; n]).
  set (P := tensor_ctor (base + 2 * sz) [n; n]). set (W := tensor_ctor (base + 3 * sz) [n]).
  assert (CEv : forall z, cell Ev z <-> base <= z < base + sz) by (intros; apply tc_cell2; lia).
  assert (CDg : forall z, cell Dg z <-> base + sz <= z < base + sz + sz) by (intros; apply tc_cell2; lia).
  assert (CP : forall z, cell P z <-> base + 2 * sz <= z < base + 2 * sz + sz) by (intros; apply tc_cell2; lia).
  assert (CW : forall z, cell W z <-> base + 3 * sz <= z < base + 3 * sz + n) by (intros; apply tc_cell1; lia).
  assert (In1 : forall d idx, inb idx (ddims d) -> cell d (addr d idx)) by (intros d idx Hi; exists idx; auto).
  assert (NA : forall z, cell A z -> ~ (base <= z < base + 3 * sz + n)).
  { intros z (idx & Hi & ->) Hz. specialize (HA idx Hi). rewrite Hfr in HA by auto. discriminate. }
  split; [reflexivity|]. split. { intros z Hz. apply CP in Hz. lia. }
  cbn [app dev_runs]. eexists. split; [reflexivity|].
  set (h0 := alloc_buffer o0 base (3 * sz + n) h).
  assert (H0z : forall z, base <= z < base + 3 * sz + n -> h0 z = Some o0) by (intros; apply alloc_buffer_cell; lia).
  assert (H0o : forall z, ~ (base <= z < base + 3 * sz + n) -> h0 z = h z) by (intros; apply alloc_buffer_other; lia).
  eapply grid_weaken; [|apply (C107_copy O Ev A (fun _ => o0) a h0)].
  2:{ repeat constructor; lia. }
  2:{ apply (mat_inj _ n n n), tc_mat. }
  2:{ exact (proj1 MA). }
  2:{ left. apply disj_cells. intros z Hz1 Hz2. apply CEv in Hz1. apply (NA z Hz2). lia. }
  2:{ intros idx Hi. apply H0z. assert (Hz := proj1 (CEv _) (In1 _ _ Hi)). lia. }
  2:{ intros idx Hi. rewrite H0o by (apply NA; auto). auto. }
  intros h1 (V1 & F1).
  assert (F1' : forall z, ~ cell Ev z -> h1 z = h0 z) by (intros z Hz; apply F1; intros idx Hi E; apply Hz; exists idx; auto).
  assert (DEW : disj Ev W) by (apply disj_cells; intros z Hz1 Hz2; apply CEv in Hz1; apply CW in Hz2; lia).
  destruct (C109_syev_partial O HR (f_lt F) L Ev W n n a h1) as (h2 & v & w & E2 & V2 & W2 & HO & HE & _ & F2); auto.
  { apply tc_mat. } { apply tc_vect. }
  { intros idx Hi. assert (Hz := proj1 (CW _) (In1 _ _ Hi)). exists o0. rewrite F1' by (rewrite CEv; lia). apply H0z. lia. }
  assert (HE' : forall k, 0 <= k < n -> eigenpair n (mx a) (w [k]) (mx v k)).
  { intros k Hk i Hi. etransitivity; [|exact (HE k Hk i Hi)]. apply zsum_ext. intros j Hj. f_equal.
    unfold from_lower, mx. destruct (Z.leb_spec j i); auto. }
  exists h2. split; [exact E2|].
  destruct (set_all_spec _ (base + sz) sz o0 h2) as (h3 & E3 & V3 & F3).
  { intros k Hk. exists o0. rewrite F2 by (rewrite ?CEv, ?CW; lia). rewrite F1' by (rewrite CEv; lia). apply H0z. lia. }
  exists h3. split; [exact E3|].
  assert (H3D : holds h3 Dg (fun _ => o0)).
  { intros idx Hi. assert (Hz := proj1 (CDg _) (In1 _ _ Hi)).
    replace (addr Dg idx) with (base + sz + (addr Dg idx - (base + sz))) by lia. apply V3. lia. }
  assert (H3W : holds h3 W w).
  { intros idx Hi. assert (Hz := proj1 (CW _) (In1 _ _ Hi)). rewrite F3 by lia. auto. }
  assert (H3E : holds h3 Ev v).
  { intros idx Hi. assert (Hz := proj1 (CEv _) (In1 _ _ Hi)). rewrite F3 by lia. auto. }
  assert (H3P : holds h3 P (fun _ => o0)).
  { intros idx Hi. assert (Hz := proj1 (CP _) (In1 _ _ Hi)). rewrite F3 by lia. rewrite F2 by (rewrite ?CEv, ?CW; lia).
    rewrite F1' by (rewrite CEv; lia). apply H0z. lia. }
  eapply grid_weaken; [|apply (eig_to_diag_spec O F Dg W n n alpha (fun _ => o0) w h3)]; auto; try lia.
  2:{ apply tc_mat. } 2:{ apply tc_vect. }
  2:{ apply disj_cells. intros z Hz1 Hz2. apply CDg in Hz1. apply CW in Hz2. lia. }
  intros h4 (V4 & F4).
  set (g := fun x => f_pow F x alpha).
  assert (H4D : holds h4 Dg (fun idx => if nth 0 idx 0 =? nth 1 idx 0 then g (w [nth 0 idx 0]) else o0)).
  { intros idx Hi. apply inb2_inv in Hi as (i & j & -> & Hi & Hj). rewrite V4 by auto. reflexivity. }
  eapply dev_runs_weaken; [|apply gpu_dev_runs, (C104_gpu_symm_gemm O HR false false Dg Ev P n n n n n
     (fun idx => if nth 0 idx 0 =? nth 1 idx 0 then g (w [nth 0 idx 0]) else o0) v (fun _ => o0) h4)]; auto; try lia; try apply tc_mat.
  - intros h5 (V5 & F5).
    exists (fun idx => zsum n (fun k => omul (omul (g (w [k])) (v [k; nth 0 idx 0])) (v [k; nth 1 idx 0]))).
    split; [|split].
    + intros idx Hi. rewrite (V5 idx Hi). apply inb2_inv in Hi as (i & j & -> & Hi & Hj). f_equal. cbn [nth op].
      apply zsum_ext. intros k Hk.
      unfold zsum. rewrite (lsum_single O HR _ (zrange n) k (fun q => omul (if k =? q then g (w [k]) else o0) (v [q; j]))).
      * rewrite Z.eqb_refl, (Rmul_assoc R), (Rmul_comm R (v [k; i])). reflexivity.
      * apply zrange_NoDup.
      * apply zrange_in; auto.
      * intros q _ Hq. rewrite (proj2 (Z.eqb_neq k q)) by auto. apply (omul_0_l HR).
    + intros lam x Hx i Hi.
      change (zsum n (fun j => omul (zsum n (fun k => omul (omul (g (w [k])) (mx v k i)) (mx v k j))) (x j)) =
              omul (g lam) (x i)).
      apply (apply_fun HR n (mx a) (mx v) (fun k => w [k]) g lam x i); auto.
    + intros z Hz. rewrite F5, F4, F3, F2, F1', H0o; auto; rewrite ?CEv, ?CDg, ?CW; try lia.
      intros idx Hi E. apply Hz. assert (Hz2 := proj1 (CP _) (In1 _ _ Hi)). lia.
  - intros idx Hi. assert (Hz := proj1 (CEv _) (In1 _ _ Hi)). rewrite F4 by (rewrite CDg; lia). auto.
  - intros idx Hi. assert (Hz := proj1 (CP _) (In1 _ _ Hi)). rewrite F4 by (rewrite CDg; lia). auto.
  - apply disj_cells. intros z Hz1 Hz2. apply CP in Hz1. apply CDg in Hz2. lia.
  - apply disj_cells. intros z Hz1 Hz2. apply CP in Hz1. apply CEv in Hz2. lia.
Qed.

(** Unlike on the host, [cutoff] is ignored and infinities are kept: for the
    1 x 1 matrix 0 and a power that is not finite (1000 stands for infinity
    here) the host returns 0 and the device the infinity. *)
Definition Finf : @fops ZOps := mkFops (O := ZOps) Z.abs Z.ltb (fun x _ => if x =? 0 then 1000 else x) (fun x => negb (x =? 1000)) Z.sqrt.
Theorem C109_pow_cutoff_refuted :
  exists (L : lapack) (F : fops) (A : desc) (base alpha cutoff : Z) (a : list Z -> Z) (h : heap Z),
    mat A 1 1 1 /\ holds h A a /\ strict_order (O := ZOps) (f_lt F) /\
    (forall M, S_Lapack.agree (O := ZOps) 1 1 M (upper (O := ZOps) (trn (O := ZOps) (mx (O := ZOps) a))) ->
       syev_contract (O := ZOps) (f_lt F) L 1 M /\ fst (fst (x_syev L 1 M)) = 0) /\
    (forall z, base <= z < base + 3 * (1 * 1) + 1 -> h z = None) /\
    (exists P h', la_pow (O := ZOps) L F A alpha cutoff base h = Ok (P, h') /\ h' (addr P [0; 0]) = Some 0) /\
    let '(P, steps) := d_pow (O := ZOps) L F A alpha cutoff base in
    ~ dev_runs (O := ZOps) steps h (fun h' => h' (addr P [0; 0]) = Some 0).
Proof.
  exists (Lsy 0 (fun _ _ => 1) (fun _ => 0)), Finf, (tensor_ctor 0 [1; 1]), 10, (-1), 1, (fun _ => 0), (buf 0 [0]).
  split; [apply tc_mat|]. split.
  { intros idx H. apply inb2_inv in H as (i & j & -> & Hi & Hj). assert (i = 0) by lia. assert (j = 0) by lia. subst. reflexivity. }
  split. { split; cbn; intros; rewrite ?Z.ltb_ge, ?Z.ltb_lt in *; lia. }
  split.
  { intros M HM. split; [|reflexivity]. unfold syev_contract. cbn [Lsy x_syev]. split; [lia|]. intros _. split; [|split].
    - split; intros i j Hi Hj; assert (i = 0) by lia; assert (j = 0) by lia; subst; reflexivity.
    - intros i k Hi Hk. assert (i = 0) by lia. assert (k = 0) by lia. subst.
      assert (E := HM 0 0 ltac:(lia) ltac:(lia)). cbv in E. unfold mmul, from_upper, zsum, lsum. change (zrange 1) with [0]. cbn. rewrite E. reflexivity.
    - intros k Hk. lia. }
  split. { intros z Hz. unfold buf. rewrite (proj2 (Z.ltb_ge z (0 + Z.of_nat (length [0])))) by (cbn; lia). rewrite andb_false_r. reflexivity. }
  split; [eexists; eexists; split; [vm_compute; reflexivity|vm_compute; reflexivity]|].
  cbv beta iota zeta delta [d_pow d_pow_tensors].
  set (a1 := map (fun b => Run b 0) (seq 0 32)). set (a2 := map (fun t => Run 0 t) (seq 0 32)).
  apply (dexec_refutes (O := ZOps) [a1; a1; a1] _ _
    (fun h' : heap Z => match h' 12 with Some v => negb (v =? 0) | None => true end)); [vm_compute; reflexivity|].
  intros h' E. cbn [dbase tensor_ctor] in E. change (addr _ _) with 12 in E. rewrite E. reflexivity.
Qed.

Example C109_pow_case :
  let '(P, steps) := d_pow (O := ZOps) (Lsy 0 swZ (fun i => 5 * i + 4)) ZF2 (mkDesc 0 [2; 2] [3; 1]) 2 0 100 in
  dev_runs (O := ZOps) steps (buf 0 [9; 0; 77; 0; 4]) (fun h' => exists p, holds h' P p /\ h' 2 = Some 77 /\
    (forall i, 0 <= i < 2 -> zsum (O := ZOps) 2 (fun j => p [i; j] * swZ 0 j) = 16 * swZ 0 i)).
Proof.
  set (A := mkDesc 0 [2; 2] [3; 1]). set (h := buf 0 [9; 0; 77; 0; 4]).
  set (a := fun i => if nth 0 i 0 =? nth 1 i 0 then (if nth 0 i 0 =? 0 then 9 else 4) else 0).
  assert (G := C109_pow_partial ZOps ZOps_ring (fun x y E => proj1 (Z.mul_eq_0 x y) E) (Lsy 0 swZ (fun i => 5 * i + 4)) ZF2 A 2 3 100 2 0 a h).
  destruct (d_pow (O := ZOps) (Lsy 0 swZ (fun i => 5 * i + 4)) ZF2 A 2 0 100) as (P, steps).
  destruct G as (_ & _ & G); try lia.
  - repeat split; cbn; lia.
  - intros idx H. apply inb2_inv in H as (i & j & -> & Hi & Hj). two i Hi; two j Hj; reflexivity.
  - intros i j Hi Hj. unfold a. cbn [nth]. rewrite (Z.eqb_sym j i). destruct (Z.eqb_spec i j) as [->|]; auto.
  - intros M HM. split; [apply swap_contract; exact HM|reflexivity].
  - intros z Hz. unfold h, buf. rewrite (proj2 (Z.ltb_ge z _)) by (cbn; lia). rewrite andb_false_r. reflexivity.
  - eapply dev_runs_weaken; [|exact G]. cbv beta. intros h' (p & H1 & H2 & H3). exists p. split; auto.
    split. { rewrite H3 by lia. reflexivity. }
    intros i Hi. apply (H2 4 (swZ 0)); auto. intros k Hk. rewrite sumZ2. two k Hk; reflexivity.
Qed.

Example C109_gesv_case :
  match d_gesv false L2 (mkDesc 0 [2; 2] [3; 1]) (mkDesc 10 [1; 2] [4; 1]) 99 (hor (qbuf 0 [1; 2; 77; 3; 4]) (qbuf 10 [5; 6])) with
  | Ok (info, h') => info = 0 /\ qs h' [10; 11; 2] = [Some (-1)%Q; Some 2%Q; Some 77%Q]
  | _ => False
  end /\
  match d_gesv true L2 (mkDesc 0 [2; 2] [3; 1]) (mkDesc 10 [1; 2] [4; 1]) 90 (hor (qbuf 0 [1; 2; 77; 3; 4]) (qbuf 10 [5; 6])) with
  | Ok (info, h') => info = 0 /\ qs h' [10; 11; 90; 91] = [Some 5%Q; Some 6%Q; Some (-1)%Q; Some 2%Q]
  | _ => False
  end.
Proof. vm_compute. auto. Qed.
Example C109_syev_case :
  match d_syev (O := ZOps) (Lsy 0 swZ (fun i => 5 * i + 4)) (mkDesc 0 [2; 2] [3; 1]) (tensor_ctor 10 [2])
          (hor (buf 0 [9; 0; 77; 0; 4]) (buf 10 [0; 0])) with
  | Ok h' => map h' [0; 1; 2; 3; 4; 10; 11] = map Some [0; 1; 77; 1; 0; 4; 9]
  | _ => False end.
Proof. reflexivity. Qed.

Print Assumptions C108_gemm_partial.
Print Assumptions C108_gemv_partial.
Print Assumptions C108_ger_partial.
Print Assumptions C108_ger_complex_refuted.
Print Assumptions C108_ger_view_refuted.
Print Assumptions C108_scale_partial.
Print Assumptions C108_axpy_partial.
Print Assumptions C108_views_refuted.
Print Assumptions C108_scale_row_column.
Print Assumptions C108_gemv_refuted.
Print Assumptions C109_gesv_partial.
Print Assumptions C109_gesv_nvidia_keeps.
Print Assumptions C109_gesv_nvidia_refuted.
Print Assumptions C109_syev_partial.
Print Assumptions C109_syev_no_convergence_refuted.
Print Assumptions C109_pow_partial.
Print Assumptions C109_pow_cutoff_refuted.
