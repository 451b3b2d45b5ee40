(** * T_BlockSort: sort of block-diagonal tensors (C96). *)
From Coq Require Import List ZArith Lia Bool Permutation.
From Verif Require Import Base Heap Conc M_Addr S_Addr L_Addr M_Elt L_Elt M_Einsum S_Einsum L_Einsum
  S_Blas M_Blas L_Blas M_Dispatch S_Dispatch L_Dispatch M_Sort T_Sort M_Block S_Block L_Block T_Block
  M_BlockEinsum L_BlockEinsum T_BlockEinsum T_Elem M_BlockSort.
Import ListNotations.
Open Scope Z_scope.

(** C(Ci) = uc C(Ci) + ua A(Ai) on the dense tensors that the block tensors
    stand for, for equal block structures, every permutation of the labels and
    every order of the blocks.  Missing: see [C96_structure_refuted]. *)
Theorem C96_sort_partial :
  forall (O : Ops), is_ring O ->
  forall (sizes : list Z) (Ci Ai : list nat) (A C : bt) (a c : nat -> list Z -> car O) (uc ua : car O) (use_hptt : bool)
         (order : list nat) (h : heap (car O)),
    NoDup Ci -> Permutation Ci Ai -> Ci <> [] -> Forall (fun n => n < 2 ^ 31) sizes ->
    bt_ok (length Ai) A sizes -> bt_ok (length Ci) C sizes -> bt_holds h A a -> bt_holds h C c ->
    bt_sep C -> bt_disj C A -> Permutation order (seq 0 (length sizes)) ->
    exists h' c', block_sort use_hptt uc Ci C ua Ai A order h = Ok h' /\ bt_holds h' C c' /\
      (forall env : nat -> Z,
         dense sizes c' (map env Ci) = oadd (omul uc (dense sizes c (map env Ci))) (omul ua (dense sizes a (map env Ai)))) /\
      (forall z, ~ bt_cell C z -> h' z = h z).
Proof.
  intros O HR sizes Ci Ai A C a c uc ua hp order h HN HPm Hne Hbig OA OC HA HC SC DCA HP.
  assert (HN0 : Forall (fun n => 0 <= n) sizes) by (destruct OA; auto).
  assert (Hin : forall l, In l Ci <-> In l Ai).
  { intros l. split; intros Hl; [eapply Permutation_in; eauto|eapply Permutation_in; [apply Permutation_sym|]; eauto]. }
  assert (LE : length Ci = length Ai) by (apply Permutation_length; auto).
  assert (Hne' : Ai <> []) by (intros ->; destruct Ci; [congruence|discriminate]).
  (* contents of block k *)
  set (idx_env := fun (idx : list Z) (l : nat) => upds Ci idx (fun _ => 0) l).
  set (c' := fun k idx => oadd (omul uc (c k idx)) (omul ua (a k (map (idx_env idx) Ai)))).
  assert (IE : forall env l, In l Ci -> idx_env (map env Ci) l = env l).
  { intros env l Hl. unfold idx_env. assert (G := upds_map Ci (map env Ci) (fun _ => 0) HN (map_length _ _)).
    apply (ext_in_map G). auto. }
  assert (IN : forall i, In i order <-> (i < length sizes)%nat).
  { intros i. split; intros H.
    - apply (Permutation_in _ HP) in H. apply in_seq in H. lia.
    - apply (Permutation_in _ (Permutation_sym HP)). apply in_seq. lia. }
  assert (Rep : forall (n : Z) (l : list nat), repeat n (length l) = map (fun _ => n) l).
  { intros n. induction l; simpl; f_equal; auto. }
  unfold block_sort. match goal with |- context [forM order ?g h] => set (f := g) end.
  destruct (forM_regions nat (car O) (fun i z => exists d, nth_error (bt_blocks C) i = Some d /\ cell d z)
     (fun i h1 => forall d, nth_error (bt_blocks C) i = Some d -> holds h1 d (c' i)) f order h) as (h' & E & H1 & H2).
  - apply (Permutation_NoDup (Permutation_sym HP)). apply seq_NoDup.
  - intros i j z _ _ (d & Ed & (x & Hx & Ex)) (e & Ee & (y & Hy & Ey)).
    destruct (Nat.eq_dec i j); auto. elim (SC i j d e Ed Ee n x y Hx Hy). congruence.
  - intros i h1 h2 _ Hag Hh d Ed idx Hi. rewrite <- Hag; [now apply Hh|]. exists d. split; auto. exists idx; auto.
  - intros k h1 Hk Hag. apply IN in Hk.
    destruct (bt_block _ C sizes k OC Hk) as (dC & EC & DC & RC). destruct (bt_block _ A sizes k OA Hk) as (dA & EA & DA & RA).
    set (n := nth k sizes 0) in *.
    assert (Hn : 0 <= n < 2 ^ 31).
    { split; [apply nth_nonneg; auto|]. rewrite Forall_forall in Hbig. apply Hbig. apply nth_In. auto. }
    destruct (plan_run_spec O (sort hp uc Ci dC ua Ai dA h1) (fun h' =>
      (forall env, env_ok (fun _ => n) env Ci ->
         h' (addr dC (map env Ci)) = Some (oadd (omul uc (c k (map env Ci))) (omul ua (a k (map env Ai))))) /\
      (forall z, (forall env, env_ok (fun _ => n) env Ci -> z <> addr dC (map env Ci)) -> h' z = h1 z))) as (h2 & E2 & V2 & F2).
    { apply (C18_sort_partial O HR h1 Ci Ai (fun _ => n) dA dC (a k) (c k) uc ua hp); auto.
      - unfold consistent. rewrite DA. apply Rep.
      - unfold consistent. rewrite DC. apply Rep.
      - intros idx Hi. rewrite Hag; [apply (HA k dA EA); auto|]. right. intros j _ (d & Ed & (p & Hp & Ep)).
        apply (DCA j k d dA Ed EA p idx); auto.
      - intros idx Hi. rewrite Hag; [apply (HC k dC EC); auto|]. left. exists dC. split; auto. exists idx; auto.
      - apply rowmaj_inj'. auto.
      - apply (DCA k k); auto.
      - intros _. split; apply contiguous_rowmaj; auto.
      - intros _. split; apply contiguous_rowmaj; auto. }
    exists h2. unfold f. rewrite EC, EA. split; [exact E2|]. split.
    + intros d Ed idx Hi. assert (d = dC) by congruence. subst d. rewrite DC in Hi.
      assert (HL : length idx = length Ci) by (rewrite <- (repeat_length n (length Ci)); eapply inb_length; eauto).
      assert (EI : idx = map (idx_env idx) Ci) by (symmetry; apply upds_map; auto).
      rewrite EI at 1. rewrite V2.
      * rewrite <- EI. reflexivity.
      * apply inb_env. rewrite <- EI. auto.
    + intros z Hz. apply F2. intros env He ->. apply Hz. exists dC. split; auto. exists (map env Ci). split; auto.
      rewrite DC. apply inb_env. auto.
  - exists h', c'. split; auto. split; [|split].
    + intros k d Ed. apply (H1 k); auto. apply IN. destruct OC as (_ & HL & _). rewrite <- HL. apply nth_error_Some. congruence.
    + intros env. destruct (in_blk_dec sizes (map env Ci)) as [(k & Hk)|Hno].
      * assert (Hk' : in_blk sizes k (map env Ai)).
        { destruct Hk as (K1 & K2). split; auto. rewrite Forall_forall in *. intros x Hx. apply in_map_iff in Hx as (l & <- & Hl).
          apply K2. apply in_map. apply Hin. auto. }
        assert (N1 : map env Ci <> []) by (intros X; apply map_eq_nil in X; auto).
        assert (N2 : map env Ai <> []) by (intros X; apply map_eq_nil in X; auto).
        rewrite !(dense_in O sizes _ _ k) by auto. unfold c'. do 3 f_equal.
        rewrite !map_map. apply map_ext_in. intros l Hl. apply (IE (fun l => env l - off sizes k)). apply Hin. auto.
      * rewrite !dense_out; [rewrite !(omul_0_r HR); symmetry; apply (Radd_0_l (ir_rt O HR))| |auto|auto].
        intros k (K1 & K2). apply (Hno k). split; auto. rewrite Forall_forall in *. intros x Hx.
        apply in_map_iff in Hx as (l & <- & Hl). apply K2. apply in_map. apply Hin. auto.
    + intros z Hz. apply H2. intros i _ (d & Ed & Hc). apply Hz. exists i, d. auto.
Qed.
Print Assumptions C96_sort_partial.

(** A has more blocks than C: an exception. *)
Theorem C96_more_blocks :
  forall (O : Ops) uc Ci (C : bt) ua Ai (A : bt) hp k order (h : heap (car O)),
    (length (bt_blocks C) <= k < length (bt_blocks A))%nat ->
    block_sort hp uc Ci C ua Ai A (k :: order) h = Throw.
Proof.
  intros O uc Ci C ua Ai A hp k order h Hk. unfold block_sort. cbn [forM].
  rewrite (proj2 (nth_error_None (bt_blocks C) k)) by lia. reflexivity.
Qed.
Print Assumptions C96_more_blocks.

(** C has a block that A has not: it keeps its contents, although the prefactor
    of C is zero and the dense A is zero there. *)
Theorem C96_structure_refuted :
  let A := bt_ctor 2 99 [0] [1] in let C := bt_ctor 2 99 [1; 2] [1; 1] in
  let h := fun z => nth (Z.to_nat z) [Some 5; Some 7; Some 8] None in
  match block_sort (O := ZOps) false 0 [0; 1]%nat C 1 [1; 0]%nat A [0%nat] h with
  | Ok h' => h' 1 = Some 5 /\ h' 2 = Some 8
  | _ => False
  end.
Proof. cbv zeta. vm_compute. auto. Qed.
Print Assumptions C96_structure_refuted.

(** Blocks of sizes 2 and 1; C(j,i) = 10 C(j,i) + A(i,j). *)
Example C96_case :
  let A := bt_ctor 2 99 [0; 4] [2; 1] in let C := bt_ctor 2 99 [10; 14] [2; 1] in
  let h := fun z => if (0 <=? z) && (z <? 20) then Some z else None in
  bt_ok 2 A [2; 1] /\ bt_ok 2 C [2; 1] /\ Permutation [1; 0]%nat [0; 1]%nat /\
  match block_sort (O := ZOps) false 10 [1; 0]%nat C 1 [0; 1]%nat A [1; 0]%nat h with
  | Ok h' => map h' [10; 11; 12; 13; 14] = map Some [100; 112; 121; 133; 144]
  | _ => False
  end.
Proof.
  cbv zeta.
  assert (G : forall b1 b2, bt_ok 2 (bt_ctor 2 99 [b1; b2] [2; 1]) [2; 1]).
  { intros b1 b2. split; [repeat constructor; lia|]. split; [reflexivity|]. split.
    - intros [|[|[|k]]] d Hd; try discriminate; injection Hd as <-; (split; [reflexivity|apply contiguous_rowmaj; reflexivity]).
    - split; [reflexivity|]. split; [|reflexivity]. intros [|[|k]] Hk; [reflexivity|reflexivity|cbn in Hk; lia]. }
  split; [apply G|]. split; [apply G|]. split; [apply perm_swap|]. vm_compute. reflexivity.
Qed.
