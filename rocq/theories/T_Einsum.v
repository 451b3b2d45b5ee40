(** * T_Einsum: property theorems about the generic contraction (C11, C12, C17). *)
From Coq Require Import List ZArith Lia Bool Permutation Ring.
From Verif Require Import Base Heap Conc M_Addr M_Einsum S_Einsum L_Addr L_Elt L_Einsum.
Import ListNotations.
Open Scope Z_scope.

(** ** C11 *)

(** einsum(cp, Ci, &C, ab, Ai, A, Bi, B) on the reference path, any label lists
    (repeated labels, labels only in C), any strides and offsets, any number of
    threads, distribution of target elements and interleaving.  Missing for the
    full property: a contracted label occurring twice in A, where the code is
    wrong ([C11_repeated_link_refuted]). *)
Theorem C11_einsum_generic_partial :
  forall (O : Ops) (HR : is_ring O) (h : heap (car O)) Ci Ai Bi (ext : nat -> Z) A B C a b c cp ab L threads,
  (forall l, In l Ai \/ In l Bi -> In l Ci \/ (In l Ai /\ In l Bi)) ->
  contracted L Ci Ai Bi ->
  (forall l, In l L -> count_occ Nat.eq_dec Ai l = 1%nat) ->
  (forall l, In l (Ci ++ Ai ++ Bi) -> 0 <= ext l < 2 ^ 31) ->
  consistent ext Ai A -> consistent ext Bi B -> consistent ext Ci C ->
  holds h A a -> holds h B b -> holds h C c ->
  inj C -> disj C A -> disj C B ->
  let e := mkEin Ci Ai Bi in
  Permutation (concat threads) (generic_targets e C) ->
  par_spec (omp_for (generic_body e cp ab C A B) threads) h (fun h' =>
    (forall env, env_ok ext env Ci ->
       h' (addr C (map env Ci)) =
       Some (oadd (omul cp (c (map env Ci))) (omul ab (einstein L Ai Bi ext a b env)))) /\
    (forall z, (forall env, env_ok ext env Ci -> z <> addr C (map env Ci)) -> h' z = h z)).
Proof.
  intros O HR h Ci Ai Bi ext A B C a b c cp ab L threads Hlab HL Hone Hext HdA HdB HdC HA HB HC Hi HsA HsB e HP.
  assert (Hlinks : forall l, In l (links e) -> count_occ Nat.eq_dec (eA e) l = 1%nat).
  { intros l Hl. apply in_links in Hl. apply Hone. apply (proj2 HL). simpl in Hl. tauto. }
  assert (HG := generic_par e cp ab C A B ext h a b c Hlab Hlinks Hext HdA HdB HdC HA HB HC Hi HsA HsB threads HP).
  apply par_spec_weaken with (2 := HG). intros h' (H1 & H2). split.
  - intros env He. destruct (target_of_env e C ext Hext HdC env He) as (Ht & Et).
    specialize (H1 _ Ht). unfold gad in H1. rewrite Et in H1. simpl in H1. rewrite H1. f_equal.
    unfold gval. rewrite Et. simpl eC. rewrite (gsum_einstein HR e ab ext a b Hlab env L HL). simpl.
    f_equal. destruct (oeqb cp o0) eqn:E0.
    + apply (ir_eqb O HR) in E0. subst cp. now rewrite (omul_0_r HR), (omul_0_l HR).
    + apply (omul_comm HR).
  - intros z Hz. apply H2. intros Ho. apply in_map_iff in Ho as (t & E & Ht).
    assert (Hin := tgt_inb e C ext Hext HdC t Ht). rewrite HdC in Hin.
    apply (Hz (construct_index (C_unique e) t [] [])); auto.
    apply env_ok_map. exact Hin.
Qed.
Print Assumptions C11_einsum_generic_partial.

(** A = (i,i), B = (i), scalar result: each product is added once per value of
    the second occurrence; the sum 1*1+4*2 = 9 comes out as 18. *)
Theorem C11_repeated_link_refuted :
  let h : heap Z := fun z => if (0 <=? z) && (z <? 4) then Some (z + 1) else
                             if (10 <=? z) && (z <? 12) then Some (z - 9) else
                             if z =? 20 then Some 0 else None in
  let A := tensor_ctor 0 [2; 2] in let B := tensor_ctor 10 [2] in let C := tensor_ctor 20 [] in
  let e := mkEin [] [0; 0]%nat [0]%nat in
  compiles e = true /\
  exists h', run (generic_body (O := ZOps) e 0 1 C A B []) h = Ok (tt, h') /\ h' 20 = Some 18 /\
    1 * 1 + 4 * 2 = 9.
Proof. simpl. split; [reflexivity|]. eexists. split; [reflexivity|]. split; reflexivity. Qed.
Print Assumptions C11_repeated_link_refuted.

(** C(i,j) = 3*C(i,j) + 2*sum_k A(k,i)*B(k,j) over a 2x3 result with A a view
    into a larger array: the hypotheses hold and the loop gives the sum. *)
Definition ex_ext (l : nat) : Z := match l with 0%nat => 2 | 1%nat => 3 | _ => 2 end.
Definition ex_A := mkDesc 1 [2; 2] [5; 2].
Definition ex_B := tensor_ctor 20 [2; 3].
Definition ex_C := tensor_ctor 40 [2; 3].
Definition ex_h : heap Z := fun z => if (0 <=? z) && (z <? 46) then Some (z mod 7) else None.
Example C11_case :
  contracted [2]%nat [0; 1]%nat [2; 0]%nat [2; 1]%nat /\
  consistent ex_ext [2; 0]%nat ex_A /\ consistent ex_ext [2; 1]%nat ex_B /\ consistent ex_ext [0; 1]%nat ex_C /\
  match run (pseq (generic_targets (mkEin [0; 1] [2; 0] [2; 1])%nat ex_C)
                  (generic_body (O := ZOps) (mkEin [0; 1] [2; 0] [2; 1])%nat 3 2 ex_C ex_A ex_B)) ex_h with
  | Ok (_, h') => h' (addr ex_C [1; 2]) = Some (3 * (45 mod 7) + 2 * ((3 mod 7) * (22 mod 7) + (8 mod 7) * (25 mod 7)))
  | _ => False
  end.
Proof.
  split; [|repeat split].
  split; [repeat constructor; simpl; intuition lia|]. intros l. simpl. intuition lia.
Qed.

(** ** C12 (reference path) *)

(** With a zero C prefactor two runs that differ only in the previous contents
    of C give the same C.  No law of arithmetic is used, so this covers NaN.
    Full property: every path; false for the dot and outer-product paths, see
    the [C12_*_refuted] theorems in T_Dispatch.v. *)
Theorem C12_zero_prefactor_generic_partial :
  forall (O : Ops) (h1 h2 : heap (car O)) Ci Ai Bi (ext : nat -> Z) A B C a b c1 c2 cp ab threads1 threads2,
  (forall l, In l Ai \/ In l Bi -> In l Ci \/ (In l Ai /\ In l Bi)) ->
  (forall l, In l Ai -> ~ In l Ci -> count_occ Nat.eq_dec Ai l = 1%nat) ->
  (forall l, In l (Ci ++ Ai ++ Bi) -> 0 <= ext l < 2 ^ 31) ->
  consistent ext Ai A -> consistent ext Bi B -> consistent ext Ci C ->
  inj C -> disj C A -> disj C B ->
  oeqb cp o0 = true ->
  holds h1 A a -> holds h1 B b -> holds h2 A a -> holds h2 B b ->
  holds h1 C c1 -> holds h2 C c2 ->
  let e := mkEin Ci Ai Bi in
  Permutation (concat threads1) (generic_targets e C) ->
  Permutation (concat threads2) (generic_targets e C) ->
  exists c' : list Z -> car O,
    par_spec (omp_for (generic_body e cp ab C A B) threads1) h1 (fun h' =>
      forall env, env_ok ext env Ci -> h' (addr C (map env Ci)) = Some (c' (map env Ci))) /\
    par_spec (omp_for (generic_body e cp ab C A B) threads2) h2 (fun h' =>
      forall env, env_ok ext env Ci -> h' (addr C (map env Ci)) = Some (c' (map env Ci))).
Proof.
  intros O h1 h2 Ci Ai Bi ext A B C a b c1 c2 cp ab th1 th2 Hlab Hone Hext HdA HdB HdC Hi HsA HsB H0
    HA1 HB1 HA2 HB2 HC1 HC2 e HP1 HP2.
  assert (Hlinks : forall l, In l (links e) -> count_occ Nat.eq_dec (eA e) l = 1%nat).
  { intros l Hl. apply in_links in Hl. simpl in Hl. apply Hone; tauto. }
  assert (HG1 := generic_par e cp ab C A B ext h1 a b c1 Hlab Hlinks Hext HdA HdB HdC HA1 HB1 HC1 Hi HsA HsB th1 HP1).
  assert (HG2 := generic_par e cp ab C A B ext h2 a b c2 Hlab Hlinks Hext HdA HdB HdC HA2 HB2 HC2 Hi HsA HsB th2 HP2).
  (* value as a function of the element: read the target combination back from the index *)
  exists (fun idx => gval e cp ab ext a b (fun _ => o0)
                       (map (fun l => construct_index Ci idx [] [] l) (C_unique e))).
  assert (Ev : forall c env, env_ok ext env Ci ->
     gval e cp ab ext a b c (map env (C_unique e)) =
     gval e cp ab ext a b (fun _ => o0) (map (fun l => construct_index Ci (map env Ci) [] [] l) (C_unique e))).
  { intros c env He. assert (E : map (fun l => construct_index Ci (map env Ci) [] [] l) (C_unique e) = map env (C_unique e)).
    { apply map_ext_in. intros l Hl. apply construct_index_env_l. unfold C_unique in Hl.
      now rewrite in_unique in Hl. }
    rewrite E. unfold gval. now rewrite H0. }
  split; [apply par_spec_weaken with (2 := HG1)|apply par_spec_weaken with (2 := HG2)];
    intros h' (H1 & _) env He; destruct (target_of_env e C ext Hext HdC env He) as (Ht & Et);
    specialize (H1 _ Ht); unfold gad in H1; rewrite Et in H1; simpl in H1; rewrite H1; f_equal; now apply Ev.
Qed.
Print Assumptions C12_zero_prefactor_generic_partial.

(** NaN in C, zero prefactor: overwritten. *)
Example C12_case :
  let h : heap (option Z) := fun z => if (0 <=? z) && (z <? 4) then Some (Some (z + 1)) else
                             if (10 <=? z) && (z <? 12) then Some None else None in
  match run (pseq (generic_targets (mkEin [0] [0; 1] [1])%nat (tensor_ctor 10 [2]))
                  (generic_body (O := NanOps) (mkEin [0] [0; 1] [1])%nat (Some 0) (Some 1) (tensor_ctor 10 [2])
                     (tensor_ctor 0 [2; 2]) (tensor_ctor 2 [2]))) h with
  | Ok (_, h') => h' 10 = Some (Some (1 * 3 + 2 * 4)) /\ h' 11 = Some (Some (3 * 3 + 4 * 4))
  | _ => False end.
Proof. split; reflexivity. Qed.

(** ** C17 *)

(** One final memory for every number of threads, distribution of the target
    elements and interleaving; no law of arithmetic is used (bitwise
    reproducibility of the loop). *)
Theorem C17_schedule_independent :
  forall (O : Ops) (h : heap (car O)) Ci Ai Bi (ext : nat -> Z) A B C a b c cp ab,
  (forall l, In l Ai \/ In l Bi -> In l Ci \/ (In l Ai /\ In l Bi)) ->
  (forall l, In l Ai -> ~ In l Ci -> count_occ Nat.eq_dec Ai l = 1%nat) ->
  (forall l, In l (Ci ++ Ai ++ Bi) -> 0 <= ext l < 2 ^ 31) ->
  consistent ext Ai A -> consistent ext Bi B -> consistent ext Ci C ->
  holds h A a -> holds h B b -> holds h C c ->
  inj C -> disj C A -> disj C B ->
  let e := mkEin Ci Ai Bi in
  exists hfin : heap (car O),
    run (pseq (generic_targets e C) (generic_body e cp ab C A B)) h = Ok (tt, hfin) /\
    forall threads, Permutation (concat threads) (generic_targets e C) ->
      par_spec (omp_for (generic_body e cp ab C A B) threads) h (fun h' => forall z, h' z = hfin z).
Proof.
  intros O h Ci Ai Bi ext A B C a b c cp ab Hlab Hone Hext HdA HdB HdC HA HB HC Hi HsA HsB e.
  assert (Hlinks : forall l, In l (links e) -> count_occ Nat.eq_dec (eA e) l = 1%nat).
  { intros l Hl. apply in_links in Hl. simpl in Hl. apply Hone; tauto. }
  assert (HND := gad_NoDup e C ext Hext HdC Hi).
  assert (HT := generic_task_ok e cp ab C A B ext h a b c Hlab Hlinks Hext HdA HdB HdC HA HB HC HsA HsB).
  destruct (run_tasks_seq _ _ _ _ _ _ h HND HT (generic_targets e C) h HND (fun x Hx => Hx) (fun a _ => eq_refl))
    as (_ & h2 & E & H1 & H2).
  exists h2. split; auto. intros threads HP.
  assert (HG := generic_par e cp ab C A B ext h a b c Hlab Hlinks Hext HdA HdB HdC HA HB HC Hi HsA HsB threads HP).
  apply par_spec_weaken with (2 := HG). intros h' (G1 & G2) z.
  destruct (in_dec Z.eq_dec z (map (gad e C) (generic_targets e C))) as [Hin|Hn].
  - apply in_map_iff in Hin as (t & <- & Ht). rewrite (G1 t Ht), (H1 t Ht). reflexivity.
  - rewrite (H2 z Hn). apply G2. exact Hn.
Qed.
Print Assumptions C17_schedule_independent.

Example C17_case : Permutation (concat [[[1; 0]; [0; 1]]; [[0; 0]; [1; 1]]])
  (generic_targets (mkEin [0; 1] [0; 2] [2; 1])%nat (tensor_ctor 0 [2; 2])).
Proof.
  change (Permutation [[1; 0]; [0; 1]; [0; 0]; [1; 1]] [[0; 0]; [0; 1]; [1; 0]; [1; 1]]).
  apply perm_trans with ([[0; 1]; [1; 0]; [0; 0]; [1; 1]]); [apply perm_swap|].
  apply perm_trans with ([[0; 1]; [0; 0]; [1; 0]; [1; 1]]); [apply perm_skip, perm_swap|apply perm_swap].
Qed.
