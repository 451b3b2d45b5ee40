(** * T_PyEinsum: einsum plans compiled and executed from Python. *)
From Coq Require Import List ZArith Lia Bool Permutation Ring_theory Ring.
From Verif Require Import Base Heap Conc M_Addr M_Einsum M_Blas M_Dispatch M_PyEinsum S_Blas S_Einsum S_PyEinsum
  L_Addr L_Einsum L_Blas T_Blas L_Dispatch L_Paths L_Elt T_Dispatch L_PyEinsum L_PyPlans L_PyBlas L_PyChoice.
Import ListNotations.
Open Scope Z_scope.

(** ** C73: the loop used when no BLAS call applies *)

(** The call uses the loop: compilation chose it, or chose a BLAS plan and one
    of the buffers is not contiguous. *)
Definition uses_loop (e : ein) (C A B : desc) : Prop :=
  match py_algorithm e with
  | Ok PyGeneric => True
  | Ok PyDot | Ok PyDirect => False
  | Ok _ => ~ (rowmaj C /\ rowmaj A /\ rowmaj B)
  | _ => False
  end.

Lemma full_false : forall C A B, ~ (rowmaj C /\ rowmaj A /\ rowmaj B) ->
  py_contiguous C && py_contiguous A && py_contiguous B = false.
Proof.
  intros C A B H. destruct (py_contiguous C) eqn:E1, (py_contiguous A) eqn:E2, (py_contiguous B) eqn:E3; auto.
  exfalso. apply H. rewrite <- !contiguous_rm. auto.
Qed.
Lemma loop_eq : forall (O : Ops) e sz (cp ab : car O) C A B, uses_loop e C A B ->
  py_einsum e sz cp C ab A B = py_generic (py_base e) cp C ab A B.
Proof.
  intros O e sz cp ab C A B H. unfold uses_loop in H. unfold py_einsum.
  destruct (py_algorithm e) as [alg| |]; try contradiction. cbn [bind]. unfold py_execute.
  destruct alg; try contradiction; auto; now rewrite full_false.
Qed.

(** Every index pattern (repeated labels, labels in one operand only, batch
    labels), every stride.  Missing: several threads with a summed label, and
    results without indices; both are refuted below. *)
Theorem C73_loop_partial :
  forall (O : Ops), is_ring O ->
  forall k e sz (cp ab : car O) L ext A B C a b c h,
    uses_loop e C A B -> py_call h ext (eC e) (eA e) (eB e) L A B C a b c -> eC e <> [] ->
    (0 < k)%nat -> (k = 1%nat \/ L = []) ->
    py_runs k (py_einsum e sz cp C ab A B) h (py_result ext (eC e) (eA e) (eB e) L cp ab C a b c h).
Proof.
  intros O HR k e sz cp ab L ext A B C a b c h HU ((HLn & HL) & Hx & HdA & HdB & HdC & HA & HB & HC & HI & DA & DB) Hne Hk Hkl.
  rewrite loop_eq by auto. apply generic_ok; auto. split; auto.
Qed.

(** A repeated label in an operand always leads to the loop. *)
Theorem C73_repeated_label : forall e C A B, ~ (NoDup (eA e) /\ NoDup (eB e) /\ NoDup (eC e)) -> uses_loop e C A B.
Proof.
  intros e C A B H.
  assert (NH : no_hadamard e = false).
  { destruct (no_hadamard e) eqn:E; auto. exfalso. apply H. unfold no_hadamard in E. rewrite !andb_true_iff, !negb_true_iff in E.
    destruct E as ((E1 & E2) & E3). repeat split; apply hadamard_false; auto. }
  unfold uses_loop, py_algorithm, py_dot_product, py_element_wise, py_outer_product, py_gemv_AB_possible, py_gemv_BA_possible, py_gemm_possible.
  rewrite NH, !andb_false_r. exact I.
Qed.

(** A contraction whose labels do not form matrix-vector (C77) or matrix-matrix
    (C78) blocks is compiled to the loop. *)
Theorem C73_not_blocks : forall e C A B,
  paired (eC e) (eA e) (eB e) -> eC e <> [] -> (exists l, In l (eA e) /\ In l (eB e)) ->
  ~ (exists t P S, NoDup (P ++ S) /\ P <> [] /\ S <> [] /\
       (e = mkEin P (blk t P S) S \/ e = mkEin P S (blk t P S))) ->
  ~ (exists tA tB tC P Q S, NoDup (P ++ Q ++ S) /\ P <> [] /\ Q <> [] /\ S <> [] /\
       e = mkEin (blk tC P Q) (blk tA P S) (blk tB S Q)) ->
  uses_loop e C A B.
Proof.
  intros e C A B HP HC HAB NV NM.
  destruct (choice_loop _ HP HC HAB) as [E|[E|[E|E]]].
  - unfold uses_loop. now rewrite E.
  - exfalso. apply NV. destruct (gemv_AB_shape _ HP E) as (t & H1 & H2 & E1 & E2 & E3).
    eexists t, _, _. split; [apply (nodup_PL _ HP)|]. split; [exact H1|]. split; [exact H2|]. left. destruct e as [x y z]; cbn [eA eB eC] in *; f_equal; auto.
  - exfalso. apply NV. destruct (gemv_BA_shape _ HP E) as (t & H1 & H2 & E1 & E2 & E3).
    eexists t, _, _. split; [apply (nodup_QL _ HP)|]. split; [exact H1|]. split; [exact H2|]. right. destruct e as [x y z]; cbn [eA eB eC] in *; f_equal; auto.
  - exfalso. apply NM. destruct (gemm_shape _ HP E) as (tA & tB & tC & H1 & H2 & H3 & E1 & E2 & E3).
    eexists tA, tB, tC, _, _, _. split; [apply (nodup_PQL _ HP)|]. split; [exact H1|]. split; [exact H2|].
    split; [exact H3|]. destruct e as [x y z]; cbn [eA eB eC] in *; f_equal; auto.
Qed.

(** Operands with the wrong number of axes are rejected before anything is written. *)
Theorem C73_rank_mismatch : forall (O : Ops) e sz (cp ab : car O) C A B, uses_loop e C A B ->
  (length (eC e) <> length (ddims C) \/ length (eA e) <> length (ddims A) \/ length (eB e) <> length (ddims B)) ->
  py_einsum e sz cp C ab A B = Throw.
Proof.
  intros O e sz cp ab C A B HU H. rewrite loop_eq by auto. unfold py_generic.
  match goal with |- context [if ?g then Throw else _] => replace g with true end; auto. symmetry.
  unfold py_base. cbn [pb_A pb_B pb_C]. rewrite !perm_table_length, !orb_true_iff, !negb_true_iff, !Nat.eqb_neq. tauto.
Qed.

(** ** C74: element-wise product *)
Theorem C74_direct_product :
  forall (O : Ops), is_ring O ->
  forall k I sz (cp ab : car O) L ext A B C a b c h,
    NoDup I -> I <> [] -> py_call h ext I I I L A B C a b c ->
    py_runs k (py_einsum (mkEin I I I) sz cp C ab A B) h
      (fun h' => (forall idx, inb idx (ddims C) ->
                    h' (addr C idx) = Some (oadd (omul cp (c idx)) (omul ab (omul (a idx) (b idx))))) /\
                 (forall z, (forall idx, inb idx (ddims C) -> z <> addr C idx) -> h' z = h z)).
Proof.
  intros O HR k I sz cp ab L ext A B C a b c h HN Hne HC.
  destruct (direct_ok HR k sz cp ab I L ext A B C a b c h HN Hne HC) as (ss & E & H). exists ss. split; auto.
  assert (HL : L = []).
  { destruct HC as ((_ & HL) & _). destruct L as [|l L]; auto. exfalso. destruct (proj1 (HL l) (or_introl eq_refl)); tauto. }
  destruct HC as (_ & _ & _ & _ & HdC & _). unfold consistent in HdC.
  eapply steps_mono; [|exact H]. intros h' (H1 & _ & H3). split; auto. intros idx Hi. rewrite HdC in Hi.
  destruct (cover ext I idx HN Hi) as (env & Hok & ->). rewrite H1 by auto. subst L. reflexivity.
Qed.
Theorem C74_rank_mismatch : forall (O : Ops) I sz (cp ab : car O) C A B, NoDup I -> I <> [] ->
  (length I <> length (ddims C) \/ length I <> length (ddims A) \/ length I <> length (ddims B)) ->
  py_einsum (mkEin I I I) sz cp C ab A B = Throw.
Proof.
  intros O I sz cp ab C A B HN Hne H. unfold py_einsum. rewrite plan_direct by auto. cbn [bind]. unfold py_execute, py_direct.
  match goal with |- context [if ?g then Throw else _] => replace g with true end; auto. symmetry.
  assert (EN : pb_num (py_base (mkEin I I I)) = length I).
  { unfold py_base. cbn [pb_num eA eB eC]. apply Permutation_length, NoDup_Permutation; auto; [apply unique_NoDup|].
    intros l. rewrite in_unique, !in_app_iff. tauto. }
  rewrite EN, !orb_true_iff, !negb_true_iff, !Nat.eqb_neq. lia.
Qed.

(** ** C75: dot product *)
Theorem C75_dot_partial :
  forall (O : Ops), is_ring O ->
  forall k I sz (cp ab : car O) L ext A B C a b c h,
    NoDup I -> I <> [] -> py_call h ext [] I I L A B C a b c ->
    py_runs k (py_einsum (mkEin [] I I) sz cp C ab A B) h (py_result ext [] I I L cp ab C a b c h).
Proof. intros. apply dot_plan_ok; auto. Qed.

(** ** C76: outer product of contiguous tensors *)
Theorem C76_outer_partial :
  forall (O : Ops), is_ring O ->
  forall k sz (cp ab : car O) (t : bool) (P Q L : list nat) ext A B C a b c h,
    NoDup (P ++ Q) -> P <> [] -> rowmaj A -> rowmaj B -> rowmaj C ->
    (cp = o0 \/ cp = o1) -> 0 < zprod (map ext (if t then P else Q)) ->
    py_call h ext (blk t P Q) P Q L A B C a b c ->
    py_runs k (py_einsum (mkEin (blk t P Q) P Q) sz cp C ab A B) h (py_result ext (blk t P Q) P Q L cp ab C a b c h).
Proof. intros. apply ger_plan_ok; auto; now apply contiguous_rm. Qed.

(** ** C77: matrix times vector, contiguous *)
Theorem C77_gemv_partial :
  forall (O : Ops), is_ring O ->
  forall k sz (cp ab : car O) (t : bool) (P S L : list nat) ext A B C a b c h,
    NoDup (P ++ S) -> P <> [] -> S <> [] -> rowmaj A -> rowmaj B -> rowmaj C ->
    (length P <= length S)%nat -> zprod (map ext (firstn (length P) S)) = zprod (map ext S) ->
    (0 < zprod (map ext S) \/ cp = o1) ->
    (py_call h ext P (blk t P S) S L A B C a b c ->
     py_runs k (py_einsum (mkEin P (blk t P S) S) sz cp C ab A B) h (py_result ext P (blk t P S) S L cp ab C a b c h)) /\
    (py_call h ext P S (blk t P S) L A B C a b c ->
     py_runs k (py_einsum (mkEin P S (blk t P S)) sz cp C ab A B) h (py_result ext P S (blk t P S) L cp ab C a b c h)).
Proof.
  intros O HR k sz cp ab t P S L ext A B C a b c h HN HP HS RA RB RC Hl Hv Hk. split; intros HC.
  - apply (gemv_plan_ok HR k sz cp ab false t P S L ext A B C a b c h); auto; now apply contiguous_rm.
  - apply (gemv_plan_ok HR k sz cp ab true t P S L ext A B C a b c h); auto; now apply contiguous_rm.
Qed.

(** ** C78: matrix product, contiguous *)
Theorem C78_gemm_partial :
  forall (O : Ops), is_ring O ->
  forall k sz (cp ab : car O) (tA tB tC : bool) (P Q S L : list nat) ext A B C a b c h,
    NoDup (P ++ Q ++ S) -> P <> [] -> Q <> [] -> S <> [] -> rowmaj A -> rowmaj B -> rowmaj C ->
    (length P <= length S)%nat -> zprod (map ext (firstn (length P) S)) = zprod (map ext S) ->
    (tA = true -> zprod (map ext P) = zprod (map ext S)) ->
    (length Q <= length S)%nat -> (tB = true -> zprod (map ext (firstn (length Q) S)) = zprod (map ext Q)) ->
    (0 < zprod (map ext S) \/ cp = o1) ->
    py_call h ext (blk tC P Q) (blk tA P S) (blk tB S Q) L A B C a b c ->
    py_runs k (py_einsum (mkEin (blk tC P Q) (blk tA P S) (blk tB S Q)) sz cp C ab A B) h
      (py_result ext (blk tC P Q) (blk tA P S) (blk tB S Q) L cp ab C a b c h).
Proof.
  intros. apply (gemm_plan_ok H k sz cp ab tA tB tC P Q S L ext A B C a b c h); auto; now apply contiguous_rm.
Qed.

(** ** Concrete calls *)
Section Concrete.
  Definition look (h : heap Z) (d : desc) (idx : list Z) : Z := match h (addr d idx) with Some v => v | None => 0 end.

  (** A boolean check of [py_call]. *)
  Definition call_ok (h : heap Z) (ext : nat -> Z) (Ci Ai Bi L : list nat) (A B C : desc) : bool :=
    forallb (fun l => (has_type l Ai || has_type l Bi) && negb (has_type l Ci)) L &&
    forallb (fun l => has_type l Ci || has_type l L) (Ai ++ Bi) &&
    (if list_eq_dec Z.eq_dec (ddims A) (map ext Ai) then true else false) &&
    (if list_eq_dec Z.eq_dec (ddims B) (map ext Bi) then true else false) &&
    (if list_eq_dec Z.eq_dec (ddims C) (map ext Ci) then true else false) &&
    forallb (fun d => forallb (fun idx => match h (addr d idx) with Some _ => true | None => false end) (indices (ddims d))) [A; B; C] &&
    forallb (fun i => forallb (fun j => negb (addr C i =? addr A j)) (indices (ddims A))) (indices (ddims C)) &&
    forallb (fun i => forallb (fun j => negb (addr C i =? addr B j)) (indices (ddims B))) (indices (ddims C)) &&
    py_contiguous C.

  Lemma call_check : forall h ext Ci Ai Bi L A B C, NoDup L -> (forall l, 0 <= ext l) ->
    call_ok h ext Ci Ai Bi L A B C = true ->
    py_call (O := ZOps) h ext Ci Ai Bi L A B C (look h A) (look h B) (look h C).
  Proof.
    intros h ext Ci Ai Bi L A B C HN Hx H. unfold call_ok in H. rewrite !andb_true_iff in H.
    destruct H as ((((((((H1 & H2) & H3) & H4) & H5) & H6) & H7) & H8) & H9).
    destruct (list_eq_dec Z.eq_dec (ddims A) (map ext Ai)) as [E1|]; [|discriminate].
    destruct (list_eq_dec Z.eq_dec (ddims B) (map ext Bi)) as [E2|]; [|discriminate].
    destruct (list_eq_dec Z.eq_dec (ddims C) (map ext Ci)) as [E3|]; [|discriminate].
    cbn [forallb] in H6. rewrite !andb_true_iff in H6. destruct H6 as (H6 & H6' & H6'' & _).
    unfold py_call. split; [now apply contracted_check|]. split; auto. split; auto. split; auto. split; auto.
    split; [now apply holds_check|]. split; [now apply holds_check|]. split; [now apply holds_check|].
    split; [|split; now apply disj_check]. apply rowmaj_inj. now apply contiguous_rm.
  Qed.

  (** The call does not do what it should: it stops, or leaves another value. *)
  Definition differs (e : ein) (sz cp ab : Z) (C A B : desc) (h : heap Z) (z : Z) (v : option Z) : bool :=
    match py_einsum (O := ZOps) e sz cp C ab A B with
    | Ok ss => match seq_exec ss h with
               | Ok h' => match h' z, v with Some x, Some y => negb (x =? y) | None, None => false | _, _ => true end
               | _ => true end
    | _ => true
    end.
  Lemma differs_runs : forall e sz cp ab C A B h z v (Q : heap Z -> Prop), differs e sz cp ab C A B h z v = true ->
    (forall h' : heap Z, Q h' -> h' z = v) -> ~ py_runs (O := ZOps) 1 (py_einsum (O := ZOps) e sz cp C ab A B) h Q.
  Proof.
    intros e sz cp ab C A B h z v Q HD HQ (ss & E & H). apply steps_seq in H as (h' & E' & H). unfold differs in HD.
    rewrite E, E' in HD. apply HQ in H. rewrite H in HD. destruct v as [v|]; [|discriminate]. now rewrite Z.eqb_refl in HD.
  Qed.

  (** One element is wrong. *)
  Lemma wrong_element : forall e sz cp ab ext L A B C a b c h env,
    forallb (fun l => (0 <=? env l) && (env l <? ext l)) (eC e) = true ->
    differs e sz cp ab C A B h (addr C (map env (eC e)))
      (Some (cp * c (map env (eC e)) + ab * einstein (O := ZOps) L (eA e) (eB e) ext a b env)) = true ->
    ~ py_runs (O := ZOps) 1 (py_einsum (O := ZOps) e sz cp C ab A B) h (py_result (O := ZOps) ext (eC e) (eA e) (eB e) L cp ab C a b c h).
  Proof.
    intros e sz cp ab ext L A B C a b c h env Hok HD. eapply differs_runs; [exact HD|]. intros h' (H1 & _). apply H1.
    intros l Hl. rewrite forallb_forall in Hok. specialize (Hok l Hl). lia.
  Qed.
  (** Something outside C changes. *)
  Lemma wrong_outside : forall e sz cp ab ext L A B C a b c h z,
    forallb (fun i => negb (z =? addr C i)) (indices (ddims C)) = true ->
    differs e sz cp ab C A B h z (h z) = true ->
    ~ py_runs (O := ZOps) 1 (py_einsum (O := ZOps) e sz cp C ab A B) h (py_result (O := ZOps) ext (eC e) (eA e) (eB e) L cp ab C a b c h).
  Proof.
    intros e sz cp ab ext L A B C a b c h z Hz HD. eapply differs_runs; [exact HD|]. intros h' (_ & _ & H). apply H.
    intros i Hi ->. rewrite forallb_forall in Hz. apply in_indices in Hi. apply Hz in Hi. now rewrite Z.eqb_refl in Hi.
  Qed.

  (** A memory with 300 cells, the operands at 0, 100 and 200. *)
  Definition mem : heap Z := fun z => if (0 <=? z) && (z <? 300) then Some (z mod 7 + 1) else None.
  Definition rm (base : Z) (dims : list Z) : desc := mkDesc base dims (row_major_strides dims).
  Definition env0 : nat -> Z := fun _ => 0.
  Lemma ext_nonneg : forall xs, forallb (Z.leb 0) xs = true -> forall l, 0 <= nth l xs 1.
  Proof.
    intros xs H l. rewrite forallb_forall in H. destruct (Nat.lt_ge_cases l (length xs)) as [Hl|Hl].
    - apply Z.leb_le, H, nth_In. auto.
    - rewrite nth_overflow by auto. lia.
  Qed.

  (** For these indices and prefactors some valid call on contiguous 8-byte
      buffers does not compute the sum, with one thread already. *)
  Definition wrong (e : ein) (cp ab : Z) : Prop :=
    exists ext L A B C (h : heap Z) a b c,
      py_call (O := ZOps) h ext (eC e) (eA e) (eB e) L A B C a b c /\ rowmaj A /\ rowmaj B /\ rowmaj C /\
      ~ py_runs (O := ZOps) 1 (py_einsum (O := ZOps) e 8 cp C ab A B) h (py_result (O := ZOps) ext (eC e) (eA e) (eB e) L cp ab C a b c h).

  Lemma wrong_by : forall xs e cp ab L env, Nat.eqb (length L) (length (unique L)) = true ->
    let ext l := nth l xs 1 in forallb (Z.leb 0) xs = true ->
    (forallb (fun l => (0 <=? env l) && (env l <? ext l)) (eC e) = true) ->
    let A := rm 0 (map ext (eA e)) in let B := rm 100 (map ext (eB e)) in let C := rm 200 (map ext (eC e)) in
    call_ok mem ext (eC e) (eA e) (eB e) L A B C = true ->
    differs e 8 cp ab C A B mem (addr C (map env (eC e)))
      (Some (cp * look mem C (map env (eC e)) + ab * einstein (O := ZOps) L (eA e) (eB e) ext (look mem A) (look mem B) env)) = true ->
    wrong e cp ab.
  Proof.
    intros xs e cp ab L env HN ext Hx Hok A B C H1 H2. exists ext, L, A, B, C, mem, (look mem A), (look mem B), (look mem C).
    split; [apply call_check; auto; [now apply hadamard_NoDup|apply ext_nonneg; auto]|]. repeat (split; [reflexivity|]).
    now apply (wrong_element e 8 cp ab ext L A B C _ _ _ mem env).
  Qed.
  Lemma wrong_by_outside : forall xs e cp ab L z, Nat.eqb (length L) (length (unique L)) = true ->
    let ext l := nth l xs 1 in forallb (Z.leb 0) xs = true ->
    let A := rm 0 (map ext (eA e)) in let B := rm 100 (map ext (eB e)) in let C := rm 200 (map ext (eC e)) in
    call_ok mem ext (eC e) (eA e) (eB e) L A B C = true ->
    forallb (fun i => negb (z =? addr C i)) (indices (ddims C)) = true ->
    differs e 8 cp ab C A B mem z (mem z) = true -> wrong e cp ab.
  Proof.
    intros xs e cp ab L z HN ext Hx A B C H1 H2 H3. exists ext, L, A, B, C, mem, (look mem A), (look mem B), (look mem C).
    split; [apply call_check; auto; [now apply hadamard_NoDup|apply ext_nonneg; auto]|]. repeat (split; [reflexivity|]).
    now apply (wrong_outside e 8 cp ab ext L A B C _ _ _ mem z).
  Qed.
End Concrete.

(** Labels i, j, k, l are 0, 1, 2, 3. *)
Definition sizes : list Z := [2; 3; 2; 2].
Ltac wrong_at L env := apply (wrong_by sizes _ _ _ L env); vm_compute; reflexivity.

(** ** C73, refuted parts *)

(** "i" <- "ij","j" with a strided A (every second element of a row) and two
    threads: both read C[0] before either writes. *)
Theorem C73_race_refuted : exists e ext L A B C (h : heap Z) a b c,
  uses_loop e C A B /\ py_call (O := ZOps) h ext (eC e) (eA e) (eB e) L A B C a b c /\ eC e <> [] /\
  ~ py_runs (O := ZOps) 2 (py_einsum (O := ZOps) e 8 1 C 1 A B) h (py_result (O := ZOps) ext (eC e) (eA e) (eB e) L 1 1 C a b c h).
Proof.
  set (e := mkEin [0%nat] [0%nat; 1%nat] [1%nat]).
  set (A := mkDesc 0 [1; 2] [4; 2]). set (B := rm 100 [2]). set (C := rm 200 [1]). set (ext := fun l => nth l [1; 2] 1).
  exists e, ext, [1%nat], A, B, C, mem, (look mem A), (look mem B), (look mem C).
  split. { unfold uses_loop. change (py_algorithm e) with (Ok (PyGemv [1%nat] [0%nat] [0%nat] 0 1 0 0 false false)).
           intros (_ & H & _). vm_compute in H. discriminate. }
  split. { apply call_check; [repeat constructor; simpl; tauto|apply (ext_nonneg [1; 2]); reflexivity|vm_compute; reflexivity]. }
  split; [discriminate|]. intros (ss & E & H).
  set (body1 := @scale_body ZOps 1 C) in *. set (body2 := @sum_body ZOps (py_base e) 1 C A B [1; 2]) in *.
  assert (E' : py_einsum (O := ZOps) e 8 1 C 1 A B = Ok [PyFor body1 1; PyRegion body2 2]) by reflexivity.
  rewrite E' in E. injection E as <-. cbn [steps_spec] in H. specialize (H [zrange 1]). cbn [concat] in H. rewrite app_nil_r in H.
  specialize (H (Permutation_refl _)). unfold omp_for in H. cbn [map] in H. apply par_run in H as (h1 & E1 & (H & _)).
  assert (E2 : h1 = upd mem 200 ((200 mod 7 + 1) * 1)).
  { change (exec (O := ZOps) (pseq (zrange 1) body1) mem) with (Ok (upd mem 200 ((200 mod 7 + 1) * 1))) in E1. congruence. }
  destruct (H [PRet tt; PRet tt] (upd (upd h1 200 8) 200 17)) as (_ & _ & H2).
  { subst h1.
    eapply pss_step; [eapply (ps_rd _ _ 0%nat 0 _ 1); reflexivity|].
    eapply pss_step; [eapply (ps_rd _ _ 0%nat 100 _ 3); reflexivity|].
    eapply pss_step; [eapply (ps_rd _ _ 0%nat 200 _ 5); reflexivity|].
    eapply pss_step; [eapply (ps_rd _ _ 1%nat 2 _ 3); reflexivity|].
    eapply pss_step; [eapply (ps_rd _ _ 1%nat 101 _ 4); reflexivity|].
    eapply pss_step; [eapply (ps_rd _ _ 1%nat 200 _ 5); reflexivity|].
    eapply pss_step; [eapply (ps_wr _ _ 0%nat 200 (5 + 1 * 1 * 3) _ 5); reflexivity|].
    eapply pss_step; [eapply (ps_wr _ _ 1%nat 200 (5 + 1 * 3 * 4) _ 8); reflexivity|].
    apply pss_refl. }
  destruct (H2 ltac:(repeat constructor)) as (H3 & _). specialize (H3 env0). cbn [steps_spec] in H3.
  assert (Hok : env_ok ext env0 (eC e)) by (intros l [<-|[]]; unfold ext, env0; simpl; lia).
  specialize (H3 Hok). vm_compute in H3. discriminate.
Qed.

(** A result without indices: the loop bound reads element 0 of an empty vector. *)
Theorem C73_scalar_result_refuted :
  (forall (O : Ops) e sz (cp ab : car O) C A B, uses_loop e C A B -> eC e = [] -> ddims C = [] ->
     length (ddims A) = length (eA e) -> length (ddims B) = length (eB e) ->
     py_einsum e sz cp C ab A B = UB) /\
  (forall C A B, uses_loop (mkEin [] [0%nat; 1%nat] [1%nat; 0%nat]) C A B).
Proof.
  split.
  - intros O e sz cp ab C A B HU EC HC HA HB. rewrite loop_eq by auto. unfold py_generic.
    unfold py_base. cbn [pb_A pb_B pb_C]. rewrite !perm_table_length, EC, HC, HA, HB, !Nat.eqb_refl. reflexivity.
  - intros. vm_compute. exact I.
Qed.

(** Extents that disagree are not checked: "ij" <- "ii","ij" with a 1 x 1 A and
    a 2 x 2 C reads A[1, 1]. *)
Theorem C73_extents_refuted : exists e A B C (h : heap Z) a b c,
  uses_loop e C A B /\ holds h A a /\ holds h B b /\ holds h C c /\
  length (ddims A) = length (eA e) /\ length (ddims B) = length (eB e) /\ length (ddims C) = length (eC e) /\
  py_einsum (O := ZOps) e 8 1 C 1 A B <> Throw /\
  ~ py_runs (O := ZOps) 1 (py_einsum (O := ZOps) e 8 1 C 1 A B) h (fun _ => True).
Proof.
  set (e := mkEin [0%nat; 1%nat] [0%nat; 0%nat] [0%nat; 1%nat]).
  set (A := rm 299 [1; 1]). set (B := rm 100 [2; 2]). set (C := rm 200 [2; 2]).
  exists e, A, B, C, mem, (look mem A), (look mem B), (look mem C).
  split; [apply C73_repeated_label; intros (H & _); inversion H; simpl in *; tauto|].
  split; [apply holds_check; reflexivity|]. split; [apply holds_check; reflexivity|]. split; [apply holds_check; reflexivity|].
  repeat (split; [reflexivity|]). split.
  { assert (G : match py_einsum (O := ZOps) e 8 1 C 1 A B with Throw => False | _ => True end) by (vm_compute; exact I).
    intros E. now rewrite E in G. }
  intros (ss & E & H). apply steps_seq in H as (h' & E' & _).
  assert (G : match py_einsum (O := ZOps) e 8 1 C 1 A B with Ok s => seq_exec s mem = UB | _ => False end) by (vm_compute; reflexivity).
  rewrite E in G. congruence.
Qed.

(** ** C75, refuted part: two scalars *)
Theorem C75_scalars_refuted : forall (O : Ops) sz (cp ab : car O) C A B, ddims A = [] -> ddims B = [] ->
  py_einsum (mkEin [] [] []) sz cp C ab A B = UB.
Proof. intros O sz cp ab C A B HA HB. unfold py_einsum, py_execute, py_dot. cbn [bind py_algorithm py_dot_product eA eB eC].
  change (py_algorithm (mkEin [] [] [])) with (Ok PyDot). cbn [bind]. rewrite HA, HB. reflexivity. Qed.

(** ** C76, refuted parts *)
(** A prefactor other than 0 and 1 scales memory behind C: "ij" <- "i","j". *)
Theorem C76_prefactor_refuted : wrong (mkEin [0%nat; 1%nat] [0%nat] [1%nat]) 2 1.
Proof. apply (wrong_by_outside sizes _ _ _ [] 206); vm_compute; reflexivity. Qed.
(** No label of A in C: the plan cannot be compiled safely. *)
Theorem C76_no_label_refuted : py_algorithm (mkEin [1%nat] [0%nat] [1%nat]) = UB /\
  py_algorithm (mkEin [] [0%nat] [1%nat]) = UB /\ py_algorithm (mkEin [1%nat] [] [1%nat]) = UB.
Proof. repeat split. Qed.
(** "ik" <- "ij","k": the sum over j is not formed. *)
Theorem C76_sum_refuted : wrong (mkEin [0%nat; 2%nat] [0%nat; 1%nat] [2%nat]) 0 1.
Proof. wrong_at [1%nat] env0. Qed.
(** "ikj" <- "ij","k": elements are written to the wrong places. *)
Theorem C76_interleaved_refuted : wrong (mkEin [0%nat; 2%nat; 1%nat] [0%nat; 1%nat] [2%nat]) 0 1.
Proof. wrong_at (@nil nat) (fun l => if Nat.eqb l 2 then 1 else 0). Qed.
(** "ijk" <- "i","j": the label that is only in C. *)
Theorem C76_broadcast_refuted : wrong (mkEin [0%nat; 1%nat; 2%nat] [0%nat] [1%nat]) 0 1.
Proof. wrong_at (@nil nat) (fun l => if Nat.eqb l 2 then 1 else 0). Qed.
(** An empty second factor raises an exception instead of doing nothing. *)
Theorem C76_empty_refuted : wrong (mkEin [0%nat; 1%nat] [0%nat] [1%nat]) 1 1.
Proof. apply (wrong_by_outside [2; 0] _ _ _ [] 299); vm_compute; reflexivity. Qed.

(** ** C77, refuted parts *)
(** "i" <- "ijk","jk": only the first summed label is counted. *)
Theorem C77_more_sums_refuted : wrong (mkEin [0%nat] [0%nat; 1%nat; 2%nat] [1%nat; 2%nat]) 1 1.
Proof. wrong_at [1%nat; 2%nat] env0. Qed.
(** "ij" <- "ijk","k": a position is read beyond the end of the list of summed positions. *)
Theorem C77_more_free_refuted : wrong (mkEin [0%nat; 1%nat] [0%nat; 1%nat; 2%nat] [2%nat]) 1 1.
Proof. wrong_at [2%nat] env0. Qed.
(** "i" <- "ijk","j": the sum over k is not formed. *)
Theorem C77_sum_refuted : wrong (mkEin [0%nat] [0%nat; 1%nat; 2%nat] [1%nat]) 1 1.
Proof. wrong_at [1%nat; 2%nat] env0. Qed.
(** "ik" <- "ij","j": the label that is only in C. *)
Theorem C77_broadcast_refuted : wrong (mkEin [0%nat; 2%nat] [0%nat; 1%nat] [1%nat]) 1 1.
Proof. wrong_at [1%nat] (fun l => if Nat.eqb l 2 then 1 else 0). Qed.
(** An empty sum leaves C as it is, whatever its prefactor. *)
Theorem C77_empty_refuted : wrong (mkEin [0%nat] [0%nat; 1%nat] [1%nat]) 2 1.
Proof. apply (wrong_by [2; 0] _ _ _ [1%nat] env0); vm_compute; reflexivity. Qed.

(** ** C78, refuted parts *)
(** "ik" <- "ji","jk" with a 3 x 2 A. *)
Theorem C78_transposed_A_refuted : wrong (mkEin [0%nat; 2%nat] [1%nat; 0%nat] [1%nat; 2%nat]) 1 1.
Proof. wrong_at [1%nat] env0. Qed.
(** "ik" <- "ij","kj" with a 2 x 3 B. *)
Theorem C78_transposed_B_refuted : wrong (mkEin [0%nat; 2%nat] [0%nat; 1%nat] [2%nat; 1%nat]) 1 1.
Proof. wrong_at [1%nat] (fun l => if Nat.eqb l 2 then 1 else 0). Qed.
(** "il" <- "ijk","jkl": only the first summed label is counted. *)
Theorem C78_more_sums_refuted : wrong (mkEin [0%nat; 3%nat] [0%nat; 1%nat; 2%nat] [1%nat; 2%nat; 3%nat]) 1 1.
Proof. wrong_at [1%nat; 2%nat] env0. Qed.
(** "ijl" <- "ijk","kl". *)
Theorem C78_more_free_refuted : wrong (mkEin [0%nat; 1%nat; 3%nat] [0%nat; 1%nat; 2%nat] [2%nat; 3%nat]) 1 1.
Proof. wrong_at [2%nat] env0. Qed.
(** "ilk" <- "ilj","jlk": a label in all three. *)
Theorem C78_batch_refuted : wrong (mkEin [0%nat; 3%nat; 2%nat] [0%nat; 3%nat; 1%nat] [1%nat; 3%nat; 2%nat]) 1 1.
Proof. wrong_at [1%nat] env0. Qed.
(** An empty sum leaves C as it is, whatever its prefactor. *)
Theorem C78_empty_refuted : wrong (mkEin [0%nat; 2%nat] [0%nat; 1%nat] [1%nat; 2%nat]) 2 1.
Proof. apply (wrong_by [2; 0; 2] _ _ _ [1%nat] env0); vm_compute; reflexivity. Qed.

(** ** Calls meeting the hypotheses of the positive theorems *)
Definition val (e : ein) (cp ab : Z) (C A B : desc) (z : Z) : option Z :=
  match py_einsum (O := ZOps) e 8 cp C ab A B with
  | Ok ss => match seq_exec ss mem with Ok h' => h' z | _ => None end | _ => None end.
Ltac callok := apply call_check; [repeat constructor; simpl; intuition lia|intros l; apply (ext_nonneg sizes); reflexivity|vm_compute; reflexivity].
Definition X l := nth l sizes 1.

(** "i" <- "iij","j" with a strided A. *)
Example C73_ex : let e := mkEin [0%nat] [0%nat; 0%nat; 1%nat] [1%nat] in
  let A := mkDesc 0 [2; 2; 3] [20; 9; 2] in let B := mkDesc 102 [3] [-1] in let C := rm 200 [2] in
  uses_loop e C A B /\ py_call (O := ZOps) mem X (eC e) (eA e) (eB e) [1%nat] A B C (look mem A) (look mem B) (look mem C) /\
  val e 2 3 C A B 200 = Some (2 * 5 + 3 * (1 * 5 + 3 * 4 + 5 * 3)) /\
  val e 2 3 C A B 201 = Some (2 * 6 + 3 * (2 * 5 + 4 * 4 + 6 * 3)).
Proof.
  cbv zeta. split; [apply C73_repeated_label; intros (H & _); inversion H; simpl in *; tauto|]. split; [callok|]. split; vm_compute; reflexivity.
Qed.
(** "ikj" <- "ijl","lk" has no such blocks. *)
Example C73_not_blocks_ex : let e := mkEin [0%nat; 2%nat; 1%nat] [0%nat; 1%nat; 3%nat] [3%nat; 2%nat] in
  paired (eC e) (eA e) (eB e) /\ py_algorithm e = Ok PyGeneric.
Proof.
  cbv zeta. cbn [eA eB eC]. split; [|reflexivity]. split; [apply hadamard_NoDup; reflexivity|]. split; [apply hadamard_NoDup; reflexivity|].
  split; [apply hadamard_NoDup; reflexivity|]. intros l.
  assert (D : forall X, In l X <-> has_type l X = true) by (intros; symmetry; apply has_type_In).
  rewrite !D. destruct l as [|[|[|[|l]]]]; vm_compute; intuition discriminate.
Qed.
(** "ij" <- "ij","ij" with a transposed B. *)
Example C74_ex : let e := mkEin [0%nat; 1%nat] [0%nat; 1%nat] [0%nat; 1%nat] in
  let A := rm 0 [2; 3] in let B := mkDesc 100 [2; 3] [1; 2] in let C := rm 200 [2; 3] in
  py_call (O := ZOps) mem X (eC e) (eA e) (eB e) [] A B C (look mem A) (look mem B) (look mem C) /\
  val e 2 3 C A B 201 = Some (2 * 6 + 3 * (2 * 5)).
Proof. cbv zeta. split; [callok|vm_compute; reflexivity]. Qed.
(** "" <- "ij","ij". *)
Example C75_ex : let e := mkEin [] [0%nat; 1%nat] [0%nat; 1%nat] in
  let A := rm 0 [2; 3] in let B := mkDesc 100 [2; 3] [1; 2] in let C := rm 200 [] in
  py_call (O := ZOps) mem X (eC e) (eA e) (eB e) [0%nat; 1%nat] A B C (look mem A) (look mem B) (look mem C) /\
  val e 2 3 C A B 200 = Some (2 * 5 + 3 * (1 * 3 + 2 * 5 + 3 * 7 + 4 * 4 + 5 * 6 + 6 * 1)).
Proof. cbv zeta. split; [callok|vm_compute; reflexivity]. Qed.
(** "kij" <- "ij","k". *)
Example C76_ex : let e := mkEin (blk true [0%nat; 1%nat] [2%nat]) [0%nat; 1%nat] [2%nat] in
  let A := rm 0 [2; 3] in let B := rm 100 [2] in let C := rm 200 [2; 2; 3] in
  py_call (O := ZOps) mem X (eC e) (eA e) (eB e) [] A B C (look mem A) (look mem B) (look mem C) /\
  0 < zprod (map X [0%nat; 1%nat]) /\ val e 0 3 C A B 207 = Some (3 * (2 * 4)).
Proof. cbv zeta. split; [callok|split; vm_compute; reflexivity]. Qed.
(** "i" <- "ij","j" and "i" <- "j","ji". *)
Example C77_ex : let e := mkEin [0%nat] (blk false [0%nat] [1%nat]) [1%nat] in
  let A := rm 0 [2; 3] in let B := rm 100 [3] in let C := rm 200 [2] in
  py_call (O := ZOps) mem X (eC e) (eA e) (eB e) [1%nat] A B C (look mem A) (look mem B) (look mem C) /\
  val e 2 3 C A B 201 = Some (2 * 6 + 3 * (4 * 3 + 5 * 4 + 6 * 5)).
Proof. cbv zeta. split; [callok|vm_compute; reflexivity]. Qed.
Example C77_ex2 : let e := mkEin [0%nat] [1%nat] (blk true [0%nat] [1%nat]) in
  let A := rm 0 [3] in let B := rm 100 [3; 2] in let C := rm 200 [2] in
  py_call (O := ZOps) mem X (eC e) (eA e) (eB e) [1%nat] A B C (look mem A) (look mem B) (look mem C) /\
  val e 2 3 C A B 201 = Some (2 * 6 + 3 * (1 * 4 + 2 * 6 + 3 * 1)).
Proof. cbv zeta. split; [callok|vm_compute; reflexivity]. Qed.
(** "ki" <- "ij","jk". *)
Example C78_ex : let e := mkEin (blk true [0%nat] [2%nat]) (blk false [0%nat] [1%nat]) (blk false [1%nat] [2%nat]) in
  let A := rm 0 [2; 3] in let B := rm 100 [3; 2] in let C := rm 200 [2; 2] in
  py_call (O := ZOps) mem X (eC e) (eA e) (eB e) [1%nat] A B C (look mem A) (look mem B) (look mem C) /\
  val e 2 3 C A B 201 = Some (2 * 6 + 3 * (4 * 3 + 5 * 5 + 6 * 7)).
Proof. cbv zeta. split; [callok|vm_compute; reflexivity]. Qed.

Print Assumptions C73_loop_partial.
Print Assumptions C73_repeated_label.
Print Assumptions C73_not_blocks.
Print Assumptions C73_rank_mismatch.
Print Assumptions C73_race_refuted.
Print Assumptions C73_scalar_result_refuted.
Print Assumptions C73_extents_refuted.
Print Assumptions C74_direct_product.
Print Assumptions C74_rank_mismatch.
Print Assumptions C75_dot_partial.
Print Assumptions C75_scalars_refuted.
Print Assumptions C76_outer_partial.
Print Assumptions C76_prefactor_refuted.
Print Assumptions C76_no_label_refuted.
Print Assumptions C76_sum_refuted.
Print Assumptions C76_interleaved_refuted.
Print Assumptions C76_broadcast_refuted.
Print Assumptions C76_empty_refuted.
Print Assumptions C77_gemv_partial.
Print Assumptions C77_more_sums_refuted.
Print Assumptions C77_more_free_refuted.
Print Assumptions C77_sum_refuted.
Print Assumptions C77_broadcast_refuted.
Print Assumptions C77_empty_refuted.
Print Assumptions C78_gemm_partial.
Print Assumptions C78_transposed_A_refuted.
Print Assumptions C78_transposed_B_refuted.
Print Assumptions C78_more_sums_refuted.
Print Assumptions C78_more_free_refuted.
Print Assumptions C78_batch_refuted.
Print Assumptions C78_empty_refuted.
