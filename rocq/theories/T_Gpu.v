(** * T_Gpu: einsum on the GPU (C102). *)
From Coq Require Import List ZArith Lia Bool Permutation Ring_theory Ring.
From Verif Require Import Base Heap Conc GpuConc M_Addr M_Einsum M_Blas M_PyEinsum M_Gpu S_Einsum S_PyEinsum S_Gpu.
From Verif Require Import S_Blas L_Addr L_Einsum L_Blas L_Dispatch L_PyEinsum L_Gpu L_GpuOps T_PyEinsum.
Import ListNotations.
Open Scope Z_scope.

Section Zero.
  Context {O : Ops} (HR : is_ring O).
  Add Ring ORG : (ir_rt O HR).
  Lemma ring_zero_l : forall x : car O, omul o0 x = o0. Proof. intros. ring. Qed.
End Zero.

(** Full statement (C102): whatever the index lists, for every schedule of the
    workers, the call ends and C = cp * C + ab * sum A * B.  Proved: no label is
    summed and no label of C is repeated, or C is a scalar.  Refuted below:
    other calls with a summed label, and repeated labels of C. *)
Theorem C102_gpu_einsum_partial :
  forall (O : Ops), is_ring O ->
  forall e (cp ab : car O) L ext A B C a b c h,
    py_call h ext (eC e) (eA e) (eB e) L A B C a b c ->
    eC e = [] \/ (NoDup (eC e) /\ L = []) ->
    gpu_runs (gpu_einsum e cp C ab A B) h (py_result ext (eC e) (eA e) (eB e) L cp ab C a b c h).
Proof.
  intros O HR e cp ab L ext A B C a b c h (HL & Hx & HdA & HdB & HdC & HA & HB & HC & HI & DA & DB) Hcase.
  unfold gpu_einsum. rewrite (gpu_dims_ok e ext C A B HdC HdA HdB).
  set (n := zprod (map ext (gpu_unique e))). destruct (swapped_pos n) as (Hb & Ht).
  destruct (eC e) as [|x r] eqn:EC.
  - cbn [gpu_runs].
    assert (dC : ddims C = []) by exact HdC.
    assert (aC : addr C [] = dbase C) by (unfold addr; cbn; lia).
    assert (B0 : inb [] (ddims C)) by (rewrite dC; constructor).
    assert (HV : h (dbase C) = Some (c [])) by (rewrite <- aC; now apply HC).
    assert (G : exists h', run (if oeqb cp o0 then PWr (dbase C) o0 (PRet tt)
         else PRd (dbase C) (fun v => PWr (dbase C) (omul v cp) (PRet tt))) h = Ok (tt, h') /\ h' (dbase C) = Some (omul cp (c [])) /\
         forall z, z <> dbase C -> h' z = h z).
    { destruct (oeqb cp o0) eqn:Ec; cbn [run]; rewrite HV; eexists; (split; [reflexivity|]); rewrite upd_same; (split; [|intros; now apply upd_other]); f_equal.
      - apply (ir_eqb O HR) in Ec. subst. symmetry. apply (ring_zero_l HR).
      - apply (Rmul_comm (ir_rt O HR)). }
    destruct G as (h1 & E1 & V1 & F1). exists h1. split; auto.
    assert (HC' : contracted L (eC e) (eA e) (eB e)) by (rewrite EC; auto).
    assert (HdC' : consistent ext (eC e) C) by (rewrite EC; auto).
    eapply grid_weaken; [|apply (zero_grid HR e ext A B C a b ab L Hx HdA HdB HdC' DA DB HC' h1 (omul cp (c []))); auto].
    + intros h' (V & F). split; [|split].
      * intros env Hok. cbn [map]. rewrite aC, V. f_equal. f_equal.
        rewrite <- !(contract_value HR e ext a b ab L Hx HC') by (intros l Hl; rewrite EC in Hl; contradiction). rewrite EC. reflexivity.
      * intros idx Hi Hne. exfalso. apply (Hne (fun _ => 0)); [intros l []|]. rewrite dC in Hi. inversion Hi. reflexivity.
      * intros z Hz. assert (Nz : z <> dbase C) by (rewrite <- aC; auto). rewrite F, F1; auto.
    + intros i Hi. rewrite F1; [now apply HA|]. intros E. apply (DA [] i); auto. congruence.
    + intros i Hi. rewrite F1; [now apply HB|]. intros E. apply (DB [] i); auto. congruence.
  - rewrite <- EC in *. destruct Hcase as [Hc|(HN & HL0)]; [congruence|]. subst L.
    destruct (direct_product_swap e) eqn:ES; cbn [gpu_runs].
    + eapply gdirect_grid; eauto.
    + eapply generic_free; eauto.
Qed.

(** The generic kernel itself is right for every einsum (repeated labels,
    labels in one operand only, any strides) if all its workers are in one
    block, where the barrier separates scaling from adding. *)
Theorem C102_one_block_partial :
  forall (O : Ops), is_ring O ->
  forall e (cp ab : car O) L ext A B C a b c h nt,
    py_call h ext (eC e) (eA e) (eB e) L A B C a b c -> (0 < nt)%nat ->
    grid_spec (launch 1 nt (generic_kernel e cp C ab A B (gpu_unique_dims e C A B))) h
      (py_result ext (eC e) (eA e) (eB e) L cp ab C a b c h).
Proof.
  intros O HR e cp ab L ext A B C a b c h nt (HL & Hx & HdA & HdB & HdC & HA & HB & HC & HI & DA & DB) Hnt.
  rewrite (gpu_dims_ok e ext C A B HdC HdA HdB). now apply generic_block.
Qed.

(** A call of [gpu_einsum] that is refuted by one schedule of its only launch. *)
Definition gpu_wrong (e : ein) (cp ab : Z) : Prop :=
  exists ext L A B C (h : heap Z) a b c,
    py_call (O := ZOps) h ext (eC e) (eA e) (eB e) L A B C a b c /\
    ~ gpu_runs (gpu_einsum (O := ZOps) e cp C ab A B) h (py_result (O := ZOps) ext (eC e) (eA e) (eB e) L cp ab C a b c h).

Lemma gpu_wrong_by : forall xs e cp ab L env ms, Nat.eqb (length L) (length (unique L)) = true ->
  let ext l := nth l xs 1 in forallb (Z.leb 0) xs = true ->
  forallb (fun l => (0 <=? env l) && (env l <? ext l)) (eC e) = true ->
  let A := rm 0 (map ext (eA e)) in let B := rm 100 (map ext (eB e)) in let C := rm 200 (map ext (eC e)) in
  call_ok mem ext (eC e) (eA e) (eB e) L A B C = true ->
  match gpu_einsum (O := ZOps) e cp C ab A B with
  | [GLaunch g] => ends ms g mem (fun h' => match h' (addr C (map env (eC e))) with
      | Some v => negb (v =? cp * look mem C (map env (eC e)) + ab * einstein (O := ZOps) L (eA e) (eB e) ext (look mem A) (look mem B) env)
      | None => true end)
  | _ => false
  end = true -> gpu_wrong e cp ab.
Proof.
  intros xs e cp ab L env ms HN ext Hx Hok A B C H1 H2. exists ext, L, A, B, C, mem, (look mem A), (look mem B), (look mem C).
  split; [apply call_check; auto; [now apply hadamard_NoDup|apply ext_nonneg; auto]|].
  destruct (gpu_einsum (O := ZOps) e cp C ab A B) as [|[p|g] [|? ?]] eqn:E; try discriminate.
  cbn [gpu_runs]. eapply ends_refutes; [exact H2|]. intros h' (H3 & _). rewrite H3.
  - cbn. now rewrite Z.eqb_refl.
  - intros l Hl. rewrite forallb_forall in Hok. specialize (Hok l Hl). lia.
Qed.

(** Block 2 first, then the others: each of the 32 blocks is one worker that
    runs to its barrier, passes it and finishes. *)
Definition each_block (bs : list nat) : list gmove := flat_map (fun b => [Run b 0; Bar b; Run b 0]) bs.
Definition each_block1 (bs : list nat) : list gmove := map (fun b => Run b 0) bs.

(** "i" <- "ij","j" with extents 2, 2 and cp = 0: the worker in block 2 adds to
    C[1] before the worker in block 1 clears it. *)
Theorem C102_blocks_race_refuted : gpu_wrong (mkEin [0%nat] [0%nat; 1%nat] [1%nat]) 0 1.
Proof.
  apply (gpu_wrong_by [2; 2] _ _ _ [1%nat] (fun _ => 1) (each_block ([2] ++ [0; 1] ++ seq 3 29)%nat)); vm_compute; reflexivity.
Qed.
(** Likewise for a matrix product "ij" <- "ik","kj". *)
Theorem C102_gemm_race_refuted : gpu_wrong (mkEin [0%nat; 1%nat] [0%nat; 2%nat] [2%nat; 1%nat]) 0 1.
Proof.
  apply (gpu_wrong_by [2; 2; 2] _ _ _ [2%nat] (fun l => if Nat.eqb l 1 then 1 else 0) (each_block ([2] ++ [0; 1] ++ seq 3 29)%nat)); vm_compute; reflexivity.
Qed.
(** "ii" <- "ii","ij": taken for an element-wise product although j is summed. *)
Theorem C102_repeated_label_refuted : gpu_wrong (mkEin [0%nat; 0%nat] [0%nat; 0%nat] [0%nat; 1%nat]) 0 1.
Proof.
  apply (gpu_wrong_by [2; 2] _ _ _ [1%nat] (fun _ => 0) (each_block1 (seq 0 32))); vm_compute; reflexivity.
Qed.

(** An outer product and an element-wise product with a transposed operand, on
    the launch that the code makes, and a double contraction to a scalar. *)
Example C102_gpu_einsum_case :
  forall e L xs, In (e, L, xs)
    [ (mkEin [0%nat; 1%nat] [0%nat] [1%nat], [], [2; 3]);
      (mkEin [0%nat; 1%nat] [0%nat; 1%nat] [1%nat; 0%nat], [], [2; 3]);
      (mkEin [] [0%nat; 1%nat] [1%nat; 0%nat], [0%nat; 1%nat], [2; 3]) ] ->
    let ext l := nth l xs 1 in
    let A := rm 0 (map ext (eA e)) in let B := rm 100 (map ext (eB e)) in let C := rm 200 (map ext (eC e)) in
    gpu_runs (O := ZOps) (gpu_einsum (O := ZOps) e 2 C 3 A B) mem
      (py_result (O := ZOps) ext (eC e) (eA e) (eB e) L 2 3 C (look mem A) (look mem B) (look mem C) mem).
Proof.
  intros e L xs H ext A B C. apply C102_gpu_einsum_partial; [exact ZOps_ring| |].
  - cbn [In] in H. destruct H as [E|[E|[E|[]]]]; injection E as <- <- <-; unfold ext, A, B, C;
      (apply call_check; [repeat constructor; simpl; intuition lia|apply (ext_nonneg [2; 3]); reflexivity|vm_compute; reflexivity]).
  - cbn [In] in H. destruct H as [E|[E|[E|[]]]]; injection E as <- <- <-; cbn [eC]; [right|right|left; auto];
      (split; [repeat constructor; simpl; intuition lia|auto]).
Qed.
(** The values: the double contraction of the memory's 2 x 3 and 3 x 2 blocks. *)
Example C102_values_case :
  let A := rm 0 [2; 3] in let B := rm 100 [3; 2] in let C := rm 200 [] in
  match gpu_einsum (O := ZOps) (mkEin [] [0%nat; 1%nat] [1%nat; 0%nat]) 2 C 3 A B with
  | [GSeq p; GLaunch g] => match run p mem with
      | Ok (_, h) => ends (each_block (rev (seq 0 32))) g h (fun h' => match h' 200 with Some v => v =? 2 * 5 + 3 * (1*3 + 2*5 + 3*7 + 4*4 + 5*6 + 6*1) | None => false end)
      | _ => false end
  | _ => false end = true.
Proof. vm_compute. reflexivity. Qed.
Example C102_one_block_case :
  let e := mkEin [0%nat; 1%nat] [0%nat; 2%nat] [2%nat; 1%nat] in
  let A := rm 0 [2; 2] in let B := rm 100 [2; 3] in let C := rm 200 [2; 3] in
  grid_spec (O := ZOps) (launch 1 7 (generic_kernel (O := ZOps) e 2 C 3 A B (gpu_unique_dims e C A B))) mem
    (py_result (O := ZOps) (fun l => nth l [2; 3; 2] 1) (eC e) (eA e) (eB e) [2%nat] 2 3 C (look mem A) (look mem B) (look mem C) mem).
Proof.
  intros e A B C. apply C102_one_block_partial; [exact ZOps_ring| |lia].
  apply call_check; [repeat constructor; simpl; intuition lia|apply (ext_nonneg [2; 3; 2]); reflexivity|vm_compute; reflexivity].
Qed.

Print Assumptions C102_gpu_einsum_partial.
Print Assumptions C102_one_block_partial.
Print Assumptions C102_blocks_race_refuted.
Print Assumptions C102_gemm_race_refuted.
Print Assumptions C102_repeated_label_refuted.
