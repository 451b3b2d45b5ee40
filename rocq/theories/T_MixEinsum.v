(** * T_MixEinsum: einsum with block-diagonal and tiled operands together (C66). *)
From Coq Require Import List ZArith Lia Bool Permutation Ring.
From Verif Require Import Base Heap Conc M_Addr S_Addr L_Addr M_Elt L_Elt M_Einsum S_Einsum L_Einsum T_Einsum
  S_Blas M_Blas L_Blas M_Dispatch S_Dispatch L_Dispatch L_Paths T_Dispatch M_Block S_Block L_Block M_Tiled S_Tiled L_Tiled L_Tiled2
  T_Tiled M_BlockEinsum S_BlockEinsum L_BlockEinsum T_BlockEinsum M_TileEinsum S_TileEinsum L_TileEinsum T_TileEinsum
  M_MixEinsum S_MixEinsum L_MixEinsum.
Import ListNotations.
Open Scope Z_scope.

Section Whole.
  Context {O : Ops} (HR : is_ring O).
  Notation T := (car O).
  Add Ring ORing : (ir_rt O HR).

  Lemma clear_spec : forall (t : tt) (h : heap T) f cp, tt_ok t -> tt_holds h t f ->
    exists t1 h1, (if oeqb cp o0 then Ok (tt_zero (t, h)) else tt_scale cp (t, h)) = Ok (t1, h1) /\
      tt_ok t1 /\ tt_sizes t1 = tt_sizes t /\ (forall z, tt_cell t1 z -> tt_cell t z) /\
      tt_holds h1 t1 (fun idx => omul cp (f idx)) /\ (forall z, ~ tt_cell t z -> h1 z = h z).
  Proof.
    intros t h f cp Hok HH. destruct (oeqb cp o0) eqn:Ecp.
    - apply (ir_eqb O HR) in Ecp. subst cp. destruct (zero_spec O h t Hok) as (Z1 & Z2 & Z3 & Z4).
      destruct (tt_zero (t, h)) as (t1, h1). cbn [fst snd] in *.
      exists t1, h1. split; auto. split; auto. split; auto. split; [|split; auto].
      + intros z (c & d & E & _). rewrite Z3 in E. discriminate.
      + intros idx c j P. rewrite Z3. ring.
    - destruct (scale_spec HR t h f cp Hok HH) as (h1 & E & H1 & H2). rewrite Ecp in E.
      exists t, h1. repeat (split; auto).
  Qed.

  Lemma lab_nonneg : forall lab I (h : heap T) o f l, stands lab I h o f -> In l I -> Forall (fun n => 0 <= n) (lab l).
  Proof.
    intros lab I h o f l H Hl. destruct (stands_tt O lab I h o f H) as (Ot & St & _). destruct (ok_sizes _ Ot) as (_ & F).
    rewrite St, Forall_forall in F. apply F, in_map, Hl.
  Qed.

  Lemma stands_ne : forall lab I (h : heap T) o f, stands lab I h o f -> I <> [].
  Proof.
    intros lab I h o f H. destruct (stands_tt O lab I h o f H) as (Ot & St & _). destruct (ok_sizes _ Ot) as (N & _).
    intros ->. rewrite St in N. apply N. reflexivity.
  Qed.
End Whole.

(** ** Tiled result: A, B or both are block-diagonal.  [a], [b] are the dense
    tensors the operands stand for. *)
Theorem C66_tiled_result_partial :
  forall (O : Ops) (HR : is_ring O) (al : heap (car O) -> Z -> option Z) (lab : nat -> list Z) Ci Ai Bi L (cp ab : car O)
         (A B : operand) (C : tt) (a b c : list Z -> car O) (order : list Z) (h : heap (car O)),
  al_ok al -> labels L Ci Ai Bi -> tile_path_ok L Ci Ai Bi ->
  (forall l, In l (Ci ++ Ai ++ Bi) -> Forall (fun n => n < 2 ^ 31) (lab l)) ->
  stands lab Ai h A a -> stands lab Bi h B b -> stands lab Ci h (OTile C) c ->
  (forall z, tt_cell C z -> ~ op_cell A z) -> (forall z, tt_cell C z -> ~ op_cell B z) ->
  Permutation order (zrange (mix_iterations (mkEin Ci Ai Bi) (OTile C) A B)) ->
  ((exists h1 n, al h1 n = None) /\ mix_einsum_tiled al (mkEin Ci Ai Bi) cp ab A B order (C, h) = Throw) \/
  exists C' h', mix_einsum_tiled al (mkEin Ci Ai Bi) cp ab A B order (C, h) = Ok (C', h') /\
    (forall idx, inb idx (map (total lab) Ci) ->
       exists v, tt_read C' idx h' = Ok v /\ tile_result lab Ci Ai Bi L cp ab a b c idx v) /\
    tt_ok C' /\ tt_sizes C' = tt_sizes C /\
    (forall z, h z <> None -> ~ tt_cell C z -> h' z = h z).
Proof.
  intros O HR al lab Ci Ai Bi L cp ab A B C a b c order h Hal Hlabels Hpath Hbig HA0 HB0 HC0 DA DB HP.
  assert (R := ir_rt O HR).
  assert (EW : element_wise_multiplication (mkEin Ci Ai Bi) = false).
  { unfold tile_path_ok, dispatch in Hpath. destruct (dot_product (mkEin Ci Ai Bi)); [contradiction|].
    destruct (element_wise_multiplication (mkEin Ci Ai Bi)); [contradiction|auto]. }
  assert (Hlab : forall l, In l (Ci ++ Ai ++ Bi) -> Forall (fun n => 0 <= n < 2 ^ 31) (lab l)).
  { intros l Hl. assert (N : Forall (fun n => 0 <= n) (lab l)).
    { rewrite !in_app_iff in Hl. destruct Hl as [Hl|[Hl|Hl]]; [eapply lab_nonneg; [exact HC0|auto]|eapply lab_nonneg; [exact HA0|auto]|eapply lab_nonneg; [exact HB0|auto]]. }
    specialize (Hbig l Hl). rewrite Forall_forall in *. auto. }
  assert (Hne := stands_ne lab Ci h _ c HC0).
  destruct (stands_tt O lab Ai h A a HA0) as (OA & SA & HA & CA & GA).
  destruct (stands_tt O lab Bi h B b HB0) as (OB & SB & HB & CB & GB).
  destruct (stands_tt O lab Ci h (OTile C) c HC0) as (OC & SC & HC & _ & _). cbn [op_tt] in OC, SC, HC.
  set (A' := op_tt lab Ai A) in *. set (B' := op_tt lab Bi B) in *.
  unfold mix_iterations in HP. cbn [eC eA eB op_grid] in HP. rewrite <- GA, <- GB in HP.
  rewrite (grid_lab lab Ci C SC), (grid_lab lab Ai A' SA), (grid_lab lab Bi B' SB) in HP.
  rewrite iterations_eq in HP by (destruct Ci; [congruence|discriminate]).
  unfold mix_einsum_tiled. rewrite EW. unfold mix_tiled. cbn [fst eA eB eC]. rewrite <- GA, <- GB.
  destruct (clear_spec HR C h c cp OC HC) as (C1 & h1 & E1 & O1 & S1 & X1 & H1 & F1). rewrite E1. cbn [bind].
  rewrite (grid_lab lab Ci C SC), (grid_lab lab Ai A' SA), (grid_lab lab Bi B' SB).
  unfold unique_strides. rewrite unique_grid_eq, dims_to_strides_eq. cbn [fst].
  unfold unique_labels. cbn [eC eA eB].
  set (U := unique (Ci ++ Ai ++ Bi)) in *. set (st := row_major_strides (map (cnt lab) U)).
  destruct (step_loop HR lab Ci A' B' a b OA OB Z order (fun _ => True) (exists h n, al h n = None)
     (fun n => contrib lab Ci Ai Bi L ab a b (te_of Ci Ai Bi n st))
     (mix_tile_step al (mkEin Ci Ai Bi) ab A B U st)) with (t := C1) (h := h1) (c := fun idx => omul cp (c idx))
     as [(Hoom & E)|(C' & h' & E & _ & O' & S' & H' & N1 & N2 & N3)]; auto.
  - intros n Hn. apply (Permutation_in _ HP) in Hn. apply zrange_in in Hn.
    assert (Hix : inb (sentinel_to_indices n st) (map (cnt lab) U)) by (apply rm_sti_inb; auto; apply cnt_nonneg).
    intros t' h' c' I1 I2 I3 I4 I5 I6 I7 I8.
    assert (Eq := mix_tile_step_eq O al lab Ci Ai Bi ab A B h a b st n (t', h') HA0 HB0 Hix). fold U in Eq. rewrite Eq.
    apply (tile_step_ok HR al Hal lab Ci Ai Bi L ab A' B' a b Hlabels Hpath Hlab OA OB SA SB n st Hix); auto.
  - congruence.
  - apply (holds_frame O h h1 A' a OA HA). intros z Hz. apply F1. intros Hc. apply (DA z Hc). now apply CA.
  - apply (holds_frame O h h1 B' b OB HB). intros z Hz. apply F1. intros Hc. apply (DB z Hc). now apply CB.
  - intros z Hz Hc. apply (DA z (X1 z Hz)). now apply CA.
  - intros z Hz Hc. apply (DB z (X1 z Hz)). now apply CB.
  - right. exists C', h'. split; [exact E|]. split; [|split; [auto|split; [congruence|]]].
    + intros idx Hi.
      assert (HF : Forall (Forall (fun n => 0 <= n)) (map lab Ci)).
      { destruct (ok_sizes C OC) as (_ & F). rewrite SC in F. exact F. }
      assert (Hi' : inb idx (dense_dims (map lab Ci))).
      { unfold dense_dims. rewrite map_map. exact Hi. }
      assert (Hr := read_spec O h' C' _ idx idx O' H').
      rewrite (ok_dims C' O'), S' in Hr. specialize (Hr (spell_self _ _ Hi')).
      eexists. split; [exact Hr|]. destruct (tile_pos_cover _ _ HF Hi') as (k & j & P).
      cbv beta. unfold te_of. fold U. unfold st.
      rewrite (order_sum HR lab U order (fun te => contrib lab Ci Ai Bi L ab a b te idx) HP).
      split.
      * intros env ->. f_equal. eapply (contrib_total HR); eauto; [|apply Hlabels].
        intros l Hl. eapply Forall_impl; [|apply Hlab; auto]. simpl. intros; lia.
      * intros Hno. rewrite Sum_over_0; auto; [now rewrite (Radd_comm R), (Radd_0_l R)|].
        intros e _. apply contrib_none. auto.
    + intros z Hz Hc. rewrite N3, F1; auto. rewrite F1 by auto. auto.
Qed.
Print Assumptions C66_tiled_result_partial.

(** ** Block-diagonal result *)
Section BlockC.
  Context {O : Ops} (HR : is_ring O).
  Notation T := (car O).
  Add Ring ORing2 : (ir_rt O HR).
  Variable lab : nat -> list Z.
  Variables Ci Ai Bi L : list nat.
  Variable ab : T.
  Variables A B : operand.
  Variable C : bt.
  Variable sizes : list Z.
  Variables a b : list Z -> T.
  Hypothesis Hlabels : labels L Ci Ai Bi.
  Hypothesis Hpath : tile_path_ok L Ci Ai Bi.
  Hypothesis Hlab : forall l, In l (Ci ++ Ai ++ Bi) -> Forall (fun n => 0 <= n < 2 ^ 31) (lab l).
  Hypothesis Hone : is_block A || is_block B = true.
  Hypothesis HCi : Ci <> [].
  Hypothesis HS : forall l, In l Ci -> lab l = sizes.
  Hypothesis OC : bt_ok (length Ci) C sizes.
  Hypothesis SepC : bt_sep C.

  Let C' := as_tt (length Ci) sizes C.
  Let A' := op_tt lab Ai A.
  Let B' := op_tt lab Bi B.
  Notation con := (contrib lab Ci Ai Bi L ab a b).

  (** The step as one on the tiled form of C. *)
  Definition lift (step : heap T -> res (heap T)) (s : tt * heap T) : res (tt * heap T) :=
    h' <- step (snd s) ;; Ok (fst s, h').

  Definition diagC (te : nat -> Z) : bool := forallb (fun x => x =? hd 0 (map te Ci)) (map te Ci).

  Lemma mix_block_step_ok : forall h0 n strides,
    stands lab Ai h0 A a -> stands lab Bi h0 B b ->
    inb (sentinel_to_indices n strides) (map (cnt lab) (unique (Ci ++ Ai ++ Bi))) ->
    step_ok lab Ci A' B' a b (fun t => t = C') False
      (fun idx => if diagC (te_of Ci Ai Bi n strides) then con (te_of Ci Ai Bi n strides) idx else o0)
      (lift (mix_block_step (mkEin Ci Ai Bi) ab A B C (unique (Ci ++ Ai ++ Bi)) strides n)).
  Proof.
    intros h0 n strides HA0 HB0 Hix t h c -> Ot St HC HA HB DA DB.
    destruct (stands_tt O lab Ai h0 A a HA0) as (OA & SA & _ & _ & _).
    destruct (stands_tt O lab Bi h0 B b HB0) as (OB & SB & _ & _ & _).
    fold A' in OA, SA. fold B' in OB, SB.
    set (U := unique (Ci ++ Ai ++ Bi)) in *. set (te := te_of Ci Ai Bi n strides).
    assert (Hlen : length (sentinel_to_indices n strides) = length U) by (rewrite (inb_length _ _ Hix), map_length; auto).
    assert (Hte : forall l, In l (Ci ++ Ai ++ Bi) -> 0 <= te l < cnt lab l).
    { intros l Hl. refine (upds_ok U _ m1 (cnt lab) (Ci ++ Ai ++ Bi) (unique_NoDup _) Hix _ l Hl).
      intros l' H1 H2. exfalso. apply H2. apply in_unique. auto. }
    assert (HTA : forall l, In l Ai -> 0 <= te l < cnt lab l) by (intros; apply Hte, incl_a; auto).
    assert (HTB : forall l, In l Bi -> 0 <= te l < cnt lab l) by (intros; apply Hte, incl_b; auto).
    assert (HTC : forall l, In l Ci -> 0 <= te l < cnt lab l) by (intros; apply Hte, incl_c; auto).
    assert (GA := in_grid lab Ai te HTA). assert (GB := in_grid lab Bi te HTB). assert (GC := in_grid lab Ci te HTC).
    assert (HC0 : stands lab Ci (fun z => if in_dec Z.eq_dec z [] then h z else Some o0) (OBlock C) (dense sizes (fun _ _ => o0 : T))).
    { econstructor; eauto. intros k d _ i _. reflexivity. }
    unfold lift, mix_block_step. cbn [eA eB eC fst snd]. rewrite !tile_coords_upds by (auto; apply unique_NoDup).
    change (upds U (sentinel_to_indices n strides) m1) with te.
    assert (Same : (forall idx c j, tile_pos (map lab Ci) idx c j -> (if diagC te then con te idx else o0) = o0) ->
      (False /\ (Ok (C', h) : res (tt * heap T)) = Throw) \/
      exists t' h', (Ok (C', h) : res (tt * heap T)) = Ok (t', h') /\ t' = C' /\ tt_ok t' /\ tt_sizes t' = map lab Ci /\
        tt_holds h' t' (fun idx => oadd (c idx) (if diagC te then con te idx else o0)) /\
        (forall z, tt_cell t' z -> tt_cell C' z \/ h z = None) /\
        (forall z, h z <> None -> h' z <> None) /\
        (forall z, h z <> None -> ~ tt_cell C' z -> h' z = h z)).
    { intros Hz. right. exists C', h. repeat (split; auto). eapply tt_holds_ext; [|exact HC]. intros idx c' j P.
      rewrite St in P. rewrite (Hz _ _ _ P). ring. }
    assert (Miss : find_tile (map te Ai) (tt_tiles A') = None \/ find_tile (map te Bi) (tt_tiles B') = None \/
        has_zero_size A' (map te Ai) = true \/ has_zero_size B' (map te Bi) = true ->
        forall idx c j, tile_pos (map lab Ci) idx c j -> (if diagC te then con te idx else o0) = o0).
    { intros Hm idx c' j P. destruct (diagC te); auto.
      eapply (contrib_missing HR lab Ci Ai Bi L ab A' B' a b Hlabels Hlab SA SB h te idx c' j); eauto. }
    assert (HtA := has_tile_c_inb A' (map te Ai) ltac:(rewrite SA; exact GA)).
    assert (HtB := has_tile_c_inb B' (map te Bi) ltac:(rewrite SB; exact GB)).
    destruct (op_tests O lab Ai h0 A a _ HA0 GA) as [(-> & TA)|(-> & AA & PA)]; [fold A' in TA|fold A' in AA, PA].
    { cbn [bind]. apply Same, Miss. left. rewrite TA in HtA. destruct (find_tile (map te Ai) (tt_tiles A')); [discriminate|auto]. }
    destruct (op_tests O lab Bi h0 B b _ HB0 GB) as [(-> & TB)|(-> & AB & PB)]; [fold B' in TB|fold B' in AB, PB].
    { cbn [bind]. apply Same, Miss. right. left. rewrite TB in HtB. destruct (find_tile (map te Bi) (tt_tiles B')); [discriminate|auto]. }
    assert (ED : off_diagonal (OBlock C) (map te Ci) = negb (diagC te)) by reflexivity.
    destruct (op_tests O lab Ci _ (OBlock C) _ _ HC0 GC) as [(EC & TC)|(EC & AC & PC)].
    { rewrite EC in ED. rewrite EC. cbn [bind]. apply Same. intros. destruct (diagC te); [discriminate|auto]. }
    rewrite EC in ED |- *. rewrite AA, AB. cbn [bind].
    destruct (has_tile_c A' (map te Ai)) eqn:TA.
    2:{ cbn. apply Same, Miss. left. destruct (find_tile (map te Ai) (tt_tiles A')); [discriminate|auto]. }
    destruct (has_zero_size A' (map te Ai)) eqn:ZA; [cbn; apply Same, Miss; auto|].
    destruct (has_tile_c B' (map te Bi)) eqn:TB.
    2:{ cbn. apply Same, Miss. right. left. destruct (find_tile (map te Bi) (tt_tiles B')); [discriminate|auto]. }
    destruct (has_zero_size B' (map te Bi)) eqn:ZB; [cbn; apply Same, Miss; auto|].
    cbn [negb orb bind].
    assert (EC' : op_tt lab Ci (OBlock C) = C').
    { unfold op_tt, C'. f_equal. apply HS. destruct Ci; [congruence|simpl; auto]. }
    rewrite EC' in AC, PC.
    assert (HtC := has_tile_c_inb C' (map te Ci) ltac:(rewrite St; exact GC)).
    cbn [absent] in AC. destruct (block_at C (hd 0 (map te Ci))) as [d| |] eqn:Eb; cbn [bind] in AC; try discriminate.
    assert (Fd : find_tile (map te Ci) (tt_tiles C') = Some d).
    { rewrite <- EC'. rewrite find_op.
      - unfold off_diagonal in EC. apply negb_false_iff in EC. rewrite EC. unfold block_at in Eb.
        destruct (hd 0 (map te Ci) <? 0); [discriminate|]. destruct (nth_error (bt_blocks C) _); congruence.
      - destruct Ci; [congruence|simpl; lia].
      - apply map_length.
      - apply Forall_forall. intros x Hx. apply in_map_iff in Hx as (l & <- & Hl). apply HTC. auto. }
    rewrite Fd in HtC. cbn [bind]. rewrite HtC in AC. cbn [negb orb] in AC. injection AC as EZ. rewrite EZ.
    assert (Dg : diagC te = true) by (symmetry in ED; now apply negb_false_iff in ED).
    rewrite Dg in Same |- *.
    destruct (has_zero_size C' (map te Ci)) eqn:ZC.
    { cbn [bind]. apply Same. intros idx c' j P. unfold contrib.
      assert (HF := HF_of lab Ci Ai Bi Hlab Ci (incl_c Ci Ai Bi)).
      rewrite (coord_pos _ _ _ _ HF P).
      destruct (list_eq_dec Z.eq_dec _ _) as [E|]; auto. exfalso. subst c'.
      apply (tile_pos_inb _ _ _ _ HF) in P as (_ & _ & Ij). rewrite dims_map in Ij.
      unfold has_zero_size in ZC. rewrite St, dims_map in ZC. apply existsb_exists in ZC as (x & Hx & Ex).
      apply Z.eqb_eq in Ex. subst x. clear - Hx Ij. remember (map (text lab te) Ci) as D. clear HeqD. induction Ij; [destruct Hx|].
      destruct Hx as [->|Hx]; auto. lia. }
    rewrite Hone. rewrite PA, PB by auto.
    destruct (find_tile (map te Ai) (tt_tiles A')) as [dA|] eqn:FA; [|discriminate].
    destruct (find_tile (map te Bi) (tt_tiles B')) as [dB|] eqn:FB; [|discriminate].
    rewrite (const_tile_inb A' _ dA) by (auto; rewrite SA; auto). rewrite (const_tile_inb B' _ dB) by (auto; rewrite SB; auto).
    cbn [bind].
    destruct (contract_spec HR lab Ci Ai Bi L ab A' B' a b Hlabels Hpath Hlab OA OB SA SB te C' h c d dA dB) as (h2 & E4 & C2 & K1 & K2); auto.
    right. rewrite E4. cbn [bind]. exists C', h2. repeat (split; auto).
    intros z Hz Hc. apply K1. intros Hd. apply Hc. exists (map te Ci), d. auto.
  Qed.
End BlockC.

Lemma forM_lift : forall (O : Ops) X (order : list X) (step : X -> heap (car O) -> res (heap (car O))) t h,
  forM order (fun x => lift (step x)) (t, h) = (h' <- forM order step h ;; Ok (t, h')).
Proof.
  induction order as [|x order IH]; intros step t h; simpl; [reflexivity|]. unfold lift at 1. cbn [fst snd].
  destruct (step x h) as [h1| |]; cbn [bind]; auto.
Qed.

Lemma forM_tiles : forall (O : Ops) (F : desc -> heap (car O) -> res (heap (car O))) rank bs k h,
  forM (diag_tiles rank k bs) (fun p h => F (snd p) h) h = forM bs F h.
Proof.
  induction bs as [|d bs IH]; intros k h; [reflexivity|].
  change (diag_tiles rank k (d :: bs)) with ((diag_key rank k, d) :: diag_tiles rank (S k) bs). cbn [forM snd].
  destruct (F d h) as [h1| |]; cbn [bind]; auto.
Qed.

Lemma blocks_scale_spec : forall (O : Ops) (HR : is_ring O) rank (t : bt) sizes (h : heap (car O)) f cp, (0 < rank)%nat ->
  bt_ok rank t sizes -> bt_sep t -> tt_holds h (as_tt rank sizes t) f ->
  exists h1, (if oeqb cp o0 then blocks_zero t h else blocks_op omul cp t h) = Ok h1 /\
    tt_holds h1 (as_tt rank sizes t) (fun idx => omul cp (f idx)) /\ (forall z, ~ tt_cell (as_tt rank sizes t) z -> h1 z = h z).
Proof.
  intros O HR rank t sizes h f cp Hr Hok Sep HH. assert (R := ir_rt O HR). assert (Ot := as_tt_ok rank t sizes Hr Hok Sep).
  assert (ST : forall F u, (forall d dims g h1, d = tensor_ctor (dbase d) dims -> dims <> [] -> nonneg dims -> holds h1 d g ->
     exists h2, F d h1 = Ok h2 /\ holds h2 d (fun i => u (g i)) /\ (forall a, ~ cell d a -> h2 a = h1 a)) ->
     (forall x, u x = omul cp x) ->
     exists h1, forM (bt_blocks t) F h = Ok h1 /\
       tt_holds h1 (as_tt rank sizes t) (fun idx => omul cp (f idx)) /\ (forall z, ~ tt_cell (as_tt rank sizes t) z -> h1 z = h z)).
  { intros F u HF Hu. destruct (for_tiles_spec O h (as_tt rank sizes t) f F u Ot HH HF) as (h1 & E & H1 & H2).
    unfold for_tiles in E. cbn [fst snd] in E. unfold as_tt in E at 1. cbn [tt_tiles] in E. rewrite forM_tiles in E.
    destruct (forM (bt_blocks t) F h) as [h2| |]; cbn [bind] in E; try discriminate. injection E as ->.
    exists h1. split; auto. split; auto. intros idx c j P. assert (X := H1 idx c j P).
    destruct (find_tile c _); [rewrite X; f_equal; apply Hu|rewrite X; apply (omul_0_r HR)]. }
  destruct (oeqb cp o0) eqn:Ecp.
  - apply (ir_eqb O HR) in Ecp. subst cp. apply (ST (tile_fill o0) (fun _ => o0)).
    + intros d dims g h1 Ed Dne DN Hg. apply (tile_fill_spec O o0 d dims h1); auto. intros i Hi. exists (g i). auto.
    + intros x. symmetry. apply (omul_0_l HR).
  - apply (ST _ (fun x => omul x cp)).
    + intros d dims g h1 Ed Dne DN Hg. destruct (Z.eqb_spec (tdim d 0) 0) as [E0|N0].
      * exists h1. split; auto. split; auto. intros i Hi. exfalso. rewrite Ed in E0, Hi. simpl in Hi. unfold tdim in E0. simpl in E0.
        destruct dims as [|n dims]; [congruence|]. inversion Hi; subst. simpl in E0. lia.
      * apply (tile_op_spec O omul cp d dims g h1); auto.
    + intros x. apply (Rmul_comm R).
Qed.

(** ** Block-diagonal result: every element of every block, provided one of the
    operands is block-diagonal.  Elements of the contraction outside the blocks
    of C have no place in C.  Full claim: also when A and B are both tiled;
    false, [C66_block_of_tiled_refuted]. *)
Theorem C66_block_result_partial :
  forall (O : Ops) (HR : is_ring O) (lab : nat -> list Z) Ci Ai Bi L (cp ab : car O)
         (A B : operand) (C : bt) (a b : list Z -> car O) (sizes : list Z) (c : nat -> list Z -> car O) (order : list Z) (h : heap (car O)),
  labels L Ci Ai Bi -> tile_path_ok L Ci Ai Bi ->
  (forall l, In l (Ci ++ Ai ++ Bi) -> Forall (fun n => n < 2 ^ 31) (lab l)) ->
  is_block A || is_block B = true ->
  stands lab Ai h A a -> stands lab Bi h B b ->
  Ci <> [] -> (forall l, In l Ci -> lab l = sizes) -> bt_ok (length Ci) C sizes -> bt_sep C -> bt_holds h C c ->
  (forall z, bt_cell C z -> ~ op_cell A z) -> (forall z, bt_cell C z -> ~ op_cell B z) ->
  Permutation order (zrange (mix_iterations (mkEin Ci Ai Bi) (OBlock C) A B)) ->
  exists h', mix_einsum_block (mkEin Ci Ai Bi) cp ab A B C order h = Ok h' /\
    (forall k d j, nth_error (bt_blocks C) k = Some d -> inb j (ddims d) ->
       exists v, h' (addr d j) = Some v /\
         tile_result lab Ci Ai Bi L cp ab a b (dense sizes c) (map (fun x => off sizes k + x) j) v) /\
    (forall z, h z <> None -> ~ bt_cell C z -> h' z = h z).
Proof.
  intros O HR lab Ci Ai Bi L cp ab A B C a b sizes c order h Hlabels Hpath Hbig Hone HA0 HB0 Hne HS OC Sep HC0 DA DB HP.
  assert (R := ir_rt O HR).
  assert (EW : element_wise_multiplication (mkEin Ci Ai Bi) = false).
  { unfold tile_path_ok, dispatch in Hpath. destruct (dot_product (mkEin Ci Ai Bi)); [contradiction|].
    destruct (element_wise_multiplication (mkEin Ci Ai Bi)); [contradiction|auto]. }
  assert (HCs : stands lab Ci h (OBlock C) (dense sizes c)) by (econstructor; eauto).
  assert (Hlab : forall l, In l (Ci ++ Ai ++ Bi) -> Forall (fun n => 0 <= n < 2 ^ 31) (lab l)).
  { intros l Hl. assert (N : Forall (fun n => 0 <= n) (lab l)).
    { rewrite !in_app_iff in Hl. destruct Hl as [Hl|[Hl|Hl]]; [eapply lab_nonneg; [exact HCs|auto]|eapply lab_nonneg; [exact HA0|auto]|eapply lab_nonneg; [exact HB0|auto]]. }
    specialize (Hbig l Hl). rewrite Forall_forall in *. auto. }
  assert (Hr : (0 < length Ci)%nat) by (destruct Ci; [congruence|simpl; lia]).
  destruct (stands_tt O lab Ai h A a HA0) as (OA & SA & HA & CA & GA).
  destruct (stands_tt O lab Bi h B b HB0) as (OB & SB & HB & CB & GB).
  destruct (stands_tt O lab Ci h (OBlock C) _ HCs) as (OT & ST & HT & CT & GT).
  assert (EC' : op_tt lab Ci (OBlock C) = as_tt (length Ci) sizes C).
  { unfold op_tt. f_equal. apply HS. destruct Ci; [congruence|simpl; auto]. }
  rewrite EC' in *.
  set (A' := op_tt lab Ai A) in *. set (B' := op_tt lab Bi B) in *. set (C' := as_tt (length Ci) sizes C) in *.
  unfold mix_iterations in HP. cbn [eC eA eB] in HP. rewrite <- GA, <- GB, <- GT in HP.
  rewrite (grid_lab lab Ci C' ST), (grid_lab lab Ai A' SA), (grid_lab lab Bi B' SB) in HP.
  rewrite iterations_eq in HP by (destruct Ci; [congruence|discriminate]).
  unfold mix_einsum_block. rewrite EW. unfold mix_block. cbn [eA eB eC]. rewrite <- GA, <- GB, <- GT.
  destruct (blocks_scale_spec O HR (length Ci) C sizes h (dense sizes c) cp Hr OC Sep HT) as (h1 & E1 & H1 & F1). rewrite E1. cbn [bind].
  rewrite (grid_lab lab Ci C' ST), (grid_lab lab Ai A' SA), (grid_lab lab Bi B' SB).
  unfold unique_strides. rewrite unique_grid_eq, dims_to_strides_eq. cbn [fst].
  unfold unique_labels. cbn [eC eA eB].
  set (U := unique (Ci ++ Ai ++ Bi)) in *. set (st := row_major_strides (map (cnt lab) U)).
  set (g := fun n idx => if diagC Ci (te_of Ci Ai Bi n st) then contrib lab Ci Ai Bi L ab a b (te_of Ci Ai Bi n st) idx else o0).
  destruct (step_loop HR lab Ci A' B' a b OA OB Z order (fun t => t = C') False g
     (fun n => lift (mix_block_step (mkEin Ci Ai Bi) ab A B C U st n))) with (t := C') (h := h1) (c := fun idx => omul cp (dense sizes c idx))
     as [(Hoom & E)|(C2 & h' & E & -> & O' & S' & H' & N1 & N2 & N3)]; auto.
  - intros n Hn. apply (Permutation_in _ HP) in Hn. apply zrange_in in Hn.
    assert (Hix : inb (sentinel_to_indices n st) (map (cnt lab) U)) by (apply rm_sti_inb; auto; apply cnt_nonneg).
    apply (mix_block_step_ok HR lab Ci Ai Bi L ab A B C sizes a b Hlabels Hpath Hlab Hone Hne HS OC Sep h n st HA0 HB0 Hix).
  - apply (holds_frame O h h1 A' a OA HA). intros z Hz. apply F1. intros Hc. apply (DA z); [apply CT; auto|now apply CA].
  - apply (holds_frame O h h1 B' b OB HB). intros z Hz. apply F1. intros Hc. apply (DB z); [apply CT; auto|now apply CB].
  - intros z Hz Hc. apply (DA z); [now apply CT|now apply CA].
  - intros z Hz Hc. apply (DB z); [now apply CT|now apply CB].
  - contradiction.
  - rewrite forM_lift in E. destruct (forM order (mix_block_step (mkEin Ci Ai Bi) ab A B C U st) h1) as [h2| |] eqn:E2; cbn [bind] in E; try discriminate.
    injection E as ->. exists h'. split; [reflexivity|]. split.
    + intros k d j Ed Hj. assert (Ed' := Ed). destruct OC as (HN & HLn & HB1 & _). destruct (HB1 k d Ed) as (Dd & _). rewrite Dd in Hj.
      assert (Hk : (k < length sizes)%nat) by (rewrite <- HLn; apply nth_error_Some; congruence).
      set (idx := map (fun x => off sizes k + x) j).
      assert (P : tile_pos (repeat sizes (length Ci)) idx (diag_key (length Ci) k) j).
      { unfold idx. clear - Hk Hj. revert j Hj. generalize (length Ci) as r. induction r as [|r IH]; intros j Hj; simpl in *; inversion Hj; subst; simpl.
        - constructor.
        - constructor; rewrite ?Nat2Z.id; auto; try lia. }
      assert (X := H' idx (diag_key (length Ci) k) j P).
      assert (Fd : find_tile (diag_key (length Ci) k) (tt_tiles C') = Some d) by (apply find_diag0; eauto).
      rewrite Fd in X. eexists. split; [exact X|]. cbv beta.
      assert (PL : tile_pos (map lab Ci) idx (diag_key (length Ci) k) j) by (rewrite (map_lab_repeat lab Ci sizes HS); exact P).
      assert (HF : Forall (Forall (fun n => 0 <= n)) (map lab Ci)).
      { destruct (ok_sizes C' O') as (_ & F). rewrite ST in F. exact F. }
      assert (Ec := coord_pos _ _ _ _ HF PL).
      assert (Eg : lsum order (fun x => g x idx) = lsum order (fun n => contrib lab Ci Ai Bi L ab a b (te_of Ci Ai Bi n st) idx)).
      { apply lsum_ext. intros n _. unfold g. destruct (diagC Ci (te_of Ci Ai Bi n st)) eqn:Dg; auto. unfold contrib.
        destruct (list_eq_dec Z.eq_dec _ _) as [Eq|]; auto. exfalso. rewrite Ec in Eq. unfold diagC in Dg. rewrite <- Eq in Dg.
        assert (Dt : forallb (fun x => x =? hd 0 (diag_key (length Ci) k)) (diag_key (length Ci) k) = true); [|congruence].
        apply repeat_eq. unfold diag_key. rewrite repeat_length. destruct (length Ci); [lia|reflexivity]. }
      rewrite Eg. unfold te_of. fold U. unfold st.
      rewrite (order_sum HR lab U order (fun te => contrib lab Ci Ai Bi L ab a b te idx) HP). fold idx.
      split.
      * intros env Ei. f_equal. rewrite Ei. eapply (contrib_total HR); eauto; [|apply Hlabels|rewrite <- Ei; exact PL].
        intros l Hl. eapply Forall_impl; [|apply Hlab; auto]. simpl. intros; lia.
      * intros Hno. rewrite Sum_over_0; auto; [now rewrite (Radd_comm R), (Radd_0_l R)|].
        intros e _. apply contrib_none. auto.
    + intros z Hz Hc0. assert (Hc : ~ tt_cell C' z) by (intros Hc; apply Hc0; now apply CT).
      rewrite N3, F1; auto. rewrite F1 by auto. auto.
Qed.
Print Assumptions C66_block_result_partial.

(** ** What the code does otherwise *)

(** C block-diagonal, A and B tiled: C(i,j) = C(i,j) + A(i,k)*B(k,j) leaves C as
    it was: 5, 7 instead of 5 + 2*3, 7 + 4*10. *)
Theorem C66_block_of_tiled_refuted :
  let al := first_fit 100 in
  let C := bt_ctor 2 190 [200; 201] [1; 1] in
  exists A B h1 h2 p1 p2 h',
    trun (O:=ZOps) al [TWrite [0; 0] 2; TWrite [1; 1] 4] (tt_ctor [[1; 1]; [1; 1]], upd (upd (fun _ => None) 200 5) 201 7) = Ok (p1, (A, h1)) /\
    trun (O:=ZOps) al [TWrite [0; 0] 3; TWrite [1; 1] 10] (tt_ctor [[1; 1]; [1; 1]], h1) = Ok (p2, (B, h2)) /\
    tile_path_ok [1%nat] [0; 2]%nat [0; 1]%nat [1; 2]%nat /\ labels [1%nat] [0; 2]%nat [0; 1]%nat [1; 2]%nat /\
    mix_einsum_block (O:=ZOps) (mkEin [0; 2] [0; 1] [1; 2])%nat 1 1 (OTile A) (OTile B) C (zrange 8) h2 = Ok h' /\
    h' 200 = Some 5 /\ h' 201 = Some 7.
Proof.
  do 7 eexists. split; [vm_compute; reflexivity|]. split; [vm_compute; reflexivity|].
  split; [vm_compute; split; [intros l; simpl; tauto|intros l; intuition lia]|].
  split; [split; [intros l; simpl; tauto|split; [repeat constructor; simpl; tauto|intros l; simpl; intuition lia]]|].
  split; [vm_compute; reflexivity|]. split; vm_compute; reflexivity.
Qed.
Print Assumptions C66_block_of_tiled_refuted.

(** C(i,j) = A(i,j)*B(i,j), A and C tiled, B block-diagonal, all with the tile
    sizes 1, 1: element (1,1) is 0 instead of 4*7, and element (1,0) becomes 9*7
    instead of 9*0. *)
Theorem C66_elementwise_refuted :
  let al := first_fit 100 in
  let B := bt_ctor 2 190 [200; 201] [1; 1] in
  exists A h1 p1 C' h',
    trun (O:=ZOps) al [TWrite [0; 0] 2; TWrite [1; 0] 9; TWrite [1; 1] 4] (tt_ctor [[1; 1]; [1; 1]], upd (upd (upd (fun _ => None) 190 0) 200 5) 201 7) = Ok (p1, (A, h1)) /\
    bt_read (O:=ZOps) B [1; 0] h1 = Ok (0, h1) /\ bt_read (O:=ZOps) B [1; 1] h1 = Ok (7, h1) /\
    mix_einsum_tiled (O:=ZOps) al (mkEin [0; 1] [0; 1] [0; 1])%nat 0 1 (OTile A) (OBlock B) [0; 1] (tt_ctor [[1; 1]; [1; 1]], h1) = Ok (C', h') /\
    map (fun i => tt_read (O:=ZOps) C' i h') (indices [2; 2]) = map (@Ok Z) [10; 0; 63; 0].
Proof.
  do 5 eexists. split; [vm_compute; reflexivity|]. split; [vm_compute; reflexivity|]. split; [vm_compute; reflexivity|].
  split; vm_compute; reflexivity.
Qed.
Print Assumptions C66_elementwise_refuted.

(** ** Concrete cases.  A(i,k) tiled, B(k,j) block-diagonal with blocks 2 and 1;
    C(i,j) = 3*C + 10*A*B into a tiled C with a missing tile, and
    D(k,j) = 2*D + 10*E(k,l)*B(l,j) into a block-diagonal D, E tiled and not
    block-diagonal. *)
Definition caseB : bt := bt_ctor 2 190 [300; 310] [2; 1].
Definition caseD : bt := bt_ctor 2 190 [400; 410] [2; 1].
Definition caseh : heap Z := fun z =>
  if (300 <=? z) && (z <? 304) then Some (z - 299) else if z =? 310 then Some 9
  else if (400 <=? z) && (z <? 404) then Some 1 else if z =? 410 then Some 1 else None.

Lemma caseB_ok : bt_ok 2 caseB [2; 1] /\ bt_sep caseB /\ bt_ok 2 caseD [2; 1] /\ bt_sep caseD /\
  bt_holds caseh caseB (fun k j => match k, j with O, [x; y] => 2 * x + y + 1 | _, _ => 9 end) /\
  bt_holds caseh caseD (fun _ _ => 1).
Proof.
  assert (I2 : forall i, inb i [2; 2] -> exists x y, i = [x; y] /\ 0 <= x < 2 /\ 0 <= y < 2).
  { intros i H. inversion H as [|? ? ? ? H1 H2]; subst. inversion H2 as [|? ? ? ? H3 H4]; subst. inversion H4; subst. eauto. }
  assert (I1 : forall i, inb i [1; 1] -> i = [0; 0]).
  { intros i H. inversion H as [|? ? ? ? H1 H2]; subst. inversion H2 as [|? ? ? ? H3 H4]; subst. inversion H4; subst. f_equal; [lia|f_equal; lia]. }
  assert (OKs : forall x y, bt_ok 2 (bt_ctor 2 190 [x; y] [2; 1]) [2; 1]).
  { intros x y. split; [repeat constructor; lia|]. split; [reflexivity|]. split.
    - intros [|[|[|k]]] d E; simpl in E; try discriminate; injection E as <-; simpl; repeat split; reflexivity.
    - split; [reflexivity|]. split; [|reflexivity]. intros [|[|k]] Hk; simpl in *; try lia; reflexivity. }
  assert (SPs : forall x, bt_sep (bt_ctor 2 190 [x; x + 10] [2; 1])).
  { intros x i j d e E1 E2 Hne u v Hu Hv E.
    destruct i as [|[|[|i]]], j as [|[|[|j]]]; simpl in E1, E2; try discriminate; try congruence; injection E1 as <-; injection E2 as <-;
      simpl in Hu, Hv; unfold addr in E; simpl in E.
    - apply I2 in Hu as (p & q & -> & ? & ?). apply I1 in Hv. subst v. simpl in E. lia.
    - apply I1 in Hu. apply I2 in Hv as (p & q & -> & ? & ?). subst u. simpl in E. lia. }
  split; [apply OKs|]. split; [apply (SPs 300)|]. split; [apply OKs|]. split; [apply (SPs 400)|]. split.
  - intros [|[|[|k]]] d E; simpl in E; try discriminate; injection E as <-; intros i Hi; simpl in Hi.
    + apply I2 in Hi as (x & y & -> & Hx & Hy). unfold addr, caseh. simpl.
      replace ((300 <=? _) && _) with true by (symmetry; rewrite andb_true_iff, Z.leb_le, Z.ltb_lt; lia). f_equal. lia.
    + apply I1 in Hi. subst i. reflexivity.
  - intros [|[|[|k]]] d E; simpl in E; try discriminate; injection E as <-; intros i Hi; simpl in Hi.
    + apply I2 in Hi as (x & y & -> & Hx & Hy).
      assert (x = 0 \/ x = 1) as [-> | ->] by lia; assert (y = 0 \/ y = 1) as [-> | ->] by lia; reflexivity.
    + apply I1 in Hi. subst i. reflexivity.
Qed.

Example C66_case :
  let al := first_fit 200 in
  exists A C E h p1 p2 p3 h1 h2 C' h' h'',
    trun (O:=ZOps) al [TWrite [0; 0] 1; TWrite [0; 2] 1; TWrite [1; 1] 2] (tt_ctor [[1; 1]; [2; 1]], caseh) = Ok (p1, (A, h1)) /\
    trun (O:=ZOps) al [TWrite [0; 1] 5] (tt_ctor [[1; 1]; [2; 1]], h1) = Ok (p2, (C, h2)) /\
    trun (O:=ZOps) al [TWrite [0; 0] 1; TWrite [1; 2] 8; TWrite [2; 2] 3] (tt_ctor [[2; 1]; [2; 1]], h2) = Ok (p3, (E, h)) /\
    tile_path_ok [1%nat] [0; 2]%nat [0; 1]%nat [1; 2]%nat /\ labels [1%nat] [0; 2]%nat [0; 1]%nat [1; 2]%nat /\
    mix_einsum_tiled (O:=ZOps) al (mkEin [0; 2] [0; 1] [1; 2])%nat 3 10 (OTile A) (OBlock caseB) [3; 0; 7; 5; 2; 1; 6; 4] (C, h) = Ok (C', h') /\
    map (fun i => tt_read (O:=ZOps) C' i h') (indices [2; 3]) = map (@Ok Z) [10; 3 * 5 + 10 * 2; 90; 60; 80; 0] /\
    mix_einsum_block (O:=ZOps) (mkEin [0; 2] [0; 1] [1; 2])%nat 2 10 (OTile E) (OBlock caseB) caseD [3; 0; 7; 5; 2; 1; 6; 4] h = Ok h'' /\
    map h'' [400; 401; 402; 403; 410] = map (@Some Z) [2 + 10; 2 + 20; 2; 2; 2 + 10 * 27].
Proof.
  do 12 eexists. split; [vm_compute; reflexivity|]. split; [vm_compute; reflexivity|]. split; [vm_compute; reflexivity|].
  split; [vm_compute; split; [intros l; simpl; tauto|intros l; intuition lia]|].
  split; [split; [intros l; simpl; tauto|split; [repeat constructor; simpl; tauto|intros l; simpl; intuition lia]]|].
  split; [vm_compute; reflexivity|]. split; [vm_compute; reflexivity|]. split; vm_compute; reflexivity.
Qed.
