(** * T_TileEinsum: einsum on tiled tensors (C65). *)
From Coq Require Import List ZArith Lia Bool Permutation Ring.
From Verif Require Import Base Heap Conc M_Addr S_Addr L_Addr M_Elt L_Elt M_Einsum S_Einsum L_Einsum T_Einsum
  S_Blas M_Blas L_Blas M_Dispatch S_Dispatch L_Dispatch L_Paths T_Dispatch M_Block S_Block L_Block M_Tiled S_Tiled L_Tiled L_Tiled2
  T_Tiled M_BlockEinsum S_BlockEinsum L_BlockEinsum T_BlockEinsum M_TileEinsum S_TileEinsum L_TileEinsum.
Import ListNotations.
Open Scope Z_scope.

Lemma grid_lab : forall lab I t, tt_sizes t = map lab I -> grid t = map (cnt lab) I.
Proof. intros lab I t E. unfold grid. rewrite E. apply grid_map. Qed.

Lemma label_grid_eq : forall lab Ci Ai Bi l, In l (Ci ++ Ai ++ Bi) ->
  label_grid (mkEin Ci Ai Bi) (map (cnt lab) Ci) (map (cnt lab) Ai) (map (cnt lab) Bi) l = cnt lab l.
Proof.
  intros lab Ci Ai Bi l Hl.
  assert (G : forall I, (exists p, find_position l I = Some p /\ grid_of I (map (cnt lab) I) l = Some (cnt lab l)) \/
                        (~ In l I /\ grid_of I (map (cnt lab) I) l = None)).
  { intros I. unfold grid_of. destruct (find_position l I) as [p|] eqn:E.
    - left. exists p. split; auto. apply find_position_Some in E. rewrite nth_error_map, E. reflexivity.
    - right. split; auto. now apply find_position_None. }
  unfold label_grid. cbn [eC eA eB].
  destruct (G Ci) as [(p & _ & ->)|(N1 & ->)]; auto. destruct (G Ai) as [(p & _ & ->)|(N2 & ->)]; auto.
  destruct (G Bi) as [(p & _ & ->)|(N3 & ->)]; auto. rewrite !in_app_iff in Hl. tauto.
Qed.

Lemma unique_grid_eq : forall lab Ci Ai Bi,
  unique_grid (mkEin Ci Ai Bi) (map (cnt lab) Ci) (map (cnt lab) Ai) (map (cnt lab) Bi) = map (cnt lab) (unique (Ci ++ Ai ++ Bi)).
Proof.
  intros. unfold unique_grid, unique_labels. cbn [eC eA eB]. apply map_ext_in. intros l Hl.
  apply label_grid_eq. apply in_unique. auto.
Qed.

Lemma cnt_nonneg : forall lab U, nonneg (map (cnt lab) U).
Proof. intros. apply Forall_forall. intros x Hx. apply in_map_iff in Hx as (l & <- & _). unfold cnt. lia. Qed.

Lemma iterations_eq : forall lab Ci Ai Bi, Ci ++ Ai ++ Bi <> [] ->
  tile_iterations (mkEin Ci Ai Bi) (map (cnt lab) Ci) (map (cnt lab) Ai) (map (cnt lab) Bi) =
  zprod (map (cnt lab) (unique (Ci ++ Ai ++ Bi))).
Proof.
  intros lab Ci Ai Bi Hne. unfold tile_iterations, unique_strides. rewrite unique_grid_eq, dims_to_strides_eq. cbn [fst].
  assert (unique (Ci ++ Ai ++ Bi) <> []).
  { destruct (Ci ++ Ai ++ Bi) as [|l r]; [congruence|]. intros E2.
    assert (H : In l (unique (l :: r))) by (apply in_unique; simpl; auto). rewrite E2 in H. destruct H. }
  destruct (unique (Ci ++ Ai ++ Bi)) as [|u U]; [congruence|]. cbn [map]. rewrite rms_cons. cbn [hd zprod fold_right]. reflexivity.
Qed.

Section Whole.
  Context {O : Ops} (HR : is_ring O).
  Notation T := (car O).
  Add Ring ORing : (ir_rt O HR).

  Lemma scale_spec : forall (t : tt) (h : heap T) f cp, tt_ok t -> tt_holds h t f ->
    exists h1, (if oeqb cp o0 then tt_zero_no_clear (t, h) else tt_scale cp (t, h)) = Ok (t, h1) /\
      tt_holds h1 t (fun idx => omul cp (f idx)) /\ (forall z, ~ tt_cell t z -> h1 z = h z).
  Proof.
    intros t h f cp Hok HH. destruct (oeqb cp o0) eqn:Ecp.
    - apply (ir_eqb O HR) in Ecp. subst cp. unfold tt_zero_no_clear.
      destruct (for_tiles_spec O h t f (tile_fill o0) (fun _ => o0) Hok HH) as (h' & E & H1 & H2).
      { intros d dims g h1 Ed Dne DN Hg. apply (tile_fill_spec O o0 d dims h1); auto. intros i Hi. exists (g i). auto. }
      exists h'. split; auto. split; auto. intros idx c j P. assert (H := H1 idx c j P).
      destruct (find_tile c (tt_tiles t)); [rewrite H; f_equal|]; ring.
    - unfold tt_scale. rewrite Ecp.
      destruct (for_tiles_spec O h t f (tile_op omul cp) (fun x => omul x cp) Hok HH) as (h' & E & H1 & H2).
      { intros d dims g h1 Ed Dne DN Hg. apply (tile_op_spec O omul cp d dims g h1); auto. }
      exists h'. split; auto. split; auto. intros idx c j P. assert (H := H1 idx c j P).
      destruct (find_tile c (tt_tiles t)); [rewrite H; f_equal|rewrite H]; ring.
  Qed.

  (** Sum of the contributions over the iterations. *)
  Lemma order_sum : forall lab U order (F : (nat -> Z) -> T), 
    Permutation order (zrange (zprod (map (cnt lab) U))) ->
    lsum order (fun n => F (upds U (sentinel_to_indices n (row_major_strides (map (cnt lab) U))) m1)) =
    Sum_over U (cnt lab) m1 F.
  Proof.
    intros lab U order F HP. rewrite (lsum_perm O HR _ _ _ _ HP), (Sum_over_indices HR).
    rewrite (lsum_flat HR (map (cnt lab) U)) by apply cnt_nonneg. reflexivity.
  Qed.
End Whole.

(** ** C65, tiled result.  Any subset of the tiles of A, B and C exists; the
    iterations run in any order.  Patterns: [tile_path_ok]. *)
Theorem C65_einsum_partial :
  forall (O : Ops) (HR : is_ring O) (al : heap (car O) -> Z -> option Z) (lab : nat -> list Z) Ci Ai Bi L (cp ab : car O)
         (A B C : tt) (a b c : list Z -> car O) (order : list Z) (h : heap (car O)),
  al_ok al -> labels L Ci Ai Bi -> tile_path_ok L Ci Ai Bi ->
  (forall l, In l (Ci ++ Ai ++ Bi) -> Forall (fun n => n < 2 ^ 31) (lab l)) ->
  tt_ok A -> tt_ok B -> tt_ok C ->
  tt_sizes A = map lab Ai -> tt_sizes B = map lab Bi -> tt_sizes C = map lab Ci ->
  tt_holds h A a -> tt_holds h B b -> tt_holds h C c -> tt_disj C A -> tt_disj C B ->
  Permutation order (zrange (tile_iterations (mkEin Ci Ai Bi) (grid C) (grid A) (grid B))) ->
  ((exists h1 n, al h1 n = None) /\ tile_einsum al (mkEin Ci Ai Bi) cp ab A B order (C, h) = Throw) \/
  exists C' h', tile_einsum al (mkEin Ci Ai Bi) cp ab A B order (C, h) = Ok (C', h') /\
    (forall idx, inb idx (map (total lab) Ci) ->
       exists v, tt_read C' idx h' = Ok v /\ tile_result lab Ci Ai Bi L cp ab a b c idx v) /\
    tt_ok C' /\ tt_sizes C' = tt_sizes C /\
    (forall z, h z <> None -> ~ tt_cell C z -> h' z = h z).
Proof.
  intros O HR al lab Ci Ai Bi L cp ab A B C a b c order h Hal Hlabels Hpath Hbig OA OB OC SA SB SC HA HB HC DA DB HP.
  assert (R := ir_rt O HR).
  assert (EW : element_wise_multiplication (mkEin Ci Ai Bi) = false).
  { unfold tile_path_ok, dispatch in Hpath. destruct (dot_product (mkEin Ci Ai Bi)); [contradiction|].
    destruct (element_wise_multiplication (mkEin Ci Ai Bi)); [contradiction|auto]. }
  assert (Hlab : forall l, In l (Ci ++ Ai ++ Bi) -> Forall (fun n => 0 <= n < 2 ^ 31) (lab l)).
  { intros l Hl. assert (N : Forall (fun n => 0 <= n) (lab l)).
    { assert (G : forall t I, tt_ok t -> tt_sizes t = map lab I -> In l I -> Forall (fun n => 0 <= n) (lab l)).
      { intros t I Ot St Hi. destruct (ok_sizes t Ot) as (_ & F). rewrite St, Forall_forall in F. apply F, in_map, Hi. }
      rewrite !in_app_iff in Hl. destruct Hl as [Hl|[Hl|Hl]]; eauto. }
    specialize (Hbig l Hl). rewrite Forall_forall in *. auto. }
  rewrite (grid_lab lab Ci C SC), (grid_lab lab Ai A SA), (grid_lab lab Bi B SB) in HP.
  assert (Hne : Ci <> []).
  { intros E. destruct (ok_sizes C OC) as (N & _). apply N. rewrite SC, E. reflexivity. }
  rewrite iterations_eq in HP by (destruct Ci; [congruence|discriminate]).
  unfold tile_einsum. rewrite EW. unfold tile_special. cbn [fst].
  destruct (scale_spec HR C h c cp OC HC) as (h1 & E1 & C1 & F1). rewrite E1. cbn [bind].
  rewrite (grid_lab lab Ci C SC), (grid_lab lab Ai A SA), (grid_lab lab Bi B SB).
  unfold unique_strides. rewrite unique_grid_eq, dims_to_strides_eq. cbn [fst].
  unfold unique_labels. cbn [eC eA eB].
  set (U := unique (Ci ++ Ai ++ Bi)) in *. set (st := row_major_strides (map (cnt lab) U)).
  destruct (step_loop HR lab Ci A B a b OA OB Z order (fun _ => True) (exists h n, al h n = None)
     (fun n => contrib lab Ci Ai Bi L ab a b (te_of Ci Ai Bi n st))
     (tile_step al (mkEin Ci Ai Bi) ab A B U st)) with (t := C) (h := h1) (c := fun idx => omul cp (c idx))
     as [(Hoom & E)|(C' & h' & E & _ & O' & S' & H' & N1 & N2 & N3)]; auto.
  - intros n Hn. apply (Permutation_in _ HP) in Hn. apply zrange_in in Hn.
    apply tile_step_ok; auto. apply rm_sti_inb; auto. apply cnt_nonneg.
  - apply (holds_frame O h h1 A a OA HA). intros z Hz. apply F1. intros Hc. exact (DA z Hc Hz).
  - apply (holds_frame O h h1 B b OB HB). intros z Hz. apply F1. intros Hc. exact (DB z Hc Hz).
  - right. exists C', h'. split; [exact E|]. split; [|split; [auto|split; [congruence|]]].
    + intros idx Hi.
      assert (HF : Forall (Forall (fun n => 0 <= n)) (map lab Ci)).
      { destruct (ok_sizes C OC) as (_ & F). rewrite SC in F. exact F. }
      assert (Hi' : inb idx (dense_dims (map lab Ci))).
      { unfold dense_dims. rewrite map_map. exact Hi. }
      assert (Hr := read_spec O h' C' _ idx idx O' H').
      rewrite (ok_dims C' O'), S' in Hr. specialize (Hr (spell_self _ _ Hi')).
      eexists. split; [exact Hr|]. destruct (tile_pos_cover _ _ HF Hi') as (k & j & P).
      cbv beta. unfold te_of. fold U. unfold st.
      rewrite (order_sum HR lab U order (fun te => contrib lab Ci Ai Bi L ab a b te idx) HP).
      split.
      * intros env ->. f_equal. eapply (contrib_total HR); eauto; [|apply Hlabels].
        intros l Hl. eapply Forall_impl; [|apply Hlab; auto]. simpl. intros; lia.
      * intros Hno. rewrite Sum_over_0; auto; [now rewrite (Radd_comm R), (Radd_0_l R)|].
        intros e _. apply contrib_none. auto.
    + intros z Hz Hc. rewrite N3, F1; auto. rewrite F1 by auto. auto.
Qed.
Print Assumptions C65_einsum_partial.

(** ** C65, scalar result, not [dot]. *)
Section Scalar.
  Context {O : Ops} (HR : is_ring O).
  Notation T := (car O).
  Add Ring ORing2 : (ir_rt O HR).
  Variable lab : nat -> list Z.
  Variables Ai Bi L : list nat.
  Variable ab : T.
  Variables A B : tt.
  Variables a b : list Z -> T.
  Hypothesis Hlabels : labels L [] Ai Bi.
  Hypothesis Hone : forall l, In l L -> count_occ Nat.eq_dec Ai l = 1%nat.
  Hypothesis HD : dispatch (mkEin [] Ai Bi) true true true true = PGeneric.
  Hypothesis Hlab : forall l, In l ([] ++ Ai ++ Bi) -> Forall (fun n => 0 <= n < 2 ^ 31) (lab l).
  Hypothesis OA : tt_ok A.
  Hypothesis OB : tt_ok B.
  Hypothesis SA : tt_sizes A = map lab Ai.
  Hypothesis SB : tt_sizes B = map lab Bi.

  Lemma scalar_step_ok : forall n strides tmp s (h : heap T),
    inb (sentinel_to_indices n strides) (map (cnt lab) (unique ([] ++ Ai ++ Bi))) ->
    tt_holds h A a -> tt_holds h B b -> h tmp = None ->
    exists h', tile_scalar_step (mkEin [] Ai Bi) ab A B (unique ([] ++ Ai ++ Bi)) strides tmp n (s, h) =
        Ok (oadd s (contrib lab [] Ai Bi L ab a b (te_of [] Ai Bi n strides) []), h') /\ (forall z, h' z = h z).
  Proof.
    intros n strides tmp s h Hix HA HB Ht.
    set (U := unique ([] ++ Ai ++ Bi)) in *. set (te := te_of [] Ai Bi n strides).
    assert (Hlen : length (sentinel_to_indices n strides) = length U) by (rewrite (inb_length _ _ Hix), map_length; auto).
    assert (Hte : forall l, In l ([] ++ Ai ++ Bi) -> 0 <= te l < cnt lab l).
    { intros l Hl. refine (upds_ok U _ m1 (cnt lab) ([] ++ Ai ++ Bi) (unique_NoDup _) Hix _ l Hl).
      intros l' H1 H2. exfalso. apply H2. apply in_unique. auto. }
    assert (HTA : forall l, In l Ai -> 0 <= te l < cnt lab l) by (intros; apply Hte, incl_a; auto).
    assert (HTB : forall l, In l Bi -> 0 <= te l < cnt lab l) by (intros; apply Hte, incl_b; auto).
    assert (GA := in_grid lab Ai te HTA). rewrite <- SA in GA.
    assert (GB := in_grid lab Bi te HTB). rewrite <- SB in GB.
    unfold tile_scalar_step. cbn [eA eB eC fst snd]. rewrite !tile_coords_upds by (auto; apply unique_NoDup).
    change (upds U (sentinel_to_indices n strides) m1) with te.
    rewrite (has_tile_c_inb A), (has_tile_c_inb B) by auto.
    assert (P0 : tile_pos (map lab []) [] [] []) by constructor.
    assert (Same : contrib lab [] Ai Bi L ab a b te [] = o0 ->
       exists h', (Ok (s, h) : res (T * heap T)) = Ok (oadd s (contrib lab [] Ai Bi L ab a b te []), h') /\ forall z, h' z = h z).
    { intros ->. exists h. split; auto. do 2 f_equal. ring. }
    destruct (find_tile (map te Ai) (tt_tiles A)) as [dA|] eqn:FA; cbn [negb orb].
    2:{ apply Same. eapply (contrib_missing HR); eauto. }
    destruct (find_tile (map te Bi) (tt_tiles B)) as [dB|] eqn:FB; cbn [negb orb].
    2:{ apply Same. eapply (contrib_missing HR); eauto. }
    destruct (has_zero_size A (map te Ai)) eqn:ZA; cbn [orb].
    { apply Same. eapply (contrib_missing HR); eauto. }
    destruct (has_zero_size B (map te Bi)) eqn:ZB; cbn [orb].
    { apply Same. eapply (contrib_missing HR); eauto. }
    clear Same. rewrite (const_tile_inb A _ dA), (const_tile_inb B _ dB) by auto. cbn [bind].
    destruct (tile_facts A _ dA OA FA) as (_ & DdA & _).
    destruct (tile_facts B _ dB OB FB) as (_ & DdB & _).
    assert (HdA := holds_tile O h A a _ dA OA HA FA).
    assert (HdB := holds_tile O h B b _ dB OB HB FB).
    assert (NA : ~ cell dA tmp) by (intros (i & Hi & Ei); rewrite Ei, HdA in Ht by auto; discriminate).
    assert (NB : ~ cell dB tmp) by (intros (i & Hi & Ei); rewrite Ei, HdB in Ht by auto; discriminate).
    set (h1 := upd h tmp o0).
    assert (Etmp : h1 tmp = Some o0) by (unfold h1, upd; now rewrite Z.eqb_refl).
    assert (Hframe : forall d f, holds h d f -> ~ cell d tmp -> holds h1 d f).
    { intros d f Hd Hn i Hi. unfold h1. rewrite upd_other; auto. intros E. apply Hn. exists i; auto. }
    set (dt := mkDesc tmp [] []).
    assert (Adt : forall i, inb i (ddims dt) -> addr dt i = tmp).
    { intros i Hi. inversion Hi. unfold addr. simpl. lia. }
    destruct (plan_run_spec O (einsum (mkEin [] Ai Bi) true true true true false false o0 dt ab dA dB h1)
      (einsum_result (text lab te) [] Ai Bi L o0 ab dt (at_tile a (tt_sizes A) (map te Ai)) (at_tile b (tt_sizes B) (map te Bi))
         (fun _ => o0) h1)) as (h2 & E & R1 & R2).
    { unfold einsum. rewrite HD. eexists _, _, _. split; [reflexivity|]. intros threads HP. destruct Hlabels as (H1 & H2).
      apply (C11_einsum_generic_partial O HR h1 [] Ai Bi (text lab te)); auto.
      - intros l Hl. apply (text_range lab [] Ai Bi Hlab te l Hl).
      - unfold consistent. rewrite DdA, SA. apply dims_map.
      - unfold consistent. rewrite DdB, SB. apply dims_map.
      - reflexivity.
      - intros i Hi. rewrite (Adt i Hi). auto.
      - intros i j Hi Hj _. inversion Hi. inversion Hj. auto.
      - intros i j Hi Hj Ea. rewrite (Adt i Hi) in Ea. apply NA. exists j. split; auto.
      - intros i j Hi Hj Ea. rewrite (Adt i Hi) in Ea. apply NB. exists j. split; auto. }
    rewrite E. cbn [bind].
    assert (E2 := R1 m1 ltac:(intros l [])). rewrite (Adt (map m1 []) ltac:(constructor)) in E2.
    unfold rd. rewrite E2. cbn [bind]. exists (fun z => if z =? tmp then None else h2 z). split.
    2:{ intros z. simpl. destruct (Z.eqb_spec z tmp) as [->|Hz]; [auto|]. rewrite R2.
        - unfold h1. now rewrite upd_other.
        - intros env He. rewrite (Adt (map env []) ltac:(constructor)). auto. }
    do 3 f_equal. unfold contrib. cbn [map coord combine]. simpl.
    transitivity (omul ab (einstein L Ai Bi (text lab te) (at_tile a (tt_sizes A) (map te Ai)) (at_tile b (tt_sizes B) (map te Bi)) m1)); [ring|].
    f_equal. unfold einstein. apply Sum_over_cong. intros e e' H1 H2 H3. rewrite SA, SB, !at_map.
    change (summand Ai Bi a b (glob lab te e) = summand Ai Bi a b (glob lab te e')).
    apply summand_local. intros l Hl. unfold glob. f_equal.
    destruct (in_dec Nat.eq_dec l L) as [Hx|Hx]; [apply H1; auto|].
    destruct (in_ci_or_l [] Ai Bi L (proj2 Hlabels) l Hl) as [[]|Hc]; contradiction.
  Qed.
End Scalar.

Theorem C65_scalar :
  forall (O : Ops) (HR : is_ring O) (lab : nat -> list Z) Ai Bi L (cp ab c0 : car O) (A B : tt) (a b : list Z -> car O)
         (Ca tmp : Z) (threads : list (list Z)) (h : heap (car O)) env,
  labels L [] Ai Bi -> Ai <> [] -> (forall l, In l L -> count_occ Nat.eq_dec Ai l = 1%nat) ->
  dot_product (mkEin [] Ai Bi) = false ->
  (forall l, In l (Ai ++ Bi) -> Forall (fun n => n < 2 ^ 31) (lab l)) ->
  tt_ok A -> tt_ok B -> tt_sizes A = map lab Ai -> tt_sizes B = map lab Bi -> tt_holds h A a -> tt_holds h B b ->
  h Ca = Some c0 -> ~ tt_cell A Ca -> ~ tt_cell B Ca -> h tmp = None ->
  Permutation (concat threads) (zrange (tile_iterations (mkEin [] Ai Bi) [] (grid A) (grid B))) ->
  exists h', tile_scalar (mkEin [] Ai Bi) cp Ca ab A B tmp threads h = Ok h' /\
    h' Ca = Some (oadd (omul cp c0) (omul ab (einstein L Ai Bi (total lab) a b env))) /\
    (forall z, z <> Ca -> h' z = h z).
Proof.
  intros O HR lab Ai Bi L cp ab c0 A B a b Ca tmp threads h env Hlabels Hne Hone HD Hbig OA OB SA SB HA HB HC NA NB Ht HP.
  assert (R := ir_rt O HR).
  assert (HD' := dispatch_scalar (mkEin [] Ai Bi) true true true HD eq_refl Hne).
  assert (Hlab : forall l, In l ([] ++ Ai ++ Bi) -> Forall (fun n => 0 <= n < 2 ^ 31) (lab l)).
  { intros l Hl. simpl in Hl. assert (N : Forall (fun n => 0 <= n) (lab l)).
    { assert (G : forall t I, tt_ok t -> tt_sizes t = map lab I -> In l I -> Forall (fun n => 0 <= n) (lab l)).
      { intros t I Ot St Hi. destruct (ok_sizes t Ot) as (_ & F). rewrite St, Forall_forall in F. apply F, in_map, Hi. }
      rewrite !in_app_iff in Hl. destruct Hl as [Hl|Hl]; eauto. }
    specialize (Hbig l Hl). rewrite Forall_forall in *. auto. }
  rewrite (grid_lab lab Ai A SA), (grid_lab lab Bi B SB) in HP.
  change (@nil Z) with (map (cnt lab) []) in HP.
  rewrite iterations_eq in HP by (destruct Ai; [congruence|discriminate]).
  assert (Hct : tmp <> Ca) by congruence.
  unfold tile_scalar. rewrite HD. unfold tile_scalar_special, rd at 1, wr at 1. rewrite HC. cbn [bind].
  rewrite (grid_lab lab Ai A SA), (grid_lab lab Bi B SB).
  change (@nil Z) with (map (cnt lab) []).
  unfold unique_strides. rewrite unique_grid_eq, dims_to_strides_eq. cbn [fst].
  unfold unique_labels. cbn [eC eA eB].
  set (c1 := if oeqb cp o0 then o0 else omul c0 cp).
  assert (Ec1 : c1 = omul cp c0).
  { unfold c1. destruct (oeqb cp o0) eqn:E; [|apply (Rmul_comm R)]. apply (ir_eqb O HR) in E. subst. symmetry. apply (omul_0_l HR). }
  set (h1 := upd h Ca c1). set (U := unique ([] ++ Ai ++ Bi)) in *. set (st := row_major_strides (map (cnt lab) U)).
  assert (H1 : h1 Ca = Some c1) by (unfold h1, upd; now rewrite Z.eqb_refl).
  assert (H1' : forall z, z <> Ca -> h1 z = h z) by (intros; apply upd_other; auto).
  set (g := fun n => contrib lab [] Ai Bi L ab a b (te_of [] Ai Bi n st) []).
  assert (HS : forall share s0 (hh : heap (car O)), (forall k, In k share -> 0 <= k < zprod (map (cnt lab) U)) -> (forall z, hh z = h1 z) ->
    exists hh', forM share (tile_scalar_step (mkEin [] Ai Bi) ab A B U st tmp) (s0, hh) = Ok (oadd s0 (lsum share g), hh') /\ forall z, hh' z = h1 z).
  { induction share as [|k share IH]; intros s0 hh Hk Hh.
    - simpl. exists hh. split; auto. unfold lsum. simpl. do 2 f_equal. symmetry. rewrite (Radd_comm R). apply (Radd_0_l R).
    - cbn [forM]. destruct (scalar_step_ok HR lab Ai Bi L ab A B a b Hlabels Hone HD' Hlab OA OB SA SB k st tmp s0 hh) as (h2 & E2 & F2).
      + apply rm_sti_inb; [apply Hk; simpl; auto|apply cnt_nonneg].
      + apply (holds_frame O h hh A a OA HA). intros z Hz. rewrite Hh. apply H1'. congruence.
      + apply (holds_frame O h hh B b OB HB). intros z Hz. rewrite Hh. apply H1'. congruence.
      + rewrite Hh, H1'; auto.
      + fold U in E2. rewrite E2. cbn [bind]. destruct (IH (oadd s0 (g k)) h2) as (hh' & E & F).
        * intros; apply Hk; simpl; auto.
        * intros z. now rewrite F2.
        * exists hh'. split; auto. etransitivity; [exact E|]. do 2 f_equal. change (lsum (k :: share) g) with (oadd (g k) (lsum share g)).
          symmetry. apply (Radd_assoc R). }
  assert (HT : forall ths s0 (hh : heap (car O)), (forall k, In k (concat ths) -> 0 <= k < zprod (map (cnt lab) U)) -> (forall z, hh z = h1 z) ->
    exists hh', forM ths (fun share s => p <- forM share (tile_scalar_step (mkEin [] Ai Bi) ab A B U st tmp) (o0, snd s) ;;
        Ok (oadd (fst s) (fst p), snd p)) (s0, hh)
      = Ok (oadd s0 (lsum (concat ths) g), hh') /\ forall z, hh' z = h1 z).
  { induction ths as [|share ths IH]; intros s0 hh Hk Hh.
    - simpl. exists hh. split; auto. unfold lsum. simpl. do 2 f_equal. symmetry. rewrite (Radd_comm R). apply (Radd_0_l R).
    - cbn [forM]. destruct (HS share o0 hh) as (hh' & E & F); auto.
      { intros k Hi. apply Hk. simpl. apply in_app_iff. auto. }
      cbn [fst snd]; rewrite E. cbn [bind fst snd]. destruct (IH (oadd s0 (oadd o0 (lsum share g))) hh') as (hh2 & E2 & F2); auto.
      { intros k Hi. apply Hk. simpl. apply in_app_iff. auto. }
      exists hh2. split; auto. rewrite E2. do 2 f_equal. cbn [concat]. rewrite (lsum_app O HR), (Radd_0_l R). symmetry. apply (Radd_assoc R). }
  destruct (HT threads o0 h1) as (hh & E & F); auto.
  { intros k Hk. apply (Permutation_in _ HP), zrange_in in Hk. auto. }
  match goal with |- exists h', bind ?X _ = _ /\ _ => change X with
    (forM threads (fun share s => p <- forM share (tile_scalar_step (mkEin [] Ai Bi) ab A B U st tmp) (o0, snd s) ;;
        Ok (oadd (fst s) (fst p), snd p)) (o0, h1)) end.
  rewrite E. cbn [bind fst snd]. unfold rd, wr. rewrite F, H1. cbn [bind]. eexists. split; [reflexivity|]. split.
  - unfold upd. rewrite Z.eqb_refl. f_equal. rewrite (Radd_0_l R), Ec1. f_equal.
    unfold g, te_of. fold U. unfold st. rewrite (order_sum HR lab U _ (fun te => contrib lab [] Ai Bi L ab a b te []) HP).
    apply (contrib_total HR lab [] Ai Bi L ab a b) with (c := []) (j := []); [|apply Hlabels|constructor].
    intros l Hl. eapply Forall_impl; [|apply Hlab; auto]. simpl. intros; lia.
  - intros z Hz. rewrite upd_other by auto. rewrite F. auto.
Qed.
Print Assumptions C65_scalar.

(** Scalar result by [dot] (A and B carry the same labels in the same order).
    Full claim: for every grid.  Missing (and false, [C65_scalar_dot_refuted]):
    grids that differ from themselves read backwards. *)
Theorem C65_scalar_dot_partial :
  forall (O : Ops) (HR : is_ring O) (lab : nat -> list Z) Ai L (cp ab c0 : car O) (A B : tt) (a b : list Z -> car O)
         (Ca tmp : Z) (threads : list (list Z)) (h : heap (car O)) env,
  contracted L [] Ai Ai -> NoDup Ai ->
  tt_ok A -> tt_ok B -> tt_sizes A = map lab Ai -> tt_sizes B = map lab Ai -> tt_holds h A a -> tt_holds h B b ->
  rev (grid A) = grid A ->
  h Ca = Some c0 -> Permutation (concat threads) (zrange (zprod (grid A))) ->
  exists h', tile_scalar (mkEin [] Ai Ai) cp Ca ab A B tmp threads h = Ok h' /\
    h' Ca = Some (oadd (omul cp c0) (omul ab (einstein L Ai Ai (total lab) a b env))) /\
    (forall z, z <> Ca -> h' z = h z).
Proof.
  intros O HR lab Ai L cp ab c0 A B a b Ca tmp threads h env HL ND OA OB SA SB HA HB Hpal HC HP.
  assert (HD : dot_product (mkEin [] Ai Ai) = true).
  { unfold dot_product, same_indices. simpl. destruct (list_eq_dec Nat.eq_dec Ai Ai); [|congruence].
    unfold A_hadamard, B_hadamard, C_hadamard. simpl. rewrite !(proj2 (hadamard_NoDup Ai) ND). reflexivity. }
  unfold tile_scalar. rewrite HD.
  rewrite (C31_dot_partial O HR A B a b) by (auto; congruence). cbn [bind].
  unfold rd, wr. rewrite HC. cbn [bind].
  assert (E1 : forall v, upd h Ca v Ca = Some v) by (intros; unfold upd; now rewrite Z.eqb_refl).
  rewrite !E1. cbn [bind]. eexists. split; [reflexivity|]. split.
  - unfold upd at 1. rewrite Z.eqb_refl. f_equal. f_equal; [apply (omul_comm HR)|]. f_equal.
    unfold einstein. assert (PL : Permutation L Ai).
    { destruct HL as (NL & HL). apply NoDup_Permutation; auto. intros l. rewrite HL. simpl. tauto. }
    rewrite (Sum_over_perm HR L Ai); auto.
    + rewrite (Sum_over_indices HR). rewrite SA. unfold dense_dims. rewrite map_map.
      apply lsum_ext. intros ix Hix. apply in_indices, inb_length in Hix. rewrite map_length in Hix.
      rewrite upds_map; auto.
    + intros e1 e2 He. f_equal; f_equal; apply map_ext; auto.
    + destruct HL; auto.
  - intros z Hz. rewrite !upd_other by auto. auto.
Qed.
Print Assumptions C65_scalar_dot_partial.

(** ** C65, element-wise product.  What the code computes: an element is
    updated where both operands have a tile (of non-zero size), and left alone
    elsewhere (not multiplied by the prefactor of C). *)
Lemma dims_big : forall sizes c, Forall (Forall (fun n => 0 <= n < 2 ^ 31)) sizes -> Forall (fun d => 0 <= d < 2 ^ 31) (tile_dims sizes c).
Proof.
  induction sizes as [|s ss IH]; intros [|k c] Hb; cbn [tile_dims]; constructor; inversion Hb as [|x y H1 H2]; subst; auto.
  unfold tile_extent. rewrite Forall_forall in H1. destruct (nth_in_or_default (Z.to_nat k) s 0) as [H|H]; [auto|rewrite H; lia].
Qed.

Section Elementwise.
  Context {O : Ops} (HR : is_ring O).
  Notation T := (car O).
  Add Ring ORing3 : (ir_rt O HR).
  Variable al : heap T -> Z -> option Z.
  Hypothesis Hal : al_ok al.
  Variables A B : tt.
  Variables a b : list Z -> T.
  Variables cp ab : T.
  Variable sizes : list (list Z).
  Hypothesis OA : tt_ok A.
  Hypothesis OB : tt_ok B.
  Hypothesis SA : tt_sizes A = sizes.
  Hypothesis SB : tt_sizes B = sizes.
  Hypothesis Hbig : Forall (Forall (fun n => 0 <= n < 2 ^ 31)) sizes.

  Definition both (c : list Z) : bool :=
    has_tile_c A c && has_tile_c B c && negb (has_zero_size A c) && negb (has_zero_size B c).

  Let HF : Forall (Forall (fun n => 0 <= n)) sizes.
  Proof. eapply Forall_impl; [|exact Hbig]. intros s Hs. eapply Forall_impl; [|exact Hs]. simpl. intros; lia. Qed.

  Definition ew_val (idx : list Z) (v : T) : T :=
    if both (coord sizes idx) then oadd (omul cp v) (omul ab (omul (a idx) (b idx))) else v.

  Lemma direct_step_ok : forall n t h c, inb (col_decode (grid A) n) (grid A) ->
    tt_ok t -> tt_sizes t = sizes -> tt_holds h t c ->
    tt_holds h A a -> tt_holds h B b -> tt_disj t A -> tt_disj t B ->
    ((exists h n, al h n = None) /\ direct_step al ab A B cp n (t, h) = Throw) \/
    exists t' h', direct_step al ab A B cp n (t, h) = Ok (t', h') /\ tt_ok t' /\ tt_sizes t' = sizes /\
      tt_holds h' t' (patch sizes c (fun idx => ew_val idx (c idx)) (col_decode (grid A) n)) /\
      (forall z, tt_cell t' z -> tt_cell t z \/ h z = None) /\
      (forall z, h z <> None -> h' z <> None) /\
      (forall z, h z <> None -> ~ tt_cell t z -> h' z = h z).
  Proof.
    intros n t h c Ik Ot St HC HA HB DA DB. set (k := col_decode (grid A) n) in *.
    assert (GS : grid A = map (fun s => Z.of_nat (length s)) sizes) by (unfold grid; now rewrite SA).
    assert (IA : inb k (map (fun s => Z.of_nat (length s)) (tt_sizes A))) by exact Ik.
    assert (IB : inb k (map (fun s => Z.of_nat (length s)) (tt_sizes B))) by (rewrite SB, <- GS; exact Ik).
    assert (IC : inb k (map (fun s => Z.of_nat (length s)) (tt_sizes t))) by (rewrite St, <- GS; exact Ik).
    unfold direct_step. fold k. fold (both k). destruct (both k) eqn:Hb.
    2:{ right. exists t, h. repeat (split; auto). eapply tt_holds_ext; [|exact HC]. rewrite St. intros idx k' j P.
        unfold patch, ew_val. destruct (list_eq_dec Z.eq_dec (coord sizes idx) k) as [->|]; auto. now rewrite Hb. }
    assert (Hb' := Hb). unfold both in Hb'. rewrite (has_tile_c_inb A k IA), (has_tile_c_inb B k IB) in Hb'.
    destruct (find_tile k (tt_tiles A)) as [dA|] eqn:FA; [|discriminate].
    destruct (find_tile k (tt_tiles B)) as [dB|] eqn:FB; [|discriminate]. clear Hb'.
    destruct (tile_spec O al h t c k Hal Ot HC IC) as [(E1 & E2 & E3)|(d & t1 & h1 & E1 & O1 & C1 & S1 & F1 & F2 & N1 & N2)].
    { left. split; [eauto|]. rewrite E3. reflexivity. }
    right. rewrite E1. cbn [bind fst snd].
    rewrite (const_tile_inb A _ dA), (const_tile_inb B _ dB) by auto. cbn [bind]. rewrite St in S1.
    assert (D1A : tt_disj t1 A).
    { intros z Hz Hc. destruct (N1 z Hz) as [H|H]; [exact (DA z H Hc)|]. apply (cell_alloc O h A a z OA HA Hc H). }
    assert (D1B : tt_disj t1 B).
    { intros z Hz Hc. destruct (N1 z Hz) as [H|H]; [exact (DB z H Hc)|]. apply (cell_alloc O h B b z OB HB Hc H). }
    assert (HA1 : tt_holds h1 A a) by (apply (holds_frame O h h1 A a OA HA); intros z Hz; apply N2; exact (cell_alloc O h A a z OA HA Hz)).
    assert (HB1 : tt_holds h1 B b) by (apply (holds_frame O h h1 B b OB HB); intros z Hz; apply N2; exact (cell_alloc O h B b z OB HB Hz)).
    destruct (tile_facts A _ dA OA FA) as (EA & DdA & _). rewrite SA in DdA.
    destruct (tile_facts B _ dB OB FB) as (EB & DdB & _). rewrite SB in DdB.
    destruct (tile_facts t1 _ d O1 F1) as (Ed & Dd & Dne & DN & _). rewrite S1 in Ed, Dd, Dne, DN.
    assert (HdA := holds_tile O h1 A a _ dA OA HA1 FA). rewrite SA in HdA.
    assert (HdB := holds_tile O h1 B b _ dB OB HB1 FB). rewrite SB in HdB.
    assert (Hd := holds_tile O h1 t1 c _ d O1 C1 F1). rewrite S1 in Hd.
    assert (CC : contiguous d) by (eapply ctor_contig; eauto).
    destruct (dp_ok dA dB d (at_tile a sizes k) (at_tile b sizes k) (at_tile c sizes k) cp ab h1) as (h2 & E4 & HP); auto; try congruence.
    { rewrite Dd. apply dims_big; auto. }
    { apply contiguous_rowmaj; auto. }
    { intros i j Hi Hj Hij. apply (D1A (addr d i)); [exists k, d; split; auto; exists i; auto|].
      exists k, dA. split; auto. exists j; auto. }
    { intros i j Hi Hj Hij. apply (D1B (addr d i)); [exists k, d; split; auto; exists i; auto|].
      exists k, dB. split; auto. exists j; auto. }
    rewrite E4. cbn [bind fst snd].
    destruct (plan_run_spec O (Ok (h2, dp_body ab dA dB cp d, indices (map to_int32 (ddims d))))
       (fun h' => holds h' d (dp_val cp ab (at_tile a sizes k) (at_tile b sizes k) (at_tile c sizes k)) /\ forall z, ~ cell d z -> h' z = h1 z))
      as (h3 & E5 & V & Fr).
    { eexists _, _, _. split; [reflexivity|]. exact HP. }
    rewrite E5. cbn [bind]. exists t1, h3. split; auto. split; auto. split; auto.
    assert (V' : holds h3 d (at_tile (fun idx => ew_val idx (c idx)) sizes k)).
    { intros j Hj. rewrite (V j Hj). f_equal. rewrite Dd in Hj. 
      destruct (tile_pos_exists sizes k j) as (idx & P); auto; [rewrite <- GS; auto|].
      unfold dp_val. rewrite !(at_tile_pos _ _ _ _ _ _ P). unfold ew_val. rewrite (coord_pos _ _ _ _ HF P), Hb.
      destruct (oeqb cp o0) eqn:E0; auto. apply (ir_eqb O HR) in E0. subst cp. ring. }
    split; [|split; [|split]]; auto.
    - rewrite <- S1. apply (update_patch O h1 h3 t1 c _ k d); auto. rewrite S1. auto.
    - intros z Hz. destruct (tile_cell_dec d _ z Ed Dne DN) as [(l & Hl & ->)|Hc]; [rewrite (V' l Hl); discriminate|].
      rewrite Fr by auto. rewrite N2; auto.
    - intros z Hz Hc. rewrite Fr; auto. intros Hd'. destruct (N1 z) as [H|H]; auto. exists k, d. auto.
  Qed.

  Lemma direct_loop : forall order t h c, Permutation order (zrange (zprod (grid A))) ->
    tt_ok t -> tt_sizes t = sizes -> tt_holds h t c ->
    tt_holds h A a -> tt_holds h B b -> tt_disj t A -> tt_disj t B ->
    ((exists h n, al h n = None) /\ tt_direct_product al ab A B cp order (t, h) = Throw) \/
    exists t' h', tt_direct_product al ab A B cp order (t, h) = Ok (t', h') /\ tt_ok t' /\ tt_sizes t' = sizes /\
      tt_holds h' t' (fun idx => ew_val idx (c idx)) /\
      (forall z, h z <> None -> ~ tt_cell t z -> h' z = h z).
  Proof.
    intros order t h c HP Ot St HC HA HB DA DB.
    assert (GN : Forall (fun d => 0 <= d) (grid A)).
    { unfold grid. apply Forall_forall. intros d Hd. apply in_map_iff in Hd as (s & <- & _). lia. }
    assert (GS : grid A = map (fun s => Z.of_nat (length s)) sizes) by (unfold grid; now rewrite SA).
    assert (CD : forall i, In i order -> inb (col_decode (grid A) i) (grid A) /\ col_code (grid A) (col_decode (grid A) i) = i).
    { intros i Hi. apply (Permutation_in _ HP) in Hi. apply zrange_in in Hi. now apply col_code_decode. }
    destruct (patch_loop (col_decode (grid A)) (direct_step al ab A B cp) sizes ew_val [(A, a); (B, b)] (exists h n, al h n = None) order)
      with (t := t) (h := h) (c := c) as [X|(t' & h' & E & O1 & S1 & H1 & N1 & N2 & N3)]; auto.
    - apply (NoDup_map_inv (col_code (grid A))). rewrite map_map.
      rewrite (map_ext_in _ (fun i => i)); [rewrite map_id; apply (Permutation_NoDup (Permutation_sym HP)), zrange_NoDup|].
      intros i Hi. apply CD. auto.
    - intros i t0 h0 c' Hi O1 S1 H1 HPr.
      inversion HPr as [|p l (PA1 & PA2 & PA3) HP']; subst p l. inversion HP' as [|p l (PB1 & PB2 & PB3) _]; subst p l.
      cbn [fst snd] in *. apply direct_step_ok; auto. apply CD; auto.
    - right. exists t', h'. split; auto. split; auto. split; auto. split; auto.
      eapply tt_holds_ext; [|exact H1]. rewrite S1. intros idx k j P. cbv beta.
      destruct (in_dec _ _ _) as [_|Nin]; auto. exfalso. apply Nin.
      rewrite (coord_pos _ _ _ _ HF P). destruct (tile_pos_inb _ _ _ _ HF P) as (_ & Ik & _). rewrite <- GS in Ik.
      apply in_map_iff. exists (col_code (grid A) k). split; [now apply col_decode_code|].
      apply (Permutation_in _ (Permutation_sym HP)). apply zrange_in. now apply col_code_range.
  Qed.
End Elementwise.

Lemma both_pos : forall A B sizes idx k j, tt_ok A -> tt_sizes A = sizes -> tt_sizes B = sizes -> tile_pos sizes idx k j ->
  both A B k = has_tile A k && has_tile B k.
Proof.
  intros A B sizes idx k j OA SA SB P. destruct (ok_sizes A OA) as (_ & HF). rewrite SA in HF.
  destruct (tile_pos_inb _ _ _ _ HF P) as (_ & Ik & Ij). unfold both.
  assert (Z0 : existsb (fun n => n =? 0) (tile_dims sizes k) = false).
  { destruct (existsb (fun n => n =? 0) (tile_dims sizes k)) eqn:E; auto. apply existsb_exists in E as (x & Hx & Ex). apply Z.eqb_eq in Ex. subst x.
    exfalso. clear - Hx Ij. remember (tile_dims sizes k) as D. clear HeqD. induction Ij; [destruct Hx|]. destruct Hx as [->|Hx]; auto. lia. }
  assert (Z1 : has_zero_size A k = false /\ has_zero_size B k = false).
  { unfold has_zero_size. rewrite SA, SB. auto. }
  destruct Z1 as (-> & ->). rewrite !has_tile_c_inb, !has_tile_inb by (rewrite ?SA, ?SB; auto). cbn [negb].
  rewrite !andb_true_r. reflexivity.
Qed.

Theorem C65_elementwise_exact :
  forall (O : Ops) (HR : is_ring O) (al : heap (car O) -> Z -> option Z) Ci (cp ab : car O)
         (A B C : tt) (a b c : list Z -> car O) (order : list Z) (h : heap (car O)),
  al_ok al -> Forall (Forall (fun n => n < 2 ^ 31)) (tt_sizes C) -> NoDup Ci -> Ci <> [] ->
  tt_ok A -> tt_ok B -> tt_ok C -> tt_sizes A = tt_sizes C -> tt_sizes B = tt_sizes C ->
  tt_holds h A a -> tt_holds h B b -> tt_holds h C c -> tt_disj C A -> tt_disj C B ->
  Permutation order (zrange (zprod (grid A))) ->
  ((exists h1 n, al h1 n = None) /\ tile_einsum al (mkEin Ci Ci Ci) cp ab A B order (C, h) = Throw) \/
  exists C' h', tile_einsum al (mkEin Ci Ci Ci) cp ab A B order (C, h) = Ok (C', h') /\
    (forall idx k j, tile_pos (tt_sizes C) idx k j ->
       tt_read C' idx h' = Ok (if has_tile A k && has_tile B k
                               then oadd (omul cp (c idx)) (omul ab (omul (a idx) (b idx))) else c idx)) /\
    tt_ok C' /\ tt_sizes C' = tt_sizes C /\
    (forall z, h z <> None -> ~ tt_cell C z -> h' z = h z).
Proof.
  intros O HR al Ci cp ab A B C a b c order h Hal Hbig ND Hne OA OB OC SA SB HA HB HC DA DB HP.
  assert (EW : element_wise_multiplication (mkEin Ci Ci Ci) = true).
  { unfold element_wise_multiplication, same_indices. simpl. destruct (list_eq_dec Nat.eq_dec Ci Ci); [|congruence].
    unfold A_hadamard, B_hadamard, C_hadamard. simpl. rewrite !(proj2 (hadamard_NoDup Ci) ND). destruct Ci; [congruence|reflexivity]. }
  unfold tile_einsum. rewrite EW.
  assert (HF := proj2 (ok_sizes C OC)).
  assert (Hbig' : Forall (Forall (fun n => 0 <= n < 2 ^ 31)) (tt_sizes C)).
  { rewrite Forall_forall in *. intros s Hs. specialize (Hbig s Hs). specialize (HF s Hs). rewrite Forall_forall in *. auto. }
  destruct (direct_loop HR al Hal A B a b cp ab (tt_sizes C) OA OB SA SB Hbig' order C h c HP)
    as [X|(C' & h' & E & O1 & S1 & H1 & N3)]; auto.
  right. exists C', h'. split; auto. split; [|split; auto].
  intros idx k j P. destruct (tile_pos_inb _ _ _ _ HF P) as (Ix & _).
  rewrite (read_spec O h' C' _ idx idx O1 H1) by (rewrite (ok_dims C' O1), S1; now apply spell_self).
  unfold ew_val. rewrite (coord_pos _ _ _ _ HF P), (both_pos A B _ _ _ _ OA SA SB P). reflexivity.
Qed.
Print Assumptions C65_elementwise_exact.

(** Full claim: [tile_result] for every C.  Missing (and false,
    [C65_elementwise_refuted]): a tile missing in A or B, C not zero there, and
    a prefactor of C other than one. *)
Theorem C65_elementwise_partial :
  forall (O : Ops) (HR : is_ring O) (al : heap (car O) -> Z -> option Z) (lab : nat -> list Z) Ci (cp ab : car O)
         (A B C : tt) (a b c : list Z -> car O) (order : list Z) (h : heap (car O)),
  al_ok al -> (forall l, In l Ci -> Forall (fun n => n < 2 ^ 31) (lab l)) -> NoDup Ci -> Ci <> [] ->
  tt_ok A -> tt_ok B -> tt_ok C -> tt_sizes A = map lab Ci -> tt_sizes B = map lab Ci -> tt_sizes C = map lab Ci ->
  tt_holds h A a -> tt_holds h B b -> tt_holds h C c -> tt_disj C A -> tt_disj C B ->
  (cp = o1 \/ forall k, has_tile C k = true -> has_tile A k = true /\ has_tile B k = true) ->
  Permutation order (zrange (zprod (grid A))) ->
  ((exists h1 n, al h1 n = None) /\ tile_einsum al (mkEin Ci Ci Ci) cp ab A B order (C, h) = Throw) \/
  exists C' h', tile_einsum al (mkEin Ci Ci Ci) cp ab A B order (C, h) = Ok (C', h') /\
    (forall idx, inb idx (map (total lab) Ci) ->
       exists v, tt_read C' idx h' = Ok v /\ tile_result lab Ci Ci Ci [] cp ab a b c idx v) /\
    tt_ok C' /\ tt_sizes C' = tt_sizes C /\
    (forall z, h z <> None -> ~ tt_cell C z -> h' z = h z).
Proof.
  intros O HR al lab Ci cp ab A B C a b c order h Hal Hbig ND Hne OA OB OC SA SB SC HA HB HC DA DB Hall HP.
  assert (R := ir_rt O HR).
  destruct (C65_elementwise_exact O HR al Ci cp ab A B C a b c order h) as [X|(C' & h' & E & H1 & O1 & S1 & N)]; auto; try congruence.
  { rewrite SC. apply Forall_forall. intros s Hs. apply in_map_iff in Hs as (l & <- & Hl). auto. }
  right. exists C', h'. split; auto. split; [|split; auto].
  intros idx Hi.
  assert (HF := proj2 (ok_sizes C OC)).
  assert (Hi' : inb idx (dense_dims (tt_sizes C))) by (rewrite SC; unfold dense_dims; rewrite map_map; exact Hi).
  destruct (tile_pos_cover _ _ HF Hi') as (k & j & P).
  destruct (tile_pos_inb _ _ _ _ HF P) as (_ & Ik & _).
  eexists. split; [apply (H1 idx k j P)|].
  assert (V : (if has_tile A k && has_tile B k then oadd (omul cp (c idx)) (omul ab (omul (a idx) (b idx))) else c idx) =
              oadd (omul cp (c idx)) (omul ab (omul (a idx) (b idx)))).
  { destruct (has_tile A k && has_tile B k) eqn:Hb; auto.
    assert (Z0 : omul (a idx) (b idx) = o0).
    { rewrite !has_tile_inb in Hb by (rewrite ?SA, ?SB, <- ?SC; auto).
      assert (PA := P). rewrite SC, <- SA in PA. assert (PB := P). rewrite SC, <- SB in PB.
      assert (WA := HA idx k j PA). assert (WB := HB idx k j PB).
      destruct (find_tile k (tt_tiles A)); [|rewrite WA; apply (omul_0_l HR)].
      destruct (find_tile k (tt_tiles B)); [discriminate|]. rewrite WB. apply (omul_0_r HR). }
    rewrite Z0, (omul_0_r HR), (Radd_comm R), (Radd_0_l R).
    destruct Hall as [->|Hall]; [now rewrite (Rmul_1_l R)|].
    assert (WC := HC idx k j P). destruct (find_tile k (tt_tiles C)) eqn:FC.
    - exfalso. destruct (Hall k) as (X & Y); [rewrite has_tile_inb, FC; auto|]. rewrite X, Y in Hb. discriminate.
    - rewrite WC. now rewrite (omul_0_r HR). }
  rewrite V. split.
  - intros env ->. unfold einstein. simpl. reflexivity.
  - intros Hno. exfalso. assert (Hl := inb_length _ _ Hi). rewrite map_length in Hl.
    apply (Hno (upds Ci idx m1)). symmetry. apply upds_map; auto.
Qed.
Print Assumptions C65_elementwise_partial.

(** C(i) = 2*C(i) + A(i)*B(i), tiles [1;1]; A has only the first tile: C(1) stays 5 instead of 10. *)
Theorem C65_elementwise_refuted :
  let al := first_fit 100 in
  exists A B C h1 h2 h p1 p2 p3 C' h',
    trun (O:=ZOps) al [TWrite [0] 3] (tt_ctor [[1; 1]], fun _ => None) = Ok (p1, (A, h1)) /\
    trun (O:=ZOps) al [TWrite [0] 7; TWrite [1] 1] (tt_ctor [[1; 1]], h1) = Ok (p2, (B, h2)) /\
    trun (O:=ZOps) al [TWrite [0] 4; TWrite [1] 5] (tt_ctor [[1; 1]], h2) = Ok (p3, (C, h)) /\
    tt_read (O:=ZOps) A [1] h = Ok 0 /\
    tile_einsum (O:=ZOps) al (mkEin [0] [0] [0])%nat 2 1 A B [0; 1] (C, h) = Ok (C', h') /\
    tt_read (O:=ZOps) C' [0] h' = Ok (2 * 4 + 3 * 7) /\
    tt_read (O:=ZOps) C' [1] h' = Ok 5.
Proof.
  do 11 eexists. split; [vm_compute; reflexivity|]. split; [vm_compute; reflexivity|]. split; [vm_compute; reflexivity|].
  split; [vm_compute; reflexivity|]. split; [vm_compute; reflexivity|]. split; vm_compute; reflexivity.
Qed.
Print Assumptions C65_elementwise_refuted.

(** s = sum of A(i,j)*B(i,j), grid 1 x 2: 9 instead of 34. *)
Theorem C65_scalar_dot_refuted :
  let al := first_fit 50 in
  exists A B h1 h2 p1 p2 h',
    trun (O:=ZOps) al [TWrite [0; 0] 3; TWrite [0; 1] 5] (tt_ctor [[1]; [1; 1]], fun _ => None) = Ok (p1, (A, h1)) /\
    trun (O:=ZOps) al [TWrite [0; 0] 3; TWrite [0; 1] 5] (tt_ctor [[1]; [1; 1]], h1) = Ok (p2, (B, h2)) /\
    tile_scalar (O:=ZOps) (mkEin [] [0; 1] [0; 1])%nat 0 80 1 A B 90 [[0]; [1]] (upd h2 80 0) = Ok h' /\
    h' 80 = Some 9 /\ 3 * 3 + 5 * 5 = 34.
Proof.
  do 7 eexists. split; [vm_compute; reflexivity|]. split; [vm_compute; reflexivity|]. split; [vm_compute; reflexivity|].
  split; vm_compute; reflexivity.
Qed.
Print Assumptions C65_scalar_dot_refuted.

(** ** Concrete cases: C(i,j) = 4*C + 10*A(i,k)*B(k,j) (gemm), and
    D(i,k,j) = A(i,k)*B(k,j) (generic); tiles missing in A, B and C; tiles of
    size zero; iterations out of order. *)
Example C65_case :
  let al := first_fit 200 in
  exists A B C D h p1 p2 p3 p4 h1 h2 h3 C' h' D' h'',
    trun (O:=ZOps) al [TWrite [0; 0] 2; TWrite [2; 1] 3] (tt_ctor [[2; 1]; [2; 0]], fun _ => None) = Ok (p1, (A, h1)) /\
    trun (O:=ZOps) al [TWrite [0; 1] 5; TWrite [1; 2] 7] (tt_ctor [[2; 0]; [1; 2]], h1) = Ok (p2, (B, h2)) /\
    trun (O:=ZOps) al [TWrite [1; 0] 11] (tt_ctor [[2; 1]; [1; 2]], h2) = Ok (p3, (C, h3)) /\
    trun (O:=ZOps) al [TWrite [0; 0; 0] 1] (tt_ctor [[2; 1]; [2; 0]; [1; 2]], h3) = Ok (p4, (D, h)) /\
    tile_path_ok [1%nat] [0; 2]%nat [0; 1]%nat [1; 2]%nat /\ labels [1%nat] [0; 2]%nat [0; 1]%nat [1; 2]%nat /\
    tile_einsum (O:=ZOps) al (mkEin [0; 2] [0; 1] [1; 2])%nat 4 10 A B [3; 0; 7; 5; 2; 1; 6; 4] (C, h) = Ok (C', h') /\
    map (fun i => tt_read (O:=ZOps) C' i h') (indices [3; 3]) =
      map (@Ok Z) [0; 100; 0;  44; 0; 0;  0; 0; 210] /\
    has_tile C [1; 1] = false /\ has_tile C' [1; 1] = true /\ has_tile C' [1; 0] = false /\
    tile_path_ok [] [0; 1; 2]%nat [0; 1]%nat [1; 2]%nat /\ labels [] [0; 1; 2]%nat [0; 1]%nat [1; 2]%nat /\
    tile_einsum (O:=ZOps) al (mkEin [0; 1; 2] [0; 1] [1; 2])%nat 0 1 A B [3; 0; 7; 5; 2; 1; 6; 4] (D, h) = Ok (D', h'') /\
    map (fun i => tt_read (O:=ZOps) D' i h'') [[0; 0; 0]; [0; 0; 1]; [2; 1; 2]] = map (@Ok Z) [0; 10; 21].
Proof.
  do 16 eexists.
  split; [vm_compute; reflexivity|]. split; [vm_compute; reflexivity|]. split; [vm_compute; reflexivity|]. split; [vm_compute; reflexivity|].
  split. { vm_compute. intuition (subst; auto; try lia; try tauto). }
  split. { split; [|split]; simpl; [intuition (subst; auto)|repeat constructor; simpl; intuition|]. intros l. split; intros; intuition (subst; auto; try lia). }
  split; [vm_compute; reflexivity|]. split; [vm_compute; reflexivity|]. split; [vm_compute; reflexivity|]. split; [vm_compute; reflexivity|].
  split; [vm_compute; reflexivity|].
  split. { vm_compute. intuition (subst; auto; try lia; try tauto). }
  split. { split; [|split]; simpl; [intuition (subst; auto)|repeat constructor; simpl; intuition|]. intros l. split; intros; intuition (subst; auto; try lia). }
  split; [vm_compute; reflexivity|]. vm_compute; reflexivity.
Qed.

(** s = 3*s + 2 * sum over i,j of A(i,j)*B(j,i), two threads. *)
Example C65_scalar_case :
  let al := first_fit 50 in
  exists A B h1 h2 p1 p2 h',
    trun (O:=ZOps) al [TWrite [0; 0] 3; TWrite [0; 2] 5; TWrite [1; 1] 6] (tt_ctor [[1; 1]; [1; 2]], fun _ => None) = Ok (p1, (A, h1)) /\
    trun (O:=ZOps) al [TWrite [0; 0] 7; TWrite [2; 0] 2] (tt_ctor [[1; 2]; [1; 1]], h1) = Ok (p2, (B, h2)) /\
    dot_product (mkEin [] [0; 1] [1; 0])%nat = false /\
    tile_scalar (O:=ZOps) (mkEin [] [0; 1] [1; 0])%nat 3 80 2 A B 90 [[2; 0]; [1; 3]] (upd h2 80 4) = Ok h' /\
    h' 80 = Some (3 * 4 + 2 * (3 * 7 + 5 * 2)).
Proof.
  do 7 eexists. split; [vm_compute; reflexivity|]. split; [vm_compute; reflexivity|]. split; [vm_compute; reflexivity|].
  split; vm_compute; reflexivity.
Qed.
