(** * L_TileEinsum: lemmas about einsum on tiled tensors. *)
From Coq Require Import List ZArith Lia Bool Permutation Ring.
From Verif Require Import Base Heap Conc M_Addr S_Addr L_Addr M_Elt L_Elt M_Einsum S_Einsum L_Einsum T_Einsum
  S_Blas M_Blas L_Blas M_Dispatch S_Dispatch L_Dispatch L_Paths T_Dispatch M_Block S_Block L_Block M_Tiled S_Tiled L_Tiled L_Tiled2
  M_BlockEinsum S_BlockEinsum L_BlockEinsum T_BlockEinsum M_TileEinsum S_TileEinsum.
Import ListNotations.
Open Scope Z_scope.

(** ** Labels and tiles *)
Section Lab.
  Variable lab : nat -> list Z.
  Definition glob (te e : nat -> Z) (l : nat) : Z := off (lab l) (Z.to_nat (te l)) + e l.
  Definition text (te : nat -> Z) (l : nat) : Z := nth (Z.to_nat (te l)) (lab l) 0.
  Definition cnt (l : nat) : Z := Z.of_nat (length (lab l)).

  Lemma dims_map : forall I te, tile_dims (map lab I) (map te I) = map (text te) I.
  Proof. induction I as [|l I IH]; intros te; simpl; [reflexivity|]. f_equal. apply IH. Qed.

  Lemma grid_map : forall I, map (fun s => Z.of_nat (length s)) (map lab I) = map cnt I.
  Proof. intros. rewrite map_map. reflexivity. Qed.

  Lemma at_map : forall T (f : list Z -> T) I te e, at_tile f (map lab I) (map te I) (map e I) = f (map (glob te e) I).
  Proof.
    intros T f I te e. unfold at_tile. f_equal. induction I as [|l I IH]; simpl; [reflexivity|]. f_equal. apply IH.
  Qed.

  Lemma pos_map : forall I te e, (forall l, In l I -> 0 <= te l < cnt l) -> (forall l, In l I -> 0 <= e l < text te l) ->
    tile_pos (map lab I) (map (glob te e) I) (map te I) (map e I).
  Proof.
    induction I as [|l I IH]; intros te e H1 H2; simpl; [constructor|].
    constructor; [apply H1; simpl; auto|apply H2; simpl; auto|reflexivity|].
    apply IH; intros; [apply H1|apply H2]; simpl; auto.
  Qed.

  Lemma pos_map_inv : forall I te v j, tile_pos (map lab I) (map v I) (map te I) j ->
    j = map (fun l => v l - off (lab l) (Z.to_nat (te l))) I /\
    (forall l, In l I -> 0 <= te l < cnt l) /\
    (forall l, In l I -> 0 <= v l - off (lab l) (Z.to_nat (te l)) < text te l).
  Proof.
    induction I as [|l I IH]; intros te v j H; simpl in H.
    - inversion H; subst. simpl. split; auto. split; intros ? [].
    - inversion H as [|? ? ? ? ? ? j0 js H1 H2 H3 H4]; subst. apply IH in H4 as (-> & H5 & H6).
      split; [simpl; f_equal; lia|]. split; intros k [<-|Hk]; auto. unfold text. lia.
  Qed.
End Lab.

Section Sums.
  Context {O : Ops} (HR : is_ring O).
  Notation T := (car O).
  Variable lab : nat -> list Z.

  Lemma Sum_over_swap : forall X (xs : list X) U ext env (F : X -> (nat -> Z) -> T),
    Sum_over U ext env (fun e => lsum xs (fun p => F p e)) = lsum xs (fun p => Sum_over U ext env (F p)).
  Proof.
    intros X xs U ext env F. rewrite (Sum_over_indices HR). rewrite (lsum_swap O HR). apply lsum_ext. intros p _.
    now rewrite (Sum_over_indices HR).
  Qed.

  Lemma Sum_over_app : forall U V ext env (F : (nat -> Z) -> T),
    Sum_over (U ++ V) ext env F = Sum_over U ext env (fun e => Sum_over V ext e F).
  Proof.
    induction U as [|l U IH]; intros V ext env F; simpl; [reflexivity|]. apply zsum_ext. intros. apply IH.
  Qed.

  Lemma Sum_over_proper : forall U ext ext' env env' (f : (nat -> Z) -> T), env_proper f ->
    (forall l, In l U -> ext l = ext' l) -> (forall l, env l = env' l) ->
    Sum_over U ext env f = Sum_over U ext' env' f.
  Proof.
    induction U as [|l U IH]; intros ext ext' env env' f Hf He Hv; simpl; [apply Hf; auto|].
    rewrite (He l) by (simpl; auto). apply zsum_ext. intros i _. apply IH; auto.
    - intros; apply He; simpl; auto.
    - intros k. unfold upde. destruct (Nat.eqb k l); auto.
  Qed.

  (** A sum over all elements is the sum over the tiles of the sums inside the tiles. *)
  Lemma Sum_over_tiles : forall U env te0 e0 (f : (nat -> Z) -> T), env_proper f -> NoDup U ->
    (forall l, In l U -> Forall (fun n => 0 <= n) (lab l)) ->
    (forall l, ~ In l U -> env l = glob lab te0 e0 l) ->
    Sum_over U (total lab) env f =
    Sum_over U (cnt lab) te0 (fun te => Sum_over U (text lab te) e0 (fun e => f (glob lab te e))).
  Proof.
    induction U as [|l U IH]; intros env te0 e0 f Hf ND Hlab Henv.
    - simpl. apply Hf. intros l. apply Henv. auto.
    - inversion ND as [|? ? Hl ND']; subst.
      cbn [Sum_over]. unfold total at 1. rewrite (zsum_split O HR) by (apply Hlab; simpl; auto).
      unfold zsum at 2, cnt at 1. unfold zrange. rewrite Nat2Z.id, lsum_map. apply lsum_ext. intros k Hk.
      transitivity (Sum_over U (cnt lab) (upde te0 l (Z.of_nat k)) (fun te =>
         zsum (nth k (lab l) 0) (fun p => Sum_over U (text lab te) (upde e0 l p) (fun e => f (glob lab te e))))).
      + unfold zsum. rewrite Sum_over_swap. apply lsum_ext. intros p Hp. apply IH; auto; [intros; apply Hlab; simpl; auto|].
        intros x Hx. unfold glob, upde. destruct (Nat.eqb_spec x l) as [->|Hn]; [now rewrite Nat2Z.id|].
        apply Henv. intros [E|E]; [congruence|auto].
      + apply Sum_over_cong. intros e e' H1 H2 H3. unfold text at 2.
        rewrite (H3 l Hl). unfold upde at 2. rewrite Nat.eqb_refl, Nat2Z.id. apply zsum_ext. intros p _.
        assert (E : forall x, e x = e' x).
        { intros x. destruct (in_dec Nat.eq_dec x U) as [Hx|Hx]; [apply H1; auto|]. rewrite H2, H3; auto. }
        transitivity (Sum_over U (text lab e') (upde e0 l p) (fun u => f (glob lab e u))).
        * apply Sum_over_proper; auto.
          -- intros u v Huv. apply Hf. intros x. unfold glob. now rewrite Huv.
          -- intros x _. unfold text. now rewrite E.
        * apply Sum_over_ext; auto.
          -- intros u v Huv. apply Hf. intros x. unfold glob. now rewrite Huv.
          -- intros u. apply Hf. intros x. unfold glob. now rewrite E.
  Qed.
End Sums.

Definition lookv (U : list nat) (ix : list Z) (l : nat) : Z :=
  match find_position l U with Some p => nth p ix 0 | None => -1 end.
Definition m1 : nat -> Z := fun _ => -1.

Lemma lookv_map : forall I env l, In l I -> lookv I (map env I) l = env l.
Proof.
  intros I env l Hl. unfold lookv. destruct (find_position_In l I Hl) as (p & Ep). rewrite Ep.
  apply find_position_Some in Ep. apply nth_map_error. exact Ep.
Qed.

Lemma lookv_form : forall I idx, (exists env, idx = map env I) <-> idx = map (lookv I idx) I.
Proof.
  intros I idx. split; [|eauto]. intros (env & ->). apply map_ext_in. intros l Hl. symmetry. apply lookv_map. auto.
Qed.

Lemma lookv_upds : forall U ix l, NoDup U -> length ix = length U -> lookv U ix l = upds U ix m1 l.
Proof.
  intros U ix l ND HL. destruct (in_dec Nat.eq_dec l U) as [Hl|Hl].
  - rewrite <- (upds_map U ix m1 ND HL) at 1. apply lookv_map. auto.
  - rewrite upds_other by auto. unfold lookv. apply find_position_None in Hl. now rewrite Hl.
Qed.

Lemma tile_coords_upds : forall U I ix, NoDup U -> length ix = length U -> tile_coords U I ix = map (upds U ix m1) I.
Proof. intros U I ix ND HL. apply map_ext. intros l. apply lookv_upds; auto. Qed.

Definition tcoord (lab : nat -> list Z) (env : nat -> Z) (l : nat) : Z := hd 0 (coord [lab l] [env l]).

Lemma pos_coords : forall lab I v c j, (forall l, In l I -> Forall (fun n => 0 <= n) (lab l)) ->
  tile_pos (map lab I) (map v I) c j -> c = map (tcoord lab v) I.
Proof.
  induction I as [|l I IH]; intros v c j HF H; simpl in H.
  - inversion H. reflexivity.
  - inversion H as [|s ss x xs c0 cs j0 js H1 H2 H3 H4]; subst. simpl. f_equal.
    + unfold tcoord. rewrite (coord_pos [lab l] [v l] [c0] [j0]); auto.
      * repeat constructor. apply HF. simpl. auto.
      * constructor; auto. constructor.
    + apply IH with (j := js); auto. intros; apply HF; simpl; auto.
Qed.

Section Contrib.
  Context {O : Ops} (HR : is_ring O).
  Notation T := (car O).
  Add Ring ORing : (ir_rt O HR).
  Variable lab : nat -> list Z.
  Variables Ci Ai Bi L : list nat.
  Variable ab : T.
  Variables a b : list Z -> T.

  Definition summand (g : nat -> Z) : T := omul (a (map g Ai)) (b (map g Bi)).
  (** What the tiles with the coordinates [te] contribute to element [idx]. *)
  Definition contrib (te : nat -> Z) (idx : list Z) : T :=
    if list_eq_dec Z.eq_dec (coord (map lab Ci) idx) (map te Ci) then
      if list_eq_dec Z.eq_dec idx (map (lookv Ci idx) Ci) then
        omul ab (Sum_over L (text lab te) (fun l => lookv Ci idx l - off (lab l) (Z.to_nat (te l)))
                   (fun e => summand (glob lab te e)))
      else o0
    else o0.

  Lemma summand_proper : env_proper summand.
  Proof. intros e e' H. unfold summand. f_equal; f_equal; apply map_ext; auto. Qed.

  Lemma summand_local : forall g g', (forall l, In l Ai \/ In l Bi -> g l = g' l) -> summand g = summand g'.
  Proof. intros g g' H. unfold summand. f_equal; f_equal; apply map_ext_in; auto. Qed.

  Lemma contrib_proper : forall idx, env_proper (fun te => contrib te idx).
  Proof.
    intros idx t t' H. unfold contrib. rewrite (map_ext t t' H).
    destruct (list_eq_dec Z.eq_dec _ _); auto. destruct (list_eq_dec Z.eq_dec _ _); auto. f_equal.
    transitivity (Sum_over L (text lab t') (fun l => lookv Ci idx l - off (lab l) (Z.to_nat (t' l)))
                   (fun e => summand (glob lab t e))).
    - apply (Sum_over_proper).
      + intros u v Huv. apply summand_proper. intros x. unfold glob. now rewrite Huv.
      + intros l _. unfold text. now rewrite H.
      + intros l. now rewrite H.
    - apply Sum_over_ext; auto.
      + intros u v Huv. apply summand_proper. intros x. unfold glob. now rewrite Huv.
      + intros u. apply summand_proper. intros x. unfold glob. now rewrite H.
  Qed.

  Hypothesis Hlab : forall l, In l (Ci ++ Ai ++ Bi) -> Forall (fun n => 0 <= n) (lab l).
  Hypothesis HL : contracted L Ci Ai Bi.

  Lemma in_ci_or_l : forall l, In l Ai \/ In l Bi -> In l Ci \/ In l L.
  Proof.
    intros l H. destruct (in_dec Nat.eq_dec l Ci) as [Hc|Hc]; auto. right. apply HL. auto.
  Qed.

  Lemma U_perm : Permutation (unique (Ci ++ Ai ++ Bi)) (unique Ci ++ L).
  Proof.
    assert (D : forall l, In l (unique Ci) -> ~ In l L).
    { intros l H1 H2. apply (proj1 (in_unique _ _)) in H1. apply HL in H2. tauto. }
    apply NoDup_Permutation.
    - apply unique_NoDup.
    - assert (N1 := unique_NoDup Ci). destruct HL as (N2 & _). revert N1 D. generalize (unique Ci).
      induction l as [|x l IH]; intros N1 D; simpl; auto. inversion N1; subst. constructor.
      + rewrite in_app_iff. intros [H|H]; [auto|]. apply (D x); simpl; auto.
      + apply IH; auto. intros y Hy. apply D. simpl. auto.
    - intros l. rewrite in_unique, !in_app_iff, in_unique. split.
      + intros [H|H]; auto. apply in_ci_or_l. auto.
      + intros [H|H]; auto. destruct (proj1 (proj2 HL l) H). tauto.
  Qed.

  Lemma contrib_total : forall env c j, tile_pos (map lab Ci) (map env Ci) c j ->
    Sum_over (unique (Ci ++ Ai ++ Bi)) (cnt lab) m1 (fun te => contrib te (map env Ci)) =
    omul ab (einstein L Ai Bi (total lab) a b env).
  Proof.
    intros env c j P.
    assert (HFc : Forall (Forall (fun n => 0 <= n)) (map lab Ci)).
    { apply Forall_forall. intros s Hs. apply in_map_iff in Hs as (l & <- & Hl). apply Hlab, in_app_iff. auto. }
    assert (Ec := coord_pos _ _ _ _ HFc P).
    assert (E2 : c = map (tcoord lab env) Ci).
    { apply (pos_coords lab Ci env c j); auto. intros l Hl. apply Hlab, in_app_iff. auto. }
    assert (Hin : forall l, In l Ci -> 0 <= tcoord lab env l < cnt lab l).
    { rewrite E2 in P. apply pos_map_inv in P. tauto. }
    rewrite (Sum_over_perm HR _ _ _ _ (contrib_proper _) U_perm (unique_NoDup _)).
    rewrite Sum_over_app, (Sum_over_indices HR).
    rewrite (lsum_single O HR _ _ (map (tcoord lab env) (unique Ci))).
    - set (te0 := upds (unique Ci) (map (tcoord lab env) (unique Ci)) m1).
      assert (T0 : forall l, In l Ci -> te0 l = tcoord lab env l).
      { intros l Hl. unfold te0. rewrite <- lookv_upds; [|apply unique_NoDup|now rewrite map_length].
        apply lookv_map. apply in_unique. auto. }
      set (e0 := fun l => env l - off (lab l) (Z.to_nat (te0 l))).
      transitivity (Sum_over L (cnt lab) te0 (fun te => omul ab (Sum_over L (text lab te) e0 (fun e => summand (glob lab te e))))).
      + apply Sum_over_cong. intros te te' H1 H2 H3.
        assert (Et : forall x, te x = te' x).
        { intros x. destruct (in_dec Nat.eq_dec x L) as [Hx|Hx]; [apply H1; auto|]. rewrite H2, H3; auto. }
        assert (TC : forall l, In l Ci -> te l = tcoord lab env l).
        { intros l Hl. rewrite H2; [apply T0; auto|]. intros Hx. apply HL in Hx. tauto. }
        transitivity (contrib te' (map env Ci)); [apply contrib_proper; auto|].
        unfold contrib. rewrite Ec, E2.
        destruct (list_eq_dec Z.eq_dec _ _) as [_|N].
        2:{ exfalso. apply N. apply map_ext_in. intros l Hl. rewrite <- Et. symmetry. auto. }
        destruct (list_eq_dec Z.eq_dec _ _) as [_|N]; [|exfalso; apply N, lookv_form; eauto].
        f_equal. apply Sum_over_cong. intros e e' G1 G2 G3. apply summand_local. intros l Hl. unfold glob. f_equal.
        destruct (in_dec Nat.eq_dec l L) as [Hx|Hx]; [apply G1; auto|].
        destruct (in_ci_or_l l Hl) as [Hc|Hc]; [|contradiction].
        rewrite G2, G3 by auto. unfold e0. rewrite lookv_map by auto. f_equal. f_equal. f_equal. rewrite <- Et, TC, T0; auto.
      + rewrite (Sum_over_mul_l HR). f_equal. unfold einstein. symmetry.
        apply (Sum_over_tiles HR lab L env te0 e0 summand).
        * apply summand_proper.
        * apply HL.
        * intros l Hl. apply Hlab. apply HL in Hl. rewrite !in_app_iff. tauto.
        * intros l _. unfold glob, e0. lia.
    - apply indices_NoDup.
    - apply in_indices. apply inb_map_env. intros l Hl. apply Hin. apply (proj1 (in_unique _ _)) in Hl. auto.
    - intros ix Hix Hne. apply in_indices in Hix.
      assert (Hlen : length ix = length (unique Ci)) by (rewrite (inb_length _ _ Hix), map_length; auto).
      apply Sum_over_0; auto. intros te Hte. unfold contrib. rewrite Ec, E2.
      destruct (list_eq_dec Z.eq_dec _ _) as [E|N]; auto. exfalso. apply Hne.
      rewrite <- (upds_map (unique Ci) ix m1 (unique_NoDup _) Hlen). apply map_ext_in. intros l Hl.
      rewrite <- Hte; [|intros Hx; apply (proj1 (in_unique _ _)) in Hl; apply HL in Hx; tauto].
      apply (proj1 (in_unique _ _)) in Hl. symmetry.
      apply (ext_in_map E). auto.
  Qed.

  Lemma contrib_none : forall te idx, (forall env, idx <> map env Ci) -> contrib te idx = o0.
  Proof.
    intros te idx H. unfold contrib. destruct (list_eq_dec Z.eq_dec _ _); auto.
    destruct (list_eq_dec Z.eq_dec _ _) as [E|]; auto. exfalso. apply (H (lookv Ci idx)). auto.
  Qed.
End Contrib.

(** The dense call on three tiles. *)
Lemma dense_tile_ok : forall (O : Ops) (HR : is_ring O) (h : heap (car O)) Ci Ai Bi L A B C ext a b c ab,
  labels L Ci Ai Bi -> tile_path_ok L Ci Ai Bi -> (forall l, In l (Ci ++ Ai ++ Bi) -> 0 <= ext l < 2 ^ 31) ->
  ddims A = map ext Ai -> ddims B = map ext Bi -> ddims C = map ext Ci ->
  contiguous A -> contiguous B -> contiguous C ->
  holds h A a -> holds h B b -> holds h C c -> disj C A -> disj C B ->
  einsum_spec (einsum (mkEin Ci Ai Bi) false true true true false false o1 C ab A B h)
    (einsum_result ext Ci Ai Bi L o1 ab C a b c h).
Proof.
  intros O HR h Ci Ai Bi L A B C ext a b c ab (Hlab & HL) Hpath Hb DA DB DC KA KB KC HA HB HC SA SB.
  unfold tile_path_ok in Hpath.
  assert (IC : inj C).
  { apply contiguous_rowmaj in KC. intros i j Hi Hj Ha. unfold addr in Ha. rewrite KC in Ha.
    apply (rm_inj 0 (ddims C)); auto. unfold addr. simpl. lia. }
  destruct (dispatch (mkEin Ci Ai Bi) false true true true) eqn:ED.
  - contradiction.
  - contradiction.
  - destruct Hpath as (N1 & N2 & Hc).
    apply (C15_outer_partial O HR h Ci Ai Bi ext A B C a b c o1 ab L true true true false false); auto.
    intros l Hl. apply Hb, in_app_iff. auto.
  - apply (C14_gemv_partial O HR h Ci Ai Bi ext A B C a b c o1 ab L true true true false false); auto.
    + intros l Hl. apply in_app_iff. auto.
    + intros l Hl. apply Hb. auto.
  - destruct Hpath as (Hi & Hp).
    apply (C13_gemm_partial O HR h Ci Ai Bi ext A B C a b c o1 ab L true true true false false); auto.
    + intros l Hl. apply in_app_iff. auto.
    + intros l Hl. apply Hb. auto.
  - unfold einsum. rewrite ED. eexists _, _, _. split; [reflexivity|]. intros threads HP.
    apply (C11_einsum_generic_partial O HR h Ci Ai Bi ext A B C a b c o1 ab L threads); auto.
Qed.

Lemma ctor_contig : forall d dims, d = tensor_ctor (dbase d) dims -> contiguous d.
Proof. intros d dims E. rewrite E. apply contiguous_rowmaj. reflexivity. Qed.

Section Step.
  Context {O : Ops} (HR : is_ring O).
  Notation T := (car O).
  Add Ring ORing : (ir_rt O HR).
  Variable al : heap T -> Z -> option Z.
  Hypothesis Hal : al_ok al.
  Variable lab : nat -> list Z.
  Variables Ci Ai Bi L : list nat.
  Variable ab : T.
  Variables A B : tt.
  Variables a b : list Z -> T.
  Hypothesis Hlabels : labels L Ci Ai Bi.
  Hypothesis Hpath : tile_path_ok L Ci Ai Bi.
  Hypothesis Hlab : forall l, In l (Ci ++ Ai ++ Bi) -> Forall (fun n => 0 <= n < 2 ^ 31) (lab l).
  Hypothesis OA : tt_ok A.
  Hypothesis OB : tt_ok B.
  Hypothesis SA : tt_sizes A = map lab Ai.
  Hypothesis SB : tt_sizes B = map lab Bi.

  Notation con := (contrib lab Ci Ai Bi L ab a b).

  Lemma Hlab0 : forall l, In l (Ci ++ Ai ++ Bi) -> Forall (fun n => 0 <= n) (lab l).
  Proof. intros l Hl. eapply Forall_impl; [|apply Hlab; auto]. simpl. intros; lia. Qed.

  Lemma HF_of : forall I, incl I (Ci ++ Ai ++ Bi) -> Forall (Forall (fun n => 0 <= n)) (map lab I).
  Proof.
    intros I HI. apply Forall_forall. intros s Hs. apply in_map_iff in Hs as (l & <- & Hl). apply Hlab0. auto.
  Qed.

  Lemma text_range : forall te l, In l (Ci ++ Ai ++ Bi) -> 0 <= text lab te l < 2 ^ 31.
  Proof.
    intros te l Hl. unfold text. specialize (Hlab l Hl). rewrite Forall_forall in Hlab.
    destruct (nth_in_or_default (Z.to_nat (te l)) (lab l) 0) as [H| ->]; [auto|]. lia.
  Qed.

  Lemma incl_a : incl Ai (Ci ++ Ai ++ Bi). Proof. intros l Hl. rewrite !in_app_iff. auto. Qed.
  Lemma incl_b : incl Bi (Ci ++ Ai ++ Bi). Proof. intros l Hl. rewrite !in_app_iff. auto. Qed.
  Lemma incl_c : incl Ci (Ci ++ Ai ++ Bi). Proof. intros l Hl. rewrite !in_app_iff. auto. Qed.

  Lemma in_grid : forall I te, (forall l, In l I -> 0 <= te l < cnt lab l) ->
    inb (map te I) (map (fun s => Z.of_nat (length s)) (map lab I)).
  Proof. intros I te H. rewrite grid_map. apply inb_map_env. exact H. Qed.

  (** A missing or empty tile of an operand contributes nothing. *)
  Lemma contrib_missing : forall h te idx c j, tt_holds h A a -> tt_holds h B b ->
    (forall l, In l (Ci ++ Ai ++ Bi) -> 0 <= te l < cnt lab l) ->
    tile_pos (map lab Ci) idx c j ->
    find_tile (map te Ai) (tt_tiles A) = None \/ find_tile (map te Bi) (tt_tiles B) = None \/
    has_zero_size A (map te Ai) = true \/ has_zero_size B (map te Bi) = true ->
    con te idx = o0.
  Proof.
    intros h te idx c j HA HB Hte P Hm. unfold contrib.
    rewrite (coord_pos _ _ _ _ (HF_of Ci incl_c) P).
    destruct (list_eq_dec Z.eq_dec _ _) as [Ec|]; auto. destruct (list_eq_dec Z.eq_dec _ _) as [Ei|]; auto.
    rewrite Ec, Ei in P. apply pos_map_inv in P as (_ & _ & Hr).
    transitivity (omul ab (Sum_over L (text lab te) m1 (fun _ => o0 : T))).
    2:{ rewrite Sum_over_0 by auto. ring. }
    f_equal. apply Sum_over_cong. intros e e' H1 H2 H3.
    assert (He : forall l, In l (Ai ++ Bi) -> 0 <= e l < text lab te l).
    { intros l Hl. destruct (in_dec Nat.eq_dec l L) as [Hx|Hx]; [apply H1; auto|].
      rewrite H2 by auto. apply Hr. destruct (in_ci_or_l Ci Ai Bi L (proj2 Hlabels) l) as [|]; [apply in_app_iff; auto|auto|contradiction]. }
    assert (HeA : forall l, In l Ai -> 0 <= e l < text lab te l) by (intros; apply He, in_app_iff; auto).
    assert (HeB : forall l, In l Bi -> 0 <= e l < text lab te l) by (intros; apply He, in_app_iff; auto).
    assert (Zs : forall t I, tt_sizes t = map lab I -> (forall l, In l I -> 0 <= e l < text lab te l) -> has_zero_size t (map te I) = true -> False).
    { intros t I S Hq Hz. unfold has_zero_size in Hz. rewrite S, dims_map in Hz. apply existsb_exists in Hz as (n & Hn & En).
      apply in_map_iff in Hn as (l & <- & Hl). apply Z.eqb_eq in En. specialize (Hq l Hl). lia. }
    assert (Mz : forall t f I, tt_holds h t f -> incl I (Ci ++ Ai ++ Bi) -> tt_sizes t = map lab I -> (forall l, In l I -> 0 <= e l < text lab te l) ->
       find_tile (map te I) (tt_tiles t) = None -> f (map (glob lab te e) I) = o0).
    { intros t f I Ht HI S Hq Hf. assert (W := Ht (map (glob lab te e) I) (map te I) (map e I)). rewrite Hf in W. apply W.
      rewrite S. apply pos_map; auto. }
    unfold summand. destruct Hm as [Hm|[Hm|[Hm|Hm]]].
    - rewrite (Mz A a Ai) by (auto using incl_a). ring.
    - rewrite (Mz B b Bi) by (auto using incl_b). ring.
    - exfalso. eauto.
    - exfalso. eauto.
  Qed.

  (** The dense call on the tiles [te], when the tile of C exists. *)
  Lemma contract_spec : forall te t h c d dA dB,
    (forall l, In l (Ci ++ Ai ++ Bi) -> 0 <= te l < cnt lab l) ->
    tt_ok t -> tt_sizes t = map lab Ci -> tt_holds h t c -> tt_holds h A a -> tt_holds h B b -> tt_disj t A -> tt_disj t B ->
    find_tile (map te Ci) (tt_tiles t) = Some d -> find_tile (map te Ai) (tt_tiles A) = Some dA ->
    find_tile (map te Bi) (tt_tiles B) = Some dB ->
    exists h', dense_einsum (mkEin Ci Ai Bi) o1 d ab dA dB h = Ok h' /\
      tt_holds h' t (fun idx => oadd (c idx) (con te idx)) /\
      (forall z, ~ cell d z -> h' z = h z) /\ (forall z, h z <> None -> h' z <> None).
  Proof.
    intros te t h c d dA dB Hte Ot St HC HA HB DA DB Fd FA FB.
    destruct (tile_facts t _ d Ot Fd) as (Ed & Dd & Dne & DN & _).
    destruct (tile_facts A _ dA OA FA) as (EA & DdA & _).
    destruct (tile_facts B _ dB OB FB) as (EB & DdB & _).
    assert (Hd := holds_tile O h t c _ d Ot HC Fd).
    assert (HdA := holds_tile O h A a _ dA OA HA FA).
    assert (HdB := holds_tile O h B b _ dB OB HB FB).
    assert (RN : Forall (Forall (fun n => 0 <= n)) (tt_sizes t)) by (rewrite St; apply HF_of, incl_c).
    assert (CC : contiguous d) by (eapply ctor_contig; eauto).
    assert (IC : inj d).
    { apply contiguous_rowmaj in CC. intros i j Hi Hj Ha. unfold addr in Ha. rewrite CC in Ha.
      apply (rm_inj 0 (ddims d)); auto. unfold addr. simpl. lia. }
    destruct (plan_run_spec O _ _ (dense_tile_ok O HR h Ci Ai Bi L dA dB d (text lab te) _ _ _ ab Hlabels Hpath
       (fun l Hl => text_range te l Hl)
       ltac:(rewrite DdA, SA; apply dims_map) ltac:(rewrite DdB, SB; apply dims_map) ltac:(rewrite Dd, St; apply dims_map)
       ltac:(eapply ctor_contig; eauto) ltac:(eapply ctor_contig; eauto) CC HdA HdB Hd
       ltac:(intros i j Hi Hj Hij; apply (DA (addr d i)); [exists (map te Ci), d; split; auto; exists i; auto|
               exists (map te Ai), dA; split; auto; exists j; auto])
       ltac:(intros i j Hi Hj Hij; apply (DB (addr d i)); [exists (map te Ci), d; split; auto; exists i; auto|
               exists (map te Bi), dB; split; auto; exists j; auto])))
      as (h' & E & V & F).
    exists h'. split; [exact E|].
    assert (Fr : forall z, ~ cell d z -> h' z = h z).
    { intros z Hz. apply F. intros env He ->. apply Hz. exists (map env Ci). split; auto.
      rewrite Dd, St, dims_map. apply inb_map_env. auto. }
    assert (Hnew : holds h' d (at_tile (fun idx => oadd (c idx) (con te idx)) (tt_sizes t) (map te Ci))).
    { intros j Hj. assert (Hj' := Hj). rewrite Dd in Hj'.
      destruct (tile_pos_exists (tt_sizes t) (map te Ci) j) as (idx & P); auto.
      { rewrite St. apply in_grid. intros l Hl. apply Hte, incl_c, Hl. }
      rewrite (at_tile_pos _ _ _ _ _ _ P).
      assert (EV : at_tile c (tt_sizes t) (map te Ci) j = c idx) by (apply at_tile_pos; auto).
      rewrite St, dims_map in Hj'.
      destruct (env_of_idx Ci j) as [(env & ->)|Hno]; [rewrite (inb_length _ _ Hj'), map_length; auto| |].
      - apply env_ok_map in Hj'. rewrite (V env Hj'). f_equal.
        rewrite EV. rewrite (Rmul_1_l (ir_rt O HR)). f_equal.
        assert (Ei : idx = map (glob lab te env) Ci).
        { eapply tile_pos_fun; [|exact P]. rewrite St. apply pos_map; auto. intros l Hl; apply Hte, incl_c, Hl. }
        rewrite St in P. unfold contrib. rewrite (coord_pos _ _ _ _ (HF_of Ci incl_c) P).
        destruct (list_eq_dec Z.eq_dec _ _) as [_|N]; [|congruence].
        destruct (list_eq_dec Z.eq_dec _ _) as [_|N]; [|exfalso; apply N, lookv_form; eauto].
        f_equal. unfold einstein. apply Sum_over_cong. intros e e' H1 H2 H3.
        rewrite SA, SB, !at_map. change (summand Ai Bi a b (glob lab te e) = summand Ai Bi a b (glob lab te e')).
        apply summand_local. intros l Hl. unfold glob. f_equal.
        destruct (in_dec Nat.eq_dec l L) as [Hx|Hx]; [apply H1; auto|].
        destruct (in_ci_or_l Ci Ai Bi L (proj2 Hlabels) l Hl) as [Hc|Hc]; [|contradiction].
        rewrite H2, H3 by auto. rewrite Ei, lookv_map by auto. unfold glob. lia.
      - rewrite F.
        2:{ intros env He Ea. apply IC in Ea; auto; [|rewrite Dd, St, dims_map; apply inb_map_env; auto]. apply (Hno env). auto. }
        rewrite (Hd j Hj). f_equal. rewrite EV. rewrite contrib_none; [ring|].
        intros env ->. rewrite St in P. apply pos_map_inv in P as (-> & _ & _). eapply Hno. reflexivity. }
    split; [|split; auto].
    - apply (update_tile O h h' t c _ (map te Ci) d); auto.
      intros idx c' j P Hne. rewrite St in P. unfold contrib. rewrite (coord_pos _ _ _ _ (HF_of Ci incl_c) P).
      destruct (list_eq_dec Z.eq_dec _ _) as [N|_]; [congruence|]. ring.
    - intros z Hz. destruct (tile_cell_dec d _ z Ed Dne DN) as [(l & Hl & ->)|Hc]; [rewrite (Hnew l Hl); discriminate|].
      rewrite Fr; auto.
  Qed.

  Definition step_ok (inv : tt -> Prop) (oom : Prop) (g : list Z -> T) (step : tt * heap T -> res (tt * heap T)) : Prop :=
    forall t h c, inv t -> tt_ok t -> tt_sizes t = map lab Ci -> tt_holds h t c -> tt_holds h A a -> tt_holds h B b ->
      tt_disj t A -> tt_disj t B ->
      (oom /\ step (t, h) = Throw) \/
      exists t' h', step (t, h) = Ok (t', h') /\ inv t' /\ tt_ok t' /\ tt_sizes t' = map lab Ci /\
        tt_holds h' t' (fun idx => oadd (c idx) (g idx)) /\
        (forall z, tt_cell t' z -> tt_cell t z \/ h z = None) /\
        (forall z, h z <> None -> h' z <> None) /\
        (forall z, h z <> None -> ~ tt_cell t z -> h' z = h z).

  Lemma step_loop : forall X (order : list X) (inv : tt -> Prop) (oom : Prop) (g : X -> list Z -> T) (step : X -> tt * heap T -> res (tt * heap T)),
    (forall x, In x order -> step_ok inv oom (g x) (step x)) ->
    step_ok inv oom (fun idx => lsum order (fun x => g x idx)) (forM order step).
  Proof.
    intros X order inv oom g step. induction order as [|x order IH]; intros Hs t h c Hi Ot St HC HA HB DA DB.
    - right. exists t, h. simpl. repeat (split; auto). eapply tt_holds_ext; [|exact HC]. intros. simpl. unfold lsum. simpl. ring.
    - destruct (Hs x (or_introl eq_refl) t h c) as [(Hoom & E)|(t1 & h1 & E & I1 & O1 & S1 & C1 & N1 & N2 & N3)]; auto.
      { left. split; auto. simpl. rewrite E. reflexivity. }
      destruct (IH (fun y Hy => Hs y (or_intror Hy)) t1 h1 (fun idx => oadd (c idx) (g x idx)))
        as [(Hoom & E2)|(t2 & h2 & E2 & I2 & O2 & S2 & C2 & M1 & M2 & M3)]; auto.
      + apply (holds_frame O h h1 A a OA HA). intros z Hz. apply N3; [exact (cell_alloc O h A a z OA HA Hz)|]. intros Hc. exact (DA z Hc Hz).
      + apply (holds_frame O h h1 B b OB HB). intros z Hz. apply N3; [exact (cell_alloc O h B b z OB HB Hz)|]. intros Hc. exact (DB z Hc Hz).
      + intros z Hz Hc. destruct (N1 z Hz) as [H|H]; [exact (DA z H Hc)|]. apply (cell_alloc O h A a z OA HA Hc H).
      + intros z Hz Hc. destruct (N1 z Hz) as [H|H]; [exact (DB z H Hc)|]. apply (cell_alloc O h B b z OB HB Hc H).
      + left. split; auto. simpl. rewrite E. exact E2.
      + right. exists t2, h2. simpl. rewrite E. cbn [bind]. split; auto. split; auto. split; auto. split; auto.
        split; [|split; [|split]].
        * eapply tt_holds_ext; [|exact C2]. intros idx c' j P. simpl. unfold lsum. simpl. ring.
        * intros z Hz. destruct (M1 z Hz) as [H|H]; [destruct (N1 z H); auto|]. right.
          destruct (h z) eqn:Eh; auto. exfalso. apply (N2 z); [congruence|auto].
        * auto.
        * intros z Hz Hc. rewrite M3; auto. intros H. destruct (N1 z H) as [H'|H']; auto.
  Qed.

  Definition te_of (n : Z) (strides : list Z) : nat -> Z := upds (unique (Ci ++ Ai ++ Bi)) (sentinel_to_indices n strides) m1.

  Lemma tile_step_ok : forall n strides,
    inb (sentinel_to_indices n strides) (map (cnt lab) (unique (Ci ++ Ai ++ Bi))) ->
    step_ok (fun _ => True) (exists h n, al h n = None) (con (te_of n strides))
      (tile_step al (mkEin Ci Ai Bi) ab A B (unique (Ci ++ Ai ++ Bi)) strides n).
  Proof.
    intros n strides Hix t h c _ Ot St HC HA HB DA DB.
    set (U := unique (Ci ++ Ai ++ Bi)) in *. set (te := te_of n strides).
    assert (Hlen : length (sentinel_to_indices n strides) = length U) by (rewrite (inb_length _ _ Hix), map_length; auto).
    assert (Hte : forall l, In l (Ci ++ Ai ++ Bi) -> 0 <= te l < cnt lab l).
    { intros l Hl. refine (upds_ok U _ m1 (cnt lab) (Ci ++ Ai ++ Bi) (unique_NoDup _) Hix _ l Hl).
      intros l' H1 H2. exfalso. apply H2. apply in_unique. auto. }
    assert (HTA : forall l, In l Ai -> 0 <= te l < cnt lab l) by (intros; apply Hte, incl_a; auto).
    assert (HTB : forall l, In l Bi -> 0 <= te l < cnt lab l) by (intros; apply Hte, incl_b; auto).
    assert (HTC : forall l, In l Ci -> 0 <= te l < cnt lab l) by (intros; apply Hte, incl_c; auto).
    assert (GA := in_grid Ai te HTA). rewrite <- SA in GA.
    assert (GB := in_grid Bi te HTB). rewrite <- SB in GB.
    assert (GC := in_grid Ci te HTC). rewrite <- St in GC.
    unfold tile_step. cbn [eA eB eC fst snd]. rewrite !tile_coords_upds by (auto; apply unique_NoDup).
    change (upds U (sentinel_to_indices n strides) m1) with te.
    rewrite (has_tile_c_inb A), (has_tile_c_inb B) by auto.
    assert (Same : (forall idx c j, tile_pos (map lab Ci) idx c j -> con te idx = o0) ->
      ((exists (h : heap T) (n : Z), al h n = None) /\ (Ok (t, h) : res (tt * heap T)) = Throw) \/
      exists t' h', (Ok (t, h) : res (tt * heap T)) = Ok (t', h') /\ True /\ tt_ok t' /\ tt_sizes t' = map lab Ci /\
        tt_holds h' t' (fun idx => oadd (c idx) (con te idx)) /\
        (forall z, tt_cell t' z -> tt_cell t z \/ h z = None) /\
        (forall z, h z <> None -> h' z <> None) /\
        (forall z, h z <> None -> ~ tt_cell t z -> h' z = h z)).
    { intros Hz. right. exists t, h. repeat (split; auto). eapply tt_holds_ext; [|exact HC]. intros idx c' j P.
      rewrite St in P. rewrite (Hz _ _ _ P). ring. }
    destruct (find_tile (map te Ai) (tt_tiles A)) as [dA|] eqn:FA; cbn [negb orb].
    2:{ apply Same. intros. eapply contrib_missing; eauto. }
    destruct (find_tile (map te Bi) (tt_tiles B)) as [dB|] eqn:FB; cbn [negb orb].
    2:{ apply Same. intros. eapply contrib_missing; eauto. }
    destruct (has_zero_size A (map te Ai)) eqn:ZA; cbn [orb].
    { apply Same. intros. eapply contrib_missing; eauto. }
    destruct (has_zero_size B (map te Bi)) eqn:ZB; cbn [orb].
    { apply Same. intros. eapply contrib_missing; eauto. }
    destruct (has_zero_size t (map te Ci)) eqn:ZC.
    { apply Same. intros idx c' j P. unfold contrib. rewrite (coord_pos _ _ _ _ (HF_of Ci incl_c) P).
      destruct (list_eq_dec Z.eq_dec _ _) as [E|]; auto. exfalso. subst c'.
      apply (tile_pos_inb _ _ _ _ (HF_of Ci incl_c)) in P as (_ & _ & Ij). rewrite dims_map in Ij.
      unfold has_zero_size in ZC. rewrite St, dims_map in ZC. apply existsb_exists in ZC as (x & Hx & Ex).
      apply Z.eqb_eq in Ex. subst x. clear - Hx Ij. remember (map (text lab te) Ci) as D. clear HeqD. induction Ij; [destruct Hx|].
      destruct Hx as [->|Hx]; auto. lia. }
    destruct (tile_spec O al h t c (map te Ci) Hal Ot HC GC) as [(E1 & E2 & E3)|(d & t1 & h1 & E1 & O1 & C1 & S1 & F1 & F2 & N1 & N2)].
    { left. split; [eauto|]. rewrite E3. reflexivity. }
    right. rewrite E1. cbn [bind fst snd].
    rewrite (const_tile_inb A _ dA), (const_tile_inb B _ dB) by auto. cbn [bind].
    rewrite St in S1.
    assert (D1A : tt_disj t1 A).
    { intros z Hz Hc. destruct (N1 z Hz) as [H|H]; [exact (DA z H Hc)|]. apply (cell_alloc O h A a z OA HA Hc H). }
    assert (D1B : tt_disj t1 B).
    { intros z Hz Hc. destruct (N1 z Hz) as [H|H]; [exact (DB z H Hc)|]. apply (cell_alloc O h B b z OB HB Hc H). }
    destruct (contract_spec te t1 h1 c d dA dB) as (h2 & E4 & C2 & K1 & K2); auto.
    { apply (holds_frame O h h1 A a OA HA). intros z Hz. apply N2. exact (cell_alloc O h A a z OA HA Hz). }
    { apply (holds_frame O h h1 B b OB HB). intros z Hz. apply N2. exact (cell_alloc O h B b z OB HB Hz). }
    rewrite E4. cbn [bind]. exists t1, h2. repeat (split; auto).
    - intros z Hz. apply K2. rewrite N2; auto.
    - intros z Hz Hc. rewrite K1; auto. intros Hd. destruct (N1 z) as [H|H]; auto. exists (map te Ci), d. auto.
  Qed.
End Step.
