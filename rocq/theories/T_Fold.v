(** * T_Fold: unfold and Khatri-Rao product (C39). *)
From Coq Require Import List ZArith Lia Bool Permutation Ring.
From Verif Require Import Base Heap Conc M_Addr S_Addr L_Addr M_Elt L_Elt M_Einsum S_Einsum L_Einsum T_Einsum
  S_Blas M_Blas L_Blas M_Dispatch S_Dispatch L_Dispatch T_Dispatch T_Addr M_Fold S_Fold L_Fold.
Import ListNotations.
Open Scope Z_scope.

Lemma inb_firstn : forall idx dims n, inb idx dims -> inb (firstn n idx) (firstn n dims).
Proof. intros idx dims n H. revert n. induction H as [|i d is ds Hi HF IH]; intros [|n]; simpl; constructor; auto; apply IH. Qed.
Lemma inb_skipn : forall idx dims n, inb idx dims -> inb (skipn n idx) (skipn n dims).
Proof. intros idx dims n H. revert n. induction H as [|i d is ds Hi HF IH]; intros [|n]; simpl; try constructor; auto; apply IH. Qed.

(** ** Unfold *)

(** The mode-[mode] unfolding of a tensor of any rank (up to the 16 labels of
    the library) and extents: the new matrix has one row per value of the mode
    index; element [idx] goes to row [idx(mode)] and to the column numbered by
    the remaining indices in row-major order; this map is a bijection; nothing
    else changes.  For every number of threads and every interleaving. *)
Theorem C39_unfold : forall T (zero : T) mode dims sbase base (h : heap T) f target h1 threads,
  (mode < length dims <= 16)%nat ->
  Forall (fun d => 0 <= d < 2 ^ 31) dims ->
  let source := tensor_ctor sbase dims in
  holds h source f ->
  let place idx := [nth mode idx 0; rowcode (without mode dims) (without mode idx)] in
  (forall z, base <= z < base + zprod [nth mode dims 0; zprod (without mode dims)] -> h z = None) ->
  unfold_alloc zero base mode source h = (target, h1) ->
  Permutation (concat threads) (unfold_rows mode source target) ->
  ddims target = [nth mode dims 0; zprod (without mode dims)] /\
  (forall rc, inb rc (ddims target) -> exists! idx, inb idx dims /\ place idx = rc) /\
  par_spec (omp_for (unfold_body mode source target) threads) h1 (fun h' =>
    (forall idx, inb idx dims -> inb (place idx) (ddims target) /\ elem h' target (place idx) = Some (f idx)) /\
    (forall z, ~ cell target z -> h' z = h z)).
Proof.
  intros T zero mode dims sbase base h f target h1 threads (Hm & Hr) Hd source Hh place Hfresh E HP.
  unfold unfold_alloc in E. injection E as <- <-.
  assert (ED := unfold_dims_eq mode dims sbase Hm Hr). fold source in ED.
  assert (HN : Forall (fun d => 0 <= d) (without mode dims)) by (apply (without_nonneg mode dims); auto).
  assert (Hm0 : 0 <= nth mode dims 0) by (rewrite Forall_forall in Hd; apply Hd, nth_In; auto).
  assert (Hsplit : forall idx, inb idx dims -> 0 <= nth mode idx 0 < nth mode dims 0 /\ inb (without mode idx) (without mode dims)).
  { intros idx Hi. split.
    - clear - Hi Hm. revert mode Hm. induction Hi as [|i d is ds H HF IH]; intros [|m] Hm; simpl in *; try lia. apply IH. lia.
    - clear - Hi. unfold without. revert mode. induction Hi as [|i d is ds H HF IH]; intros [|m]; simpl; try constructor; auto.
      apply IH. }
  assert (Hplace : forall idx, inb idx dims -> inb (place idx) [nth mode dims 0; zprod (without mode dims)]).
  { intros idx Hi. destruct (Hsplit idx Hi) as (H1 & H2). unfold place. constructor; [auto|]. constructor; [|constructor].
    rewrite rowcode_dotp by (apply inb_length; auto). apply rm_range; auto. }
  split; [exact ED|]. split.
  - intros rc Hrc. simpl in Hrc. rewrite ED in Hrc. inversion Hrc as [|r ? ? ? H1 H2]; subst.
    inversion H2 as [|c ? ? ? H3 H4]; subst. inversion H4; subst.
    set (sc := sentinel_to_indices c (row_major_strides (without mode dims))).
    assert (Hsc : inb sc (without mode dims)) by (apply rm_sti_inb; auto).
    assert (HL := inb_length _ _ Hsc). rewrite without_length in HL by auto.
    exists (sidx mode dims [r] sc). split.
    + assert (HI := sidx_inb mode dims sbase Hm Hr r sc H1 Hsc). split; [auto|].
      set (idx := firstn mode sc ++ r :: skipn mode sc).
      assert (Lf : length (firstn mode sc) = mode) by (rewrite firstn_length; lia).
      assert (Ew : without mode idx = sc).
      { unfold without, idx. rewrite firstn_app, Lf, Nat.sub_diag, app_nil_r, firstn_all2 by lia.
        rewrite skipn_app, Lf, skipn_all2 by lia. replace (S mode - mode)%nat with 1%nat by lia. simpl.
        apply firstn_skipn. }
      assert (En : nth mode idx 0 = r).
      { unfold idx. rewrite app_nth2 by lia. rewrite Lf, Nat.sub_diag. reflexivity. }
      assert (Hidx : inb idx dims).
      { assert (Esp : dims = firstn mode (without mode dims) ++ nth mode dims 0 :: skipn mode (without mode dims)).
        { clear - Hm. unfold without. revert mode Hm. induction dims as [|d ds IH]; intros [|m] Hm; simpl in *; try lia; auto.
          f_equal. apply IH. lia. }
        rewrite Esp. unfold idx. apply inb_app; [|constructor; [auto|]].
        - apply inb_firstn; auto.
        - apply inb_skipn; auto. }
      assert (Es : sidx mode dims [r] sc = idx).
      { rewrite <- Ew, <- En. apply sidx_of; auto. }
      rewrite Es. unfold place. rewrite Ew, En. f_equal. f_equal. rewrite rowcode_dotp.
      * apply rm_sti_ordinal; auto.
      * rewrite HL. now rewrite without_length.
    + intros idx (Hi & Ep). unfold place in Ep. injection Ep as E1 E2. destruct (Hsplit idx Hi) as (G1 & G2).
      rewrite <- (sidx_of mode dims Hm Hr idx Hi). f_equal; [congruence|].
      unfold sc. rewrite <- E2, rowcode_dotp by (apply inb_length; auto). now apply rm_roundtrip.
  - assert (Hcell : forall a, cell (tensor_ctor base (unfold_dims mode source)) a -> h a = None).
    { intros a (idx & Hi & ->). simpl in Hi. apply Hfresh. rewrite ED in Hi. assert (HR := rm_range _ _ Hi).
      unfold addr. cbn [dbase dstrides tensor_ctor]. rewrite ED. lia. }
    eapply par_spec_weaken; [|apply (unfold_par zero mode dims sbase base Hm Hr Hd h f threads Hh Hcell HP)].
    intros h' (H1 & H2). split.
    + intros idx Hi. destruct (Hsplit idx Hi) as (G1 & G2). split; [simpl; fold source; rewrite ED; auto|].
      unfold elem, place. fold source in H1. rewrite H1 by auto. do 2 f_equal. apply sidx_of; auto.
    + intros z Hz. fold source in H2. rewrite H2 by auto. apply alloc_buffer_other. intros Hb. apply Hz.
      rewrite data_size_eq in Hb by (rewrite ED; discriminate).
      assert (HNN : Forall (fun d => 0 <= d) (unfold_dims mode source)).
      { rewrite ED. constructor; [auto|]. constructor; [|constructor]. apply zprod_nonneg; auto. }
      exists (sentinel_to_indices (z - base) (row_major_strides (unfold_dims mode source))).
      cbn [ddims tensor_ctor]. split; [apply rm_sti_inb; auto; lia|]. unfold addr. cbn [dbase dstrides tensor_ctor].
      rewrite rm_sti_ordinal by (auto; lia). lia.
Qed.
Print Assumptions C39_unfold.

(** Mode-1 unfolding of a 2x3x2 tensor, one thread. *)
Example C39_unfold_case :
  let source := tensor_ctor 0 [2; 3; 2] in
  let h : heap Z := fun z => if (0 <=? z) && (z <? 12) then Some (z + 1) else None in
  let '(target, h1) := unfold_alloc 0 100 1 source h in
  (1 < length [2; 3; 2] <= 16)%nat /\ holds h source (fun idx => dotp idx [6; 2; 1] + 1) /\
  ddims target = [3; 4] /\
  match run (pseq (unfold_rows 1 source target) (unfold_body 1 source target)) h1 with
  | Ok (_, h') => map (elem h' target) (indices [3; 4]) =
      map Some [1; 2; 7; 8;  3; 4; 9; 10;  5; 6; 11; 12]
  | _ => False
  end.
Proof.
  cbn [unfold_alloc]. split; [simpl; lia|]. split; [|split; vm_compute; reflexivity].
  intros idx Hi. cbn [ddims tensor_ctor] in Hi. assert (HR := rm_range _ _ Hi).
  unfold addr. cbn [dbase dstrides tensor_ctor]. change (row_major_strides [2; 3; 2]) with [6; 2; 1] in *.
  change (zprod [2; 3; 2]) with 12 in HR.
  destruct (Z.leb_spec 0 (0 + dotp idx [6; 2; 1])); [|lia]. destruct (Z.ltb_spec (0 + dotp idx [6; 2; 1]) 12); [|lia].
  simpl. f_equal; lia.
Qed.

(** ** Khatri-Rao *)
Lemma filter_all : forall A (f : A -> bool) l, (forall x, In x l -> f x = true) -> filter f l = l.
Proof.
  induction l as [|x l IH]; intros H; simpl; auto. rewrite H by (simpl; auto). f_equal. apply IH. intros. apply H. simpl; auto.
Qed.
Lemma filter_none : forall A (f : A -> bool) l, (forall x, In x l -> f x = false) -> filter f l = [].
Proof.
  induction l as [|x l IH]; intros H; simpl; auto. rewrite H by (simpl; auto). apply IH. intros. apply H. simpl; auto.
Qed.
Lemma intersect_suffix : forall P Q K, (forall l, In l P -> ~ In l (Q ++ K)) -> intersect (P ++ K) (Q ++ K) = K.
Proof.
  intros P Q K H. unfold intersect. rewrite filter_app, filter_none, filter_all; auto.
  - intros x Hx. apply has_type_In. apply in_or_app; auto.
  - intros x Hx. apply has_type_false. auto.
Qed.
Lemma difference_suffix : forall P K, (forall l, In l P -> ~ In l K) -> difference (P ++ K) K = P.
Proof.
  intros P K H. unfold difference. rewrite filter_app, filter_all, filter_none, app_nil_r; auto.
  - intros x Hx. apply negb_false_iff. now apply has_type_In.
  - intros x Hx. apply negb_true_iff. apply has_type_false. auto.
Qed.
Lemma intersect_sub : forall U X, (forall l, In l U -> In l X) -> intersect U X = U.
Proof. intros. unfold intersect. apply filter_all. intros. apply has_type_In. auto. Qed.

Lemma get_dim_for_eq : forall ext X d U, NoDup X -> ddims d = map ext X -> (forall l, In l U -> In l X) ->
  get_dim_for d (find_type_with_position U X) = map ext U.
Proof.
  intros ext X d U HN Hd HU. assert (H := ftwp_spec U X HN). rewrite intersect_sub in H by auto.
  unfold get_dim_for. induction H as [|l p P ps (E1 & E2) HF IH]; simpl; auto. f_equal.
  - eapply tdim_pos; eauto.
  - apply IH. intros x Hx. apply HU. simpl; auto.
Qed.

Lemma forallb_combine_refl : forall l : list Z, forallb (fun p => fst p =? snd p) (combine l l) = true.
Proof. induction l as [|x l IH]; simpl; auto. now rewrite Z.eqb_refl. Qed.

(** Full property: for every order in which the user lists the indices and all
    extents.  Proved when A's and B's labels end with the common ones in the
    same order and all extents are positive: the result is a matrix with rows
    (A-only, B-only) and columns (common) in row-major order,
    KR((i,m), r) = A(i,r) * B(m,r).  Missing, because the code is wrong there:
    [C39_khatri_rao_order_refuted], [C39_khatri_rao_empty_refuted]. *)
Theorem C39_khatri_rao_partial :
  forall (O : Ops) (HR : is_ring O) (h : heap (car O)) P Q K (ext : nat -> Z) A B a b base (fA fB vA vB : bool),
  NoDup (P ++ Q ++ K) -> P ++ K <> [] -> Q ++ K <> [] ->
  (forall l, In l (P ++ Q ++ K) -> 0 < ext l < 2 ^ 31) ->
  consistent ext (P ++ K) A -> consistent ext (Q ++ K) B ->
  (fA = true -> contiguous A) -> (fB = true -> contiguous B) ->
  holds h A a -> holds h B b ->
  (forall z, base <= z < base + zprod (map ext (P ++ Q ++ K)) -> h z = None) ->
  exists p d, khatri_rao (P ++ K) (Q ++ K) fA fB vA vB base A B h = Ok (p, d) /\
    ddims d = [zprod (map ext (P ++ Q)); zprod (map ext K)] /\
    einsum_spec (Ok p) (fun h' =>
      (forall env, env_ok ext env (P ++ Q ++ K) ->
         elem h' d [rowcode (map ext (P ++ Q)) (map env (P ++ Q)); rowcode (map ext K) (map env K)] =
         Some (omul (a (map env (P ++ K))) (b (map env (Q ++ K))))) /\
      (forall z, h z <> None -> h' z = h z)).
Proof.
  intros O HR h P Q K ext A B a b base fA fB vA vB HN NEA NEB Hext HdA HdB FA FB HA HB Hfresh.
  assert (HNPK : NoDup (P ++ K)).
  { apply (NoDup_app_r _ Q). apply Permutation_NoDup with (l := P ++ Q ++ K); auto.
    rewrite !app_assoc. apply Permutation_app_tail, Permutation_app_comm. }
  assert (HNQK : NoDup (Q ++ K)) by (eapply NoDup_app_r; eauto).
  assert (HNPQ : forall l, In l P -> ~ In l (Q ++ K)).
  { clear - HN. induction P as [|x P IH]; simpl in *; [tauto|]. inversion HN; subst. intros l [<-|Hl]; auto.
    intros Hc. apply H1. apply in_or_app; auto. }
  assert (HNQ : forall l, In l Q -> ~ In l K).
  { clear - HNQK. induction Q as [|x Q IH]; simpl in *; [tauto|]. inversion HNQK; subst. intros l [<-|Hl]; auto.
    intros Hc. apply H1. apply in_or_app; auto. }
  assert (HNP : forall l, In l P -> ~ In l K) by (intros l Hl Hc; apply (HNPQ l Hl), in_or_app; auto).
  assert (NEC : P ++ Q ++ K <> []) by (intros E; apply app_eq_nil in E as (-> & E); auto).
  unfold khatri_rao. cbv zeta. rewrite (intersect_suffix P Q K HNPQ), (difference_suffix P K HNP), (difference_suffix Q K HNQ).
  rewrite (get_dim_for_eq ext (P ++ K) A K), (get_dim_for_eq ext (Q ++ K) B K), (get_dim_for_eq ext (P ++ K) A P),
    (get_dim_for_eq ext (Q ++ K) B Q); auto; try (intros l Hl; apply in_or_app; auto).
  rewrite forallb_combine_refl. rewrite <- !map_app.
  assert (Hpos : forall l, In l (P ++ Q ++ K) -> 0 <= ext l < 2 ^ 31) by (intros l Hl; apply Hext in Hl; lia).
  assert (HposF : forall L, (forall l, In l L -> In l (P ++ Q ++ K)) -> Forall (fun d => 0 < d) (map ext L)).
  { intros L HL. apply Forall_map, Forall_forall. intros l Hl. apply Hext; auto. }
  assert (Sub : forall l, (In l P \/ In l Q \/ In l K) -> In l (P ++ Q ++ K)) by (intros l Hl; rewrite !in_app_iff; tauto).
  set (dims := map ext (P ++ Q ++ K)). set (C := tensor_ctor base dims).
  assert (NEdims : dims <> []) by (unfold dims; destruct (P ++ Q ++ K); [congruence|discriminate]).
  assert (Hsz : data_size dims = zprod dims) by (apply data_size_eq; auto).
  set (h1 := alloc_buffer o0 base (data_size dims) h).
  assert (HC1 : holds h1 C (fun _ => o0)).
  { intros idx Hi. apply alloc_buffer_cell. assert (HRg := rm_range _ _ Hi). simpl in HRg. unfold addr. simpl. rewrite Hsz. lia. }
  assert (Hkeep : forall z, h z <> None -> h1 z = h z).
  { intros z Hz. apply alloc_buffer_other. intros Hb. rewrite Hsz in Hb. apply Hz, Hfresh. auto. }
  assert (Hmk : forall d f, holds h d f -> holds h1 d f /\ disj C d).
  { intros d f Hh. split.
    - intros idx Hi. rewrite Hkeep; [auto|]. rewrite Hh by auto. discriminate.
    - intros i j Hi Hj E. assert (HRg := rm_range _ _ Hi). simpl in HRg.
      assert (Hn : h (addr C i) = None) by (apply Hfresh; unfold addr; simpl; fold dims; lia).
      rewrite E, Hh in Hn by auto. discriminate. }
  destruct (Hmk A a HA) as (HA1 & DA). destruct (Hmk B b HB) as (HB1 & DB).
  assert (HLc : contracted [] (P ++ Q ++ K) (P ++ K) (Q ++ K)).
  { split; [constructor|]. intros l. split; [intros []|]. rewrite !in_app_iff. tauto. }
  assert (Hrm : contiguous C) by (apply contiguous_rowmaj; reflexivity).
  assert (HE : einsum_spec (einsum (mkEin (P ++ Q ++ K) (P ++ K) (Q ++ K)) false fA fB true vA vB o0 C o1 A B h1)
     (einsum_result ext (P ++ Q ++ K) (P ++ K) (Q ++ K) [] o0 o1 C a b (fun _ => o0) h1)).
  { assert (Hlk : links (mkEin (P ++ Q ++ K) (P ++ K) (Q ++ K)) = []).
    { unfold links, linksAB. cbn [eA eB eC]. rewrite intersect_suffix by auto. unfold difference. apply filter_none.
      intros x Hx. apply negb_false_iff, has_type_In. apply Sub; auto. }
    assert (Hlu : link_unique (mkEin (P ++ Q ++ K) (P ++ K) (Q ++ K)) = []) by (unfold link_unique; rewrite Hlk; reflexivity).
    destruct (dispatch (mkEin (P ++ Q ++ K) (P ++ K) (Q ++ K)) false fA fB true) eqn:HD.
    - exfalso. apply dispatch_dot in HD as (E & _). simpl in E. auto.
    - eapply C16_elementwise; eauto. reflexivity.
    - assert (HD' := HD). apply dispatch_outer in HD' as (_ & _ & _ & _ & _ & _ & Hno). simpl in Hno.
      assert (K = []) as EK.
      { destruct K as [|k K']; auto. exfalso. apply (Hno k); apply in_or_app; simpl; auto. }
      subst K. rewrite !app_nil_r in *. eapply C15_outer_partial; eauto. unfold consistent, C, dims. cbn [ddims tensor_ctor]. now rewrite app_nil_r.
    - exfalso. apply dispatch_gemv in HD as (G & _). unfold is_gemv_possible in G. apply orb_true_iff in G.
      unfold is_gemv_normal_possible, is_gemv_swap_possible, link_position_in_A in G. rewrite Hlu in G.
      cbn [find_type_with_position flat_map is_same_ordering] in G. rewrite !andb_false_r in G.
      rewrite !andb_true_iff in G. simpl in G. intuition discriminate.
    - exfalso. apply dispatch_gemm in HD as (G & _).
      unfold is_gemm_possible, link_position_in_A in G. rewrite Hlu in G.
      cbn [find_type_with_position flat_map is_same_ordering] in G. rewrite !andb_true_iff in G. intuition discriminate.
    - exists h1, (generic_body (mkEin (P ++ Q ++ K) (P ++ K) (Q ++ K)) o0 o1 C A B),
        (generic_targets (mkEin (P ++ Q ++ K) (P ++ K) (Q ++ K)) C).
      split; [unfold einsum; now rewrite HD|]. intros threads Hth.
      eapply C11_einsum_generic_partial; eauto; try reflexivity.
      + intros l. rewrite !in_app_iff. tauto.
      + intros l [].
      + intros l Hl. apply Hpos. rewrite !in_app_iff in *. tauto.
      + apply rm_inj. }
  destruct HE as (h2 & body & iters & HE & Hpar). rewrite HE. cbn [bind].
  assert (Epd : product_dims (find_type_with_position K (P ++ K)) A = zprod (map ext K)).
  { assert (H := ftwp_spec K (P ++ K) HNPK). rewrite intersect_sub in H by (intros; apply in_or_app; auto).
    eapply product_dims_spec; eauto. }
  rewrite Epd.
  assert (Hk0 : 0 < zprod (map ext K)) by (apply zprod_pos, HposF; auto).
  assert (Hpq0 : 0 < zprod (map ext (P ++ Q))).
  { apply zprod_pos, HposF. intros l Hl. apply Sub. apply in_app_or in Hl. tauto. }
  destruct (C06_reshape_partial base dims [-1; zprod (map ext K)]) as (Hre & _ & _); auto.
  { discriminate. }
  { apply HposF; auto. }
  { repeat constructor; lia. }
  { left. simpl. destruct (Z.eqb_spec (zprod (map ext K)) (-1)); lia. }
  destruct (Hre [zprod (map ext (P ++ Q)); zprod (map ext K)]) as (Ere & _).
  { split; [|split].
    - simpl. destruct (Z.eqb_spec (zprod (map ext K)) (-1)); lia.
    - constructor; [left; lia|]. constructor; [right; lia|]. constructor.
    - unfold dims. rewrite app_assoc, (map_app _ (P ++ Q) K), (zprod_app (map ext (P ++ Q))). cbn [zprod]. lia. }
  fold C in Ere. rewrite Ere. cbn [bind].
  eexists (h2, body, iters), _. split; [reflexivity|]. split; [reflexivity|].
  exists h2, body, iters. split; [reflexivity|]. intros threads Hth.
  apply par_spec_weaken with (2 := Hpar threads Hth). intros h' (H1 & H2). split.
  - intros env He. specialize (H1 env He).
    replace (elem h' _ _) with (h' (addr C (map env (P ++ Q ++ K)))).
    + rewrite H1. f_equal. unfold einstein. simpl.
      assert (RT := ir_rt O HR). rewrite (omul_0_l HR). rewrite (Radd_0_l RT). apply (Rmul_1_l RT).
    + unfold elem, addr. cbn [dbase dstrides tensor_ctor]. f_equal. f_equal.
      unfold C, dims. cbn [dstrides tensor_ctor]. rewrite <- rowcode_dotp by now rewrite !map_length.
      rewrite !(app_assoc P Q K). rewrite (map_app _ (P ++ Q) K), (map_app _ (P ++ Q) K).
      rewrite rowcode_app by now rewrite !map_length. rewrite !rms_cons. simpl. lia.
  - intros z Hz. rewrite H2; auto.
    + intros env He E. subst z. apply Hz. apply Hfresh. fold dims.
      assert (Hi : inb (map env (P ++ Q ++ K)) dims) by now apply inb_map_env.
      assert (HRg := rm_range _ _ Hi). unfold addr. simpl. lia.
Qed.
Print Assumptions C39_khatri_rao_partial.

(** Common extents that differ are rejected. *)
Theorem C39_khatri_rao_mismatch :
  forall (O : Ops) (h : heap (car O)) P Q K (extA extB : nat -> Z) A B base (fA fB vA vB : bool),
  NoDup (P ++ K) -> NoDup (Q ++ K) -> (forall l, In l P -> ~ In l (Q ++ K)) ->
  consistent extA (P ++ K) A -> consistent extB (Q ++ K) B ->
  (exists l, In l K /\ extA l <> extB l) ->
  khatri_rao (O := O) (P ++ K) (Q ++ K) fA fB vA vB base A B h = Throw.
Proof.
  intros O h P Q K extA extB A B base fA fB vA vB HNP HNQ HPQ HdA HdB (l & Hl & Hne).
  unfold khatri_rao. cbv zeta. rewrite (intersect_suffix P Q K HPQ).
  rewrite (get_dim_for_eq extA (P ++ K) A K), (get_dim_for_eq extB (Q ++ K) B K); auto; try (intros; apply in_or_app; auto).
  assert (E : forallb (fun p => fst p =? snd p) (combine (map extA K) (map extB K)) = false).
  { clear - Hl Hne. induction K as [|k K IH]; [contradiction|]. simpl. destruct Hl as [->|Hl].
    - destruct (Z.eqb_spec (extA l) (extB l)); [congruence|reflexivity].
    - rewrite IH by auto. apply andb_false_r. }
  now rewrite E.
Qed.
Print Assumptions C39_khatri_rao_mismatch.

Example C39_khatri_rao_mismatch_case :
  khatri_rao (O := ZOps) [0; 2]%nat [1; 2]%nat true true false false 50 (tensor_ctor 0 [2; 3]) (tensor_ctor 6 [2; 2]) (mem 10)
  = Throw.
Proof. reflexivity. Qed.

(** KR of A(i,r) (2x3) and B(m,r) (2x3). *)
Example C39_khatri_rao_case :
  let A := tensor_ctor 0 [2; 3] in let B := tensor_ctor 6 [2; 3] in
  let ext (l : nat) := match l with 2%nat => 3 | _ => 2 end in
  let h := mem 12 in
  NoDup ([0] ++ [1] ++ [2])%nat /\ consistent ext ([0] ++ [2])%nat A /\ consistent ext ([1] ++ [2])%nat B /\
  holds h A (get h A) /\ holds h B (get h B) /\
  match khatri_rao (O := ZOps) [0; 2]%nat [1; 2]%nat true true false false 50 A B h with
  | Ok (h1, body, iters, d) =>
      ddims d = [4; 3] /\
      match run (pseq iters body) h1 with
      | Ok (_, h') => elem h' d [1 * 2 + 0; 2] = Some (get h A [1; 2] * get h B [0; 2])
      | _ => False
      end
  | _ => False
  end.
Proof.
  cbv zeta. split; [do 3 (apply NoDup_cons; [simpl; lia|]); constructor|]. split; [reflexivity|]. split; [reflexivity|].
  split; [apply (holds_check Z _ 0); reflexivity|]. split; [apply (holds_check Z _ 0); reflexivity|].
  vm_compute. split; reflexivity.
Qed.

(** A labelled (r,i): the call succeeds, but A is read as if it were labelled
    (i,r). *)
Theorem C39_khatri_rao_order_refuted :
  let A := tensor_ctor 0 [2; 2] in let B := tensor_ctor 4 [2; 2] in let h := mem 8 in
  (* A(r,i), B(m,r); labels i = 0, m = 1, r = 2 *)
  exists h1 body iters d h',
    khatri_rao (O := ZOps) [2; 0]%nat [1; 2]%nat true true false false 50 A B h = Ok (h1, body, iters, d) /\
    run (pseq iters body) h1 = Ok (tt, h') /\
    (* row (i,m) = (1,0), column r = 0 *)
    elem h' d [1 * 2 + 0; 0] <> Some (get h A [0; 1] * get h B [0; 0]).
Proof.
  cbv zeta. do 5 eexists. split; [vm_compute; reflexivity|]. split; [vm_compute; reflexivity|]. vm_compute. discriminate.
Qed.
Print Assumptions C39_khatri_rao_order_refuted.

(** An extent 0 makes the final reshape throw or divide by zero. *)
Theorem C39_khatri_rao_empty_refuted :
  khatri_rao (O := ZOps) [0; 2]%nat [1; 2]%nat true true false false 50 (tensor_ctor 0 [0; 2]) (tensor_ctor 0 [2; 2]) (mem 4) = Throw /\
  khatri_rao (O := ZOps) [0; 2]%nat [1; 2]%nat true true false false 50 (tensor_ctor 0 [2; 0]) (tensor_ctor 0 [2; 0]) (mem 4) = UB.
Proof. split; vm_compute; reflexivity. Qed.
Print Assumptions C39_khatri_rao_empty_refuted.
