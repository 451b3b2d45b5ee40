(** * T_BlockEinsum: einsum on block-diagonal tensors (C44). *)
From Coq Require Import List ZArith Lia Bool Permutation Ring.
From Verif Require Import Base Heap Conc M_Addr S_Addr L_Addr M_Elt L_Elt M_Einsum S_Einsum L_Einsum T_Einsum
  S_Blas M_Blas L_Blas M_Dispatch S_Dispatch L_Dispatch L_Paths T_Dispatch M_Block S_Block L_Block T_Block L_Tiled
  M_BlockEinsum S_BlockEinsum L_BlockEinsum.
Import ListNotations.
Open Scope Z_scope.

Lemma path_cases : forall e s fA fB fC, dispatch e s fA fB fC = PElementwise <->
  dot_product e = false /\ element_wise_multiplication e = true.
Proof.
  intros. unfold dispatch. destruct (dot_product e); [split; [discriminate|intros (H & _); discriminate]|].
  destruct (element_wise_multiplication e); [tauto|]. split; [|intros (_ & H); discriminate].
  destruct s; [discriminate|]. destruct (outer_product e); [destruct (negb fA || negb fB); discriminate|].
  destruct (is_gemv_possible e); [destruct (negb fC || negb fA || negb fB); discriminate|].
  match goal with |- context [if ?g then _ else _] => destruct g end;
    [destruct (negb fC || negb fA || negb fB)|]; discriminate.
Qed.

Lemma dot_ne : forall e, eC e <> [] -> dot_product e = false.
Proof. intros e H. unfold dot_product. destruct (eC e); [congruence|reflexivity]. Qed.

(** The dense call on one block. *)
Lemma dense_block_ok : forall (O : Ops) (HR : is_ring O) (h : heap (car O)) Ci Ai Bi L A B C n a b c cp ab sizes,
  labels L Ci Ai Bi -> incl Ci (Ai ++ Bi) -> path_ok L Ci Ai Bi cp sizes -> In n sizes -> 0 <= n < 2 ^ 31 ->
  ddims A = repeat n (length Ai) -> ddims B = repeat n (length Bi) -> ddims C = repeat n (length Ci) ->
  contiguous A -> contiguous B -> contiguous C ->
  holds h A a -> holds h B b -> holds h C c -> disj C A -> disj C B ->
  einsum_spec (einsum (mkEin Ci Ai Bi) false true true true false false cp C ab A B h)
    (einsum_result (fun _ => n) Ci Ai Bi L cp ab C a b c h).
Proof.
  intros O HR h Ci Ai Bi L A B C n a b c cp ab sizes (Hlab & HL) HCi Hpath Hn Hb DA DB DC KA KB KC HA HB HC SA SB.
  assert (HCi' : forall l, In l Ci -> In l Ai \/ In l Bi) by (intros l Hl; apply in_app_iff; auto).
  assert (Rep : forall X (l : list X), repeat n (length l) = map (fun _ => n) l).
  { induction l; simpl; f_equal; auto. }
  rewrite Rep in DA, DB, DC. unfold path_ok in Hpath.
  assert (IC : inj C).
  { apply contiguous_rowmaj in KC. intros i j Hi Hj Ha. unfold addr in Ha. rewrite KC in Ha.
    apply (rm_inj 0 (ddims C)); auto. unfold addr. simpl. lia. }
  assert (Hsz : (Forall (fun n => 0 < n) sizes \/ cp = o1) -> (forall l, In l L -> 0 < n) \/ cp = o1).
  { intros [HF|]; auto. left. intros _ _. rewrite Forall_forall in HF. auto. }
  destruct (dispatch (mkEin Ci Ai Bi) false true true true) eqn:ED.
  - contradiction.
  - apply (C16_elementwise O HR h Ci Ai Bi (fun _ => n) A B C a b c cp ab L false true true true false false); auto.
  - contradiction.
  - apply (C14_gemv_partial O HR h Ci Ai Bi (fun _ => n) A B C a b c cp ab L true true true false false); auto. intros; lia.
  - destruct Hpath as (Hba & Hp).
    apply (C13_gemm_partial O HR h Ci Ai Bi (fun _ => n) A B C a b c cp ab L true true true false false); auto. intros; lia.
  - unfold einsum. rewrite ED. eexists _, _, _. split; [reflexivity|]. intros threads HP.
    apply (C11_einsum_generic_partial O HR h Ci Ai Bi (fun _ => n) A B C a b c cp ab L threads); auto.
Qed.

Lemma same_blocks_ok : forall (r r' : nat) t u sizes, bt_ok r t sizes -> bt_ok r' u sizes -> (0 < r)%nat -> (0 < r')%nat ->
  same_blocks t u = true.
Proof.
  intros r r' t u sizes OT OU Hr Hr'.
  assert (E : forall q v, bt_ok q v sizes -> (0 < q)%nat -> block_dims v = sizes).
  { intros q v OV Hq. unfold block_dims. assert (LV : length (bt_blocks v) = length sizes) by apply OV.
    apply nth_ext with (d := 0) (d' := 0); [now rewrite map_length|]. intros k Hk. rewrite map_length, LV in Hk.
    destruct (bt_block q v sizes k OV Hk) as (d & Ed & Dd & _).
    apply nth_error_nth. rewrite nth_error_map, Ed. simpl. f_equal. unfold tdim. rewrite Dd.
    destruct q; [lia|reflexivity]. }
  unfold same_blocks. rewrite (E r t), (E r' u) by auto.
  replace (length (bt_blocks t)) with (length sizes) by (symmetry; apply OT).
  replace (length (bt_blocks u)) with (length sizes) by (symmetry; apply OU).
  rewrite Nat.eqb_refl. destruct (list_eq_dec Z.eq_dec sizes sizes); [reflexivity|congruence].
Qed.

Lemma length_pos : forall X (l : list X) x, In x l -> (0 < length l)%nat.
Proof. intros X [|y l] x H; [destruct H|simpl; lia]. Qed.

Lemma block_local : forall (O : Ops) sizes (f : nat -> list Z -> car O) I k (e : nat -> Z), Forall (fun n => 0 <= n) sizes ->
  (k < length sizes)%nat -> I <> [] -> (forall l, In l I -> 0 <= e l < nth k sizes 0) ->
  dense sizes f (map (fun l => off sizes k + e l) I) = f k (map e I).
Proof.
  intros O sizes f I k e HN Hk Hne He. rewrite (dense_in O sizes f _ k); auto.
  - now rewrite shift_map.
  - intros E. apply map_eq_nil in E. auto.
  - apply in_blk_shift; auto.
Qed.

(** ** C44, block result.  Every pattern whose dense calls are right (see
    [path_ok]) and in which A and B share a label (the call does not compile
    otherwise) and no label is only in C. *)
Theorem C44_block_partial :
  forall (O : Ops) (HR : is_ring O) (h : heap (car O)) sizes Ci Ai Bi L A B C a b c cp ab order,
  labels L Ci Ai Bi -> (exists s, In s Ai /\ In s Bi) -> Ci <> [] -> incl Ci (Ai ++ Bi) ->
  path_ok L Ci Ai Bi cp sizes ->
  Forall (fun n => n < 2 ^ 31) sizes ->
  bt_ok (length Ai) A sizes -> bt_ok (length Bi) B sizes -> bt_ok (length Ci) C sizes ->
  bt_holds h A a -> bt_holds h B b -> bt_holds h C c -> bt_sep C -> bt_disj C A -> bt_disj C B ->
  Permutation order (seq 0 (length sizes)) ->
  exists h', block_einsum (mkEin Ci Ai Bi) cp C ab A B order h = Ok h' /\
    block_result sizes Ci Ai Bi L cp ab C (dense sizes a) (dense sizes b) c h h'.
Proof.
  intros O HR h sizes Ci Ai Bi L A B C a b c cp ab order Hlab (s & SA & SB) Hne HCi Hpath Hbig OA OB OC HA HB HC SC DCA DCB HP.
  assert (HN : Forall (fun n => 0 <= n) sizes) by (destruct OA; auto).
  assert (Hin : forall k, In k order -> (k < length sizes)%nat).
  { intros k Hk. apply (Permutation_in _ HP), in_seq in Hk. lia. }
  assert (PA := length_pos _ _ _ SA). assert (PB := length_pos _ _ _ SB).
  assert (PC : (0 < length Ci)%nat) by (destruct Ci; [congruence|simpl; lia]).
  assert (G : forall f, (forall k d h1, (k < length sizes)%nat -> nth_error (bt_blocks C) k = Some d ->
       (forall z, cell d z \/ ~ bt_cell C z -> h1 z = h z) ->
       exists h2, f k h1 = Ok h2 /\
         einsum_result (fun _ => nth k sizes 0) Ci Ai Bi L cp ab d (a k) (b k) (c k) h1 h2) ->
     exists h', forM order f h = Ok h' /\ block_result sizes Ci Ai Bi L cp ab C (dense sizes a) (dense sizes b) c h h').
  { intros f Hf. apply (block_loop_ok HR) with (aK := a) (bK := b); auto.
    - apply Hlab.
    - apply (supp_two O HR sizes Ai Bi a b s); auto.
    - intros k e Hk He. split; apply block_local; auto; try (intros ->; simpl in *; lia);
        intros l Hl; apply He; apply in_app_iff; auto. }
  assert (Hdense : forall k dA dB dC h1, (k < length sizes)%nat ->
     nth_error (bt_blocks A) k = Some dA -> nth_error (bt_blocks B) k = Some dB -> nth_error (bt_blocks C) k = Some dC ->
     (forall z, cell dC z \/ ~ bt_cell C z -> h1 z = h z) ->
     einsum_spec (einsum (mkEin Ci Ai Bi) false true true true false false cp dC ab dA dB h1)
       (einsum_result (fun _ => nth k sizes 0) Ci Ai Bi L cp ab dC (a k) (b k) (c k) h1)).
  { intros k dA dB dC h1 Hk EA EB EC Hag.
    destruct OA as (_ & _ & OA & _), OB as (_ & _ & OB & _), OC as (_ & _ & OC & _).
    destruct (OA k dA EA) as (A1 & A2), (OB k dB EB) as (B1 & B2), (OC k dC EC) as (C1 & C2).
    assert (Hnth : In (nth k sizes 0) sizes) by (apply nth_In; auto).
    apply (dense_block_ok O HR h1 Ci Ai Bi L dA dB dC (nth k sizes 0) _ _ _ cp ab sizes); auto.
    - rewrite Forall_forall in Hbig, HN. auto.
    - intros idx Hi. rewrite Hag; [apply (HA k dA EA); auto|]. right. intros (j & d & Ed & (p & Hp & Ep)).
      apply (DCA j k d dA Ed EA p idx); auto.
    - intros idx Hi. rewrite Hag; [apply (HB k dB EB); auto|]. right. intros (j & d & Ed & (p & Hp & Ep)).
      apply (DCB j k d dB Ed EB p idx); auto.
    - intros idx Hi. rewrite Hag; [apply (HC k dC EC); auto|]. left. exists idx; auto.
    - apply (DCA k k); auto.
    - apply (DCB k k); auto. }
  unfold block_einsum. destruct (element_wise_multiplication (mkEin Ci Ai Bi)) eqn:EW.
  - assert (EP : forall x y z, dispatch (mkEin Ci Ai Bi) false x y z = PElementwise).
    { intros. apply path_cases. split; auto. apply dot_ne. auto. }
    unfold bt_direct_product. apply G. intros k dC h1 Hk EC Hag.
    destruct (bt_block _ A sizes k OA Hk) as (dA & EA & D1 & _).
    destruct (bt_block _ B sizes k OB Hk) as (dB & EB & D2 & _). rewrite EA, EB, EC.
    destruct (Z.eqb_spec (tdim dA 0) 0) as [Ez|Ez].
    + exists h1. split; auto. split; [|auto]. intros env He. exfalso.
      assert (Ezz : nth k sizes 0 = 0).
      { unfold tdim in Ez. rewrite D1 in Ez. destruct Ai; [simpl in PA; lia|]. simpl in Ez. auto. }
      destruct Ci as [|x Ci']; [congruence|]. specialize (He x (or_introl eq_refl)). lia.
    + apply plan_run_spec. specialize (Hdense k dA dB dC h1 Hk EA EB EC Hag). unfold einsum in Hdense. rewrite EP in Hdense. auto.
  - unfold block_special. rewrite (same_blocks_ok _ _ A B sizes OA OB), (same_blocks_ok _ _ A C sizes OA OC) by auto.
    cbn [andb negb]. apply G. intros k dC h1 Hk EC Hag.
    destruct (bt_block _ A sizes k OA Hk) as (dA & EA & _).
    destruct (bt_block _ B sizes k OB Hk) as (dB & EB & _). rewrite EA, EB, EC.
    apply plan_run_spec. apply Hdense; auto.
Qed.
Print Assumptions C44_block_partial.

(** Different block structures are rejected before anything is written (the
    element-wise pattern is not checked: it goes to [direct_product]). *)
Theorem C44_structure :
  forall (O : Ops) e (cp ab : car O) A B C order h,
  element_wise_multiplication e = false ->
  map (fun d => tdim d 0) (bt_blocks A) <> map (fun d => tdim d 0) (bt_blocks B) \/
  map (fun d => tdim d 0) (bt_blocks A) <> map (fun d => tdim d 0) (bt_blocks C) ->
  block_einsum e cp C ab A B order h = Throw.
Proof.
  intros O e cp ab A B C order h He H. unfold block_einsum. rewrite He. unfold block_special.
  replace (same_blocks A B && same_blocks A C) with false; auto.
  symmetry. apply andb_false_iff. unfold same_blocks, block_dims.
  destruct H as [H|H]; [left|right]; apply andb_false_iff; right;
    match goal with |- (if ?g then _ else _) = _ => destruct g end; auto; contradiction.
Qed.
Print Assumptions C44_structure.

(** ** A plain vector as one operand *)
Lemma vec_slice_ok : forall T (h : heap T) X (x : list Z -> T) n s lo hi, ddims X = [n] -> dstrides X = [s] ->
  0 <= lo -> lo <= hi -> hi <= n -> holds h X x ->
  ddims (vec_slice X (lo, hi)) = [hi - lo] /\ dstrides (vec_slice X (lo, hi)) = [s] /\
  holds h (vec_slice X (lo, hi)) (fun j => x (map (fun p => lo + p) j)) /\
  (forall j, inb j (ddims (vec_slice X (lo, hi))) -> exists p, inb p (ddims X) /\ addr (vec_slice X (lo, hi)) j = addr X p).
Proof.
  intros T h X x n s lo hi DX SX H1 H2 H3 HX.
  assert (E : vec_slice X (lo, hi) = mkDesc (dbase X + (lo * s + 0)) [hi - lo] [s]).
  { unfold vec_slice, slice_ranges. rewrite DX, SX. simpl. rewrite (proj2 (Z.ltb_ge hi 0)) by lia. reflexivity. }
  rewrite E. simpl. split; auto. split; auto.
  assert (A : forall j, inb j [hi - lo] -> inb (map (fun p => lo + p) j) (ddims X) /\
     addr (mkDesc (dbase X + (lo * s + 0)) [hi - lo] [s]) j = addr X (map (fun p => lo + p) j)).
  { intros j Hj. inversion Hj as [|y ? ? ? Hy Hr]; subst. inversion Hr; subst. rewrite DX. split.
    - simpl. repeat constructor; lia.
    - unfold addr. rewrite SX. simpl. lia. }
  split.
  - intros j Hj. destruct (A j Hj) as (A1 & A2). rewrite A2. auto.
  - intros j Hj. destruct (A j Hj) as (A1 & A2). eauto.
Qed.

Lemma dispatch_slice : forall e fA fB fC, dot_product e = false -> element_wise_multiplication e = false ->
  fA = false \/ fB = false -> dispatch e false fA fB fC = PGeneric.
Proof.
  intros e fA fB fC H1 H2 H3. unfold dispatch. rewrite H1, H2.
  assert (negb fA || negb fB = true) as E1 by (destruct H3 as [-> | ->]; simpl; auto using orb_true_r).
  assert (negb fC || negb fA || negb fB = true) as E2 by (destruct H3 as [-> | ->]; rewrite ?orb_true_r; auto).
  rewrite E1, E2. destruct (outer_product e); auto. destruct (is_gemv_possible e); auto.
  match goal with |- (if ?g then _ else _) = _ => destruct g end; auto.
Qed.

Lemma generic_block_ok : forall (O : Ops) (HR : is_ring O) (h : heap (car O)) Ci Ai Bi L A B C n a b c cp ab
    s fA fB fC vA vB,
  labels L Ci Ai Bi -> (forall l, In l L -> count_occ Nat.eq_dec Ai l = 1%nat) -> 0 <= n < 2 ^ 31 ->
  dispatch (mkEin Ci Ai Bi) s fA fB fC = PGeneric ->
  ddims A = repeat n (length Ai) -> ddims B = repeat n (length Bi) -> ddims C = repeat n (length Ci) -> inj C ->
  holds h A a -> holds h B b -> holds h C c -> disj C A -> disj C B ->
  einsum_spec (einsum (mkEin Ci Ai Bi) s fA fB fC vA vB cp C ab A B h)
    (einsum_result (fun _ => n) Ci Ai Bi L cp ab C a b c h).
Proof.
  intros O HR h Ci Ai Bi L A B C n a b c cp ab s fA fB fC vA vB (Hlab & HL) Hone Hn HD DA DB DC IC HA HB HC SA SB.
  assert (Rep : forall X (l : list X), repeat n (length l) = map (fun _ => n) l) by (induction l; simpl; f_equal; auto).
  rewrite Rep in DA, DB, DC.
  unfold einsum. rewrite HD. eexists _, _, _. split; [reflexivity|]. intros threads HP.
  apply (C11_einsum_generic_partial O HR h Ci Ai Bi (fun _ => n) A B C a b c cp ab L threads); auto.
Qed.

Lemma supp_left : forall (O : Ops) (HR : is_ring O) sizes Ai Bi (a : nat -> list Z -> car O) b,
  incl Bi Ai -> supp sizes (Ai ++ Bi) (fun e => omul (dense sizes a (map e Ai)) (b (map e Bi))).
Proof.
  intros O HR sizes Ai Bi a b HI env H.
  destruct (in_blk_dec sizes (map env Ai)) as [(i & Hi)|Hi]; [|rewrite dense_out by auto; apply (omul_0_l HR)].
  exfalso. apply (H i). destruct Hi as (Hk & Hi). split; auto. rewrite map_app. apply Forall_app. split; auto.
  rewrite Forall_forall in *. intros x Hx. apply Hi. apply in_map_iff in Hx as (l & <- & Hl). apply in_map. auto.
Qed.
Lemma supp_right : forall (O : Ops) (HR : is_ring O) sizes Ai Bi a (b : nat -> list Z -> car O),
  incl Ai Bi -> supp sizes (Ai ++ Bi) (fun e => omul (a (map e Ai)) (dense sizes b (map e Bi))).
Proof.
  intros O HR sizes Ai Bi a b HI env H.
  destruct (in_blk_dec sizes (map env Bi)) as [(i & Hi)|Hi]; [|rewrite (dense_out O sizes b) by auto; apply (omul_0_r HR)].
  exfalso. apply (H i). destruct Hi as (Hk & Hi). split; auto. rewrite map_app. apply Forall_app. split; auto.
  rewrite Forall_forall in *. intros x Hx. apply Hi. apply in_map_iff in Hx as (l & <- & Hl). apply in_map. auto.
Qed.

Lemma bt_inj : forall r t sizes k d, bt_ok r t sizes -> nth_error (bt_blocks t) k = Some d -> inj d.
Proof.
  intros r t sizes k d (_ & _ & OC & _) E. destruct (OC k d E) as (D1 & D2).
  apply contiguous_rowmaj in D2. intros i j Hi Hj Ha. unfold addr in Ha. rewrite D2 in Ha.
  apply (rm_inj 0 (ddims d)); auto. unfold addr. simpl. lia.
Qed.

Lemma bt_range : forall r t sizes k, bt_ok r t sizes -> (k < length sizes)%nat ->
  nth_error (bt_ranges t) k = Some (off sizes k, off sizes (S k)).
Proof.
  intros r t sizes k (_ & _ & _ & (T1 & T2 & _)) Hk. rewrite <- (T2 k Hk). apply nth_error_nth'. lia.
Qed.

(** A block of C and the vector. *)
Definition disj_vec (C : bt) (X : desc) : Prop := forall k d, nth_error (bt_blocks C) k = Some d -> disj d X.

(** Matrix-vector-like contractions with a plain vector X(v): if v is a label of
    the block operand too, the result is that of the dense tensors.  (If v is
    only a label of C, the true result is not block diagonal:
    [C44_vector_outer_refuted].)  X may be strided. *)
Theorem C44_block_vec_partial :
  forall (O : Ops) (HR : is_ring O) (h : heap (car O)) sizes Ci Ai (v : nat) L A X C a x c cp ab s order,
  labels L Ci Ai [v] -> In v Ai -> Ci <> [] -> incl Ci Ai -> element_wise_multiplication (mkEin Ci Ai [v]) = false ->
  (forall l, In l L -> count_occ Nat.eq_dec Ai l = 1%nat) ->
  Forall (fun n => n < 2 ^ 31) sizes ->
  bt_ok (length Ai) A sizes -> bt_ok (length Ci) C sizes -> ddims X = [bt_dim A] -> dstrides X = [s] ->
  bt_holds h A a -> holds h X x -> bt_holds h C c -> bt_sep C -> bt_disj C A -> disj_vec C X ->
  Permutation order (seq 0 (length sizes)) ->
  exists h', block_vec (mkEin Ci Ai [v]) cp C ab A X order h = Ok h' /\
    block_result sizes Ci Ai [v] L cp ab C (dense sizes a) x c h h'.
Proof.
  intros O HR h sizes Ci Ai v L A X C a x c cp ab s order Hlab Hv Hne HCi HE Hone Hbig OA OC DX SX HA HX HC SC DCA DCX HP.
  assert (HN : Forall (fun n => 0 <= n) sizes) by (destruct OA; auto).
  assert (PA := length_pos _ _ _ Hv). assert (PC : (0 < length Ci)%nat) by (destruct Ci; [congruence|simpl; lia]).
  assert (DA : bt_dim A = off sizes (length sizes)) by (destruct OA as (_ & _ & _ & _ & _ & E); auto).
  rewrite DA in DX.
  unfold block_vec. rewrite (same_blocks_ok _ _ A C sizes OA OC) by auto. cbn [negb].
  apply (block_loop_ok HR) with (aK := a) (bK := fun k j => x (map (fun p => off sizes k + p) j)); auto.
  - apply Hlab.
  - intros l Hl. apply in_app_iff. auto.
  - apply (supp_left O HR). intros l [<-|[]]. auto.
  - intros k e Hk He. split.
    + apply block_local; auto; [intros ->; simpl in *; lia|]. intros l Hl. apply He, in_app_iff. auto.
    + now rewrite map_map.
  - intros k dC h1 Hk EC Hag. destruct (bt_block _ A sizes k OA Hk) as (dA & EA & D1 & _).
    rewrite EA, EC, (bt_range _ A sizes k OA Hk). destruct (off_bounds sizes k HN Hk) as (B1 & B2 & B3 & B4).
    destruct (Z.eqb_spec (tdim dA 0) 0) as [Ez|Ez].
    + exists h1. split; auto. split; [|auto]. intros env He. exfalso.
      assert (Ezz : nth k sizes 0 = 0).
      { unfold tdim in Ez. rewrite D1 in Ez. destruct Ai; [simpl in PA; lia|]. simpl in Ez. auto. }
      destruct Ci as [|q Ci']; [congruence|]. specialize (He q (or_introl eq_refl)). lia.
    + destruct OC as (OC1 & OC2 & OC3 & OC4). destruct (OC3 k dC EC) as (DC & KC).
      assert (HX1 : holds h1 X x).
      { intros idx Hi. rewrite Hag; [apply HX; auto|]. right. intros (j & d & Ed & (p & Hp & Ep)).
        apply (DCX j d Ed p idx); auto. }
      destruct (vec_slice_ok _ h1 X x _ s (off sizes k) (off sizes (S k)) DX SX) as (V1 & V2 & V3 & V4); auto; try lia.
      apply plan_run_spec. apply (generic_block_ok O HR); auto.
      * rewrite Forall_forall in Hbig, HN. split; [auto|apply Hbig, nth_In; auto].
      * apply dispatch_slice; auto. apply dot_ne; auto.
      * rewrite V1. simpl. do 2 f_equal. lia.
      * apply (bt_inj (length Ci) C sizes k); [|auto]. repeat (split; auto).
      * intros idx Hi. rewrite Hag; [apply (HA k dA EA); auto|]. right. intros (j & d & Ed & (p & Hp & Ep)).
        apply (DCA j k d dA Ed EA p idx); auto.
      * intros idx Hi. rewrite Hag; [apply (HC k dC EC); auto|]. left. exists idx; auto.
      * apply (DCA k k); auto.
      * intros i j Hi Hj Ea. destruct (V4 j Hj) as (p & Hp & Ep). apply (DCX k dC EC i p); auto. congruence.
Qed.
Print Assumptions C44_block_vec_partial.

Theorem C44_vec_block_partial :
  forall (O : Ops) (HR : is_ring O) (h : heap (car O)) sizes Ci (v : nat) Bi L X B C x b c cp ab s order,
  labels L Ci [v] Bi -> In v Bi -> Ci <> [] -> incl Ci Bi -> element_wise_multiplication (mkEin Ci [v] Bi) = false ->
  Forall (fun n => n < 2 ^ 31) sizes ->
  bt_ok (length Bi) B sizes -> bt_ok (length Ci) C sizes -> ddims X = [bt_dim B] -> dstrides X = [s] ->
  holds h X x -> bt_holds h B b -> bt_holds h C c -> bt_sep C -> bt_disj C B -> disj_vec C X ->
  Permutation order (seq 0 (length sizes)) ->
  exists h', vec_block (mkEin Ci [v] Bi) cp C ab X B order h = Ok h' /\
    block_result sizes Ci [v] Bi L cp ab C x (dense sizes b) c h h'.
Proof.
  intros O HR h sizes Ci v Bi L X B C x b c cp ab s order Hlab Hv Hne HCi HE Hbig OB OC DX SX HX HB HC SC DCB DCX HP.
  assert (HN : Forall (fun n => 0 <= n) sizes) by (destruct OB; auto).
  assert (PB := length_pos _ _ _ Hv). assert (PC : (0 < length Ci)%nat) by (destruct Ci; [congruence|simpl; lia]).
  assert (DB : bt_dim B = off sizes (length sizes)) by (destruct OB as (_ & _ & _ & _ & _ & E); auto).
  rewrite DB in DX.
  assert (Hone : forall l, In l L -> count_occ Nat.eq_dec [v] l = 1%nat).
  { intros l Hl. destruct Hlab as (H1 & (_ & H2)). apply H2 in Hl as (Hl & Hn). destruct (H1 l Hl) as [|([<-|[]] & _)]; [tauto|].
    simpl. destruct (Nat.eq_dec v v); congruence. }
  unfold vec_block. rewrite (same_blocks_ok _ _ B C sizes OB OC) by auto. cbn [negb].
  apply (block_loop_ok HR) with (aK := fun k j => x (map (fun p => off sizes k + p) j)) (bK := b); auto.
  - apply Hlab.
  - intros l Hl. apply in_app_iff. auto.
  - apply (supp_right O HR). intros l [<-|[]]. auto.
  - intros k e Hk He. split.
    + now rewrite map_map.
    + apply block_local; auto; [intros ->; simpl in *; lia|]. intros l Hl. apply He, in_app_iff. auto.
  - intros k dC h1 Hk EC Hag. destruct (bt_block _ B sizes k OB Hk) as (dB & EB & D1 & _).
    rewrite EB, EC, (bt_range _ B sizes k OB Hk). destruct (off_bounds sizes k HN Hk) as (B1 & B2 & B3 & B4).
    destruct (Z.eqb_spec (tdim dB 0) 0) as [Ez|Ez].
    + exists h1. split; auto. split; [|auto]. intros env He. exfalso.
      assert (Ezz : nth k sizes 0 = 0).
      { unfold tdim in Ez. rewrite D1 in Ez. destruct Bi; [simpl in PB; lia|]. simpl in Ez. auto. }
      destruct Ci as [|q Ci']; [congruence|]. specialize (He q (or_introl eq_refl)). lia.
    + destruct OC as (OC1 & OC2 & OC3 & OC4). destruct (OC3 k dC EC) as (DC & KC).
      assert (HX1 : holds h1 X x).
      { intros idx Hi. rewrite Hag; [apply HX; auto|]. right. intros (j & d & Ed & (p & Hp & Ep)).
        apply (DCX j d Ed p idx); auto. }
      destruct (vec_slice_ok _ h1 X x _ s (off sizes k) (off sizes (S k)) DX SX) as (V1 & V2 & V3 & V4); auto; try lia.
      apply plan_run_spec. apply (generic_block_ok O HR); auto.
      * rewrite Forall_forall in Hbig, HN. split; [auto|apply Hbig, nth_In; auto].
      * apply dispatch_slice; auto. apply dot_ne; auto.
      * rewrite V1. simpl. do 2 f_equal. lia.
      * apply (bt_inj (length Ci) C sizes k); [|auto]. repeat (split; auto).
      * intros idx Hi. rewrite Hag; [apply (HB k dB EB); auto|]. right. intros (j & d & Ed & (p & Hp & Ep)).
        apply (DCB j k d dB Ed EB p idx); auto.
      * intros idx Hi. rewrite Hag; [apply (HC k dC EC); auto|]. left. exists idx; auto.
      * intros i j Hi Hj Ea. destruct (V4 j Hj) as (p & Hp & Ep). apply (DCX k dC EC i p); auto. congruence.
      * apply (DCB k k); auto.
Qed.
Print Assumptions C44_vec_block_partial.

(** ** Scalar results *)
Section Scalar.
  Context {O : Ops} (HR : is_ring O).
  Notation T := (car O).
  Add Ring ORing : (ir_rt O HR).

  Lemma scalar_loop_ok : forall (call : nat -> desc -> heap T -> res (option (heap T))) (Ca tmp : Z) cp threads h c0 n (g : nat -> T),
    h Ca = Some c0 -> h tmp = None ->
    (forall k h1, (k < n)%nat -> (forall z, z <> Ca -> z <> tmp -> h1 z = h z) -> h1 tmp <> None ->
       (call k (mkDesc tmp [] []) h1 = Ok None /\ g k = o0) \/
       exists h2, call k (mkDesc tmp [] []) h1 = Ok (Some h2) /\ h2 tmp = Some (g k) /\ forall z, z <> tmp -> h2 z = h1 z) ->
    Permutation (concat threads) (seq 0 n) ->
    exists h', scalar_loop call Ca cp tmp threads h = Ok h' /\
      h' Ca = Some (oadd (omul cp c0) (oadd (omul cp c0) (lsum (seq 0 n) g))) /\ (forall z, z <> Ca -> h' z = h z).
  Proof.
    intros call Ca tmp cp threads h c0 n g HC Htmp Hcall HP.
    assert (Hne : tmp <> Ca) by congruence.
    unfold scalar_loop, rd, wr. rewrite HC. cbn [bind].
    set (c1 := if oeqb cp o0 then o0 else omul c0 cp).
    assert (Ec1 : c1 = omul cp c0).
    { unfold c1. destruct (oeqb cp o0) eqn:E; [|ring]. apply (ir_eqb O HR) in E. subst. ring. }
    set (h1 := upd h Ca c1).
    assert (H1 : h1 Ca = Some c1) by (unfold h1, upd; now rewrite Z.eqb_refl).
    assert (H1' : forall z, z <> Ca -> h1 z = h z) by (intros; apply upd_other; auto).
    assert (HS : forall share s0 (hh : heap T), (forall k, In k share -> (k < n)%nat) -> (forall z, hh z = h1 z) ->
      exists hh', forM share (scalar_block call c1 tmp) (s0, hh) = Ok (oadd s0 (lsum share g), hh') /\ forall z, hh' z = h1 z).
    { induction share as [|k share IH]; intros s0 hh Hk Hh.
      - simpl. exists hh. split; auto. unfold lsum. simpl. f_equal. f_equal. ring.
      - simpl. unfold scalar_block at 1. cbn [fst snd].
        destruct (Hcall k (upd hh tmp c1)) as [(-> & Eg)|(h2 & -> & E1 & E2)].
        + apply Hk; simpl; auto.
        + intros z Z1 Z2. rewrite upd_other by auto. rewrite Hh. auto.
        + unfold upd. rewrite Z.eqb_refl. discriminate.
        + cbn [bind]. destruct (IH s0 hh) as (hh' & E & F); [intros; apply Hk; simpl; auto|auto|].
          exists hh'. split; auto. rewrite E. f_equal. f_equal. change (lsum (k :: share) g) with (oadd (g k) (lsum share g)). rewrite Eg. ring.
        + cbn [bind]. unfold rd. rewrite E1. cbn [bind].
          destruct (IH (oadd s0 (g k)) (fun z => if z =? tmp then None else h2 z)) as (hh' & E & F).
          * intros; apply Hk; simpl; auto.
          * intros z. destruct (Z.eqb_spec z tmp) as [->|Hz].
            -- rewrite H1' by auto. auto.
            -- rewrite E2 by auto. rewrite upd_other by auto. auto.
          * exists hh'. split; auto. change (Z -> option T) with (heap T) in *. etransitivity; [exact E|]. f_equal. f_equal. change (lsum (k :: share) g) with (oadd (g k) (lsum share g)). ring. }
    assert (HT : forall ths s0 (hh : heap T), (forall k, In k (concat ths) -> (k < n)%nat) -> (forall z, hh z = h1 z) ->
      exists hh', forM ths (fun share s => p <- forM share (scalar_block call c1 tmp) (o0, snd s) ;; Ok (oadd (fst s) (fst p), snd p)) (s0, hh)
        = Ok (oadd s0 (lsum (concat ths) g), hh') /\ forall z, hh' z = h1 z).
    { induction ths as [|share ths IH]; intros s0 hh Hk Hh.
      - simpl. exists hh. split; auto. unfold lsum. simpl. f_equal. f_equal. ring.
      - simpl. destruct (HS share o0 hh) as (hh' & E & F); auto.
        { intros k Hi. apply Hk. simpl. apply in_app_iff. auto. }
        cbn [fst snd]; rewrite E. cbn [bind fst snd]. destruct (IH (oadd s0 (oadd o0 (lsum share g))) hh') as (hh2 & E2 & F2); auto.
        { intros k Hi. apply Hk. simpl. apply in_app_iff. auto. }
        exists hh2. split; auto. rewrite E2. f_equal. f_equal. rewrite (lsum_app O HR). ring. }
    destruct (HT threads c1 h1) as (hh & E & F); auto.
    { intros k Hk. apply (Permutation_in _ HP), in_seq in Hk. lia. }
    rewrite E. cbn [bind fst snd]. rewrite F, H1. cbn [bind]. eexists. split; [reflexivity|]. split.
    - unfold upd. rewrite Z.eqb_refl. f_equal. rewrite (lsum_perm O HR _ _ _ g HP). rewrite Ec1. ring.
    - intros z Hz. rewrite upd_other by auto. rewrite F. auto.
  Qed.

  (** The Einstein sum over all labels is the sum over the blocks. *)
  Lemma scalar_sum : forall sizes Ai Bi L (a b : list Z -> T) (aK bK : nat -> list Z -> T) env,
    Forall (fun n => 0 <= n) sizes -> labels L [] Ai Bi -> Ai <> [] ->
    supp sizes (Ai ++ Bi) (fun e => omul (a (map e Ai)) (b (map e Bi))) ->
    (forall k e, (k < length sizes)%nat -> (forall l, In l (Ai ++ Bi) -> 0 <= e l < nth k sizes 0) ->
       a (map (fun l => off sizes k + e l) Ai) = aK k (map e Ai) /\ b (map (fun l => off sizes k + e l) Bi) = bK k (map e Bi)) ->
    einstein L Ai Bi (fun _ => off sizes (length sizes)) a b env =
    lsum (seq 0 (length sizes)) (fun k => einstein L Ai Bi (fun _ => nth k sizes 0) (aK k) (bK k) env).
  Proof.
    intros sizes Ai Bi L a b aK bK env HN (Hlab & (ND & HL)) HA HS Hloc. unfold einstein.
    assert (HI : forall l, In l (Ai ++ Bi) <-> In l L).
    { intros l. rewrite in_app_iff, HL. simpl. tauto. }
    rewrite (sum_blocks HR sizes HN).
    - apply lsum_ext. intros k Hk. apply in_seq in Hk. apply Sum_over_cong. intros e e' Q1 Q2 Q3.
      destruct (Hloc k e ltac:(lia)) as (-> & ->).
      + intros l Hl. apply HI in Hl. apply Q1; auto.
      + f_equal; f_equal; apply map_ext_in; intros l Hl; apply Q1; apply HI, in_app_iff; auto.
    - intros e e' He. f_equal; f_equal; apply map_ext_in; intros l Hl; apply He; apply HI, in_app_iff; auto.
    - intros e He. apply HS. intros k (Hk & HF). apply (He k). split; auto. rewrite Forall_forall in *.
      intros x Hx. apply HF. apply in_map_iff in Hx as (l & <- & Hl). apply in_map. now apply HI.
    - auto.
    - intros ->. destruct Ai as [|l Ai]; [congruence|]. apply (HI l). simpl; auto.
  Qed.

  Lemma einstein_empty : forall L Ai Bi (a b : list Z -> T) env, L <> [] ->
    einstein L Ai Bi (fun _ => 0) a b env = o0.
  Proof. intros [|l L] Ai Bi a b env H; [congruence|]. reflexivity. Qed.
End Scalar.

Lemma dispatch_scalar : forall e fA fB fC, dot_product e = false -> eC e = [] -> eA e <> [] ->
  dispatch e true fA fB fC = PGeneric.
Proof.
  intros e fA fB fC H1 H2 H3. unfold dispatch. rewrite H1.
  replace (element_wise_multiplication e) with false; auto. symmetry.
  unfold element_wise_multiplication. rewrite H2. destruct (eA e); [congruence|]. simpl. reflexivity.
Qed.

Definition scalar_at (z : Z) : desc := mkDesc z [] [].

Lemma scalar_call_ok : forall (O : Ops) (HR : is_ring O) (h1 : heap (car O)) Ai Bi L dA dB n a b ab fA fB vA vB tmp,
  labels L [] Ai Bi -> (forall l, In l L -> count_occ Nat.eq_dec Ai l = 1%nat) -> 0 <= n < 2 ^ 31 ->
  dispatch (mkEin [] Ai Bi) true fA fB true = PGeneric ->
  ddims dA = repeat n (length Ai) -> ddims dB = repeat n (length Bi) ->
  holds h1 dA a -> holds h1 dB b -> ~ cell dA tmp -> ~ cell dB tmp -> h1 tmp <> None ->
  exists h2, plan_run (einsum (mkEin [] Ai Bi) true fA fB true vA vB o0 (scalar_at tmp) ab dA dB h1) = Ok h2 /\
    (forall env, h2 tmp = Some (omul ab (einstein L Ai Bi (fun _ => n) a b env))) /\ (forall z, z <> tmp -> h2 z = h1 z).
Proof.
  intros O HR h1 Ai Bi L dA dB n a b ab fA fB vA vB tmp Hlab Hone Hn HD DA DB HA HB NA NB Ht.
  destruct (h1 tmp) as [v|] eqn:Ev; [|congruence].
  destruct (plan_run_spec O (einsum (mkEin [] Ai Bi) true fA fB true vA vB o0 (scalar_at tmp) ab dA dB h1)
     (einsum_result (fun _ => n) [] Ai Bi L o0 ab (scalar_at tmp) a b (fun _ => v) h1)) as (h2 & E & R1 & R2).
  { apply (generic_block_ok O HR); auto.
    - intros i j Hi Hj _. inversion Hi. inversion Hj. auto.
    - intros idx Hi. simpl in Hi. inversion Hi. unfold addr. simpl. rewrite Z.add_0_r. auto.
    - intros i j Hi Hj Ea. simpl in Hi. inversion Hi; subst. apply NA. exists j. split; auto. rewrite <- Ea. unfold addr. simpl. lia.
    - intros i j Hi Hj Ea. simpl in Hi. inversion Hi; subst. apply NB. exists j. split; auto. rewrite <- Ea. unfold addr. simpl. lia. }
  exists h2. split; auto. assert (At : forall env : nat -> Z, addr (scalar_at tmp) (map env []) = tmp) by (intros; unfold addr; simpl; lia).
  split.
  - intros env. specialize (R1 env). rewrite At in R1. rewrite R1 by (intros l []). f_equal. rewrite (omul_0_l HR).
    apply (Radd_0_l (ir_rt O HR)).
  - intros z Hz. apply R2. intros env _. rewrite At. auto.
Qed.

(** What the code computes for a scalar result when it does not use [dot]:
    cp*C is counted twice. *)
Theorem C44_scalar_exact :
  forall (O : Ops) (HR : is_ring O) (h : heap (car O)) sizes Ai Bi L A B (Ca tmp : Z) a b c0 cp ab threads env,
  labels L [] Ai Bi -> Ai <> [] -> (forall l, In l L -> count_occ Nat.eq_dec Ai l = 1%nat) ->
  dot_product (mkEin [] Ai Bi) = false ->
  Forall (fun n => n < 2 ^ 31) sizes -> bt_ok (length Ai) A sizes -> bt_ok (length Bi) B sizes ->
  bt_holds h A a -> bt_holds h B b -> h Ca = Some c0 -> ~ bt_cell A Ca -> ~ bt_cell B Ca -> h tmp = None ->
  Permutation (concat threads) (seq 0 (length sizes)) ->
  exists h', block_scalar (mkEin [] Ai Bi) cp Ca ab A B tmp threads h = Some (Ok h') /\
    h' Ca = Some (oadd (omul cp c0) (oadd (omul cp c0)
              (omul ab (einstein L Ai Bi (fun _ => off sizes (length sizes)) (dense sizes a) (dense sizes b) env)))) /\
    (forall z, z <> Ca -> h' z = h z).
Proof.
  intros O HR h sizes Ai Bi L A B Ca tmp a b c0 cp ab threads env Hlab Hne Hone HD Hbig OA OB HA HB HC NA NB Ht HP.
  assert (HN : Forall (fun n => 0 <= n) sizes) by (destruct OA; auto).
  destruct Ai as [|s Ai']; [congruence|]. set (Ai := s :: Ai') in *.
  assert (SA : In s Ai) by (simpl; auto).
  assert (SB : In s Bi). { destruct Hlab as (H1 & _). destruct (H1 s (or_introl SA)) as [[]|(_ & G)]; auto. }
  assert (PA := length_pos _ _ _ SA). assert (PB := length_pos _ _ _ SB).
  unfold block_scalar. rewrite HD. unfold block_scalar_special.
  rewrite (same_blocks_ok _ _ A B sizes OA OB) by auto. cbn [negb].
  edestruct (scalar_loop_ok HR) with (g := fun k => omul ab (einstein L Ai Bi (fun _ => nth k sizes 0) (a k) (b k) env))
    (n := length sizes) (Ca := Ca) (tmp := tmp) (cp := cp) (threads := threads) (h := h) as (h' & E & E1 & E2); eauto.
  2:{ exists h'. split; [f_equal; exact E|]. split; auto. rewrite E1. do 3 f_equal.
      rewrite (lsum_mul_l O HR). f_equal. symmetry. apply (scalar_sum HR); auto.
      - apply (supp_two O HR sizes Ai Bi a b s); auto.
      - intros k e Hk He. split; apply block_local; auto; try discriminate; try (intros ->; simpl in *; lia);
          intros l Hl; apply He; apply in_app_iff; auto. }
  intros k h1 Hk Hag Ht1. destruct (bt_block _ A sizes k OA Hk) as (dA & EA & D1 & _).
  destruct (bt_block _ B sizes k OB Hk) as (dB & EB & D2 & _). cbv beta. rewrite EA, EB.
  destruct (Z.eqb_spec (tdim dA 0) 0) as [Ez|Ez].
  - left. split; auto. assert (Ezz : nth k sizes 0 = 0) by (unfold tdim in Ez; rewrite D1 in Ez; exact Ez).
    rewrite Ezz, (einstein_empty L); [apply (omul_0_r HR)|].
    intros ->. destruct Hlab as (_ & (_ & G)). destruct (proj2 (G s)). split; auto.
  - right. assert (Al : forall t dt z, (exists f, bt_holds h t f) -> nth_error (bt_blocks t) k = Some dt -> cell dt z -> h z <> None).
    { intros t dt z (f & Hf) Ed (i & Hi & ->). rewrite (Hf k dt Ed i Hi). discriminate. }
    assert (Agr : forall t dt f, bt_holds h t f -> ~ bt_cell t Ca -> nth_error (bt_blocks t) k = Some dt -> holds h1 dt (f k)).
    { intros t dt f Hf Hn Ed idx Hi. rewrite Hag; [apply (Hf k dt Ed idx Hi)| |].
      - intros E0. apply Hn. exists k, dt. split; auto. exists idx; auto.
      - intros E0. apply (Al t dt tmp); eauto. exists idx; auto. }
    assert (In (nth k sizes 0) sizes) by (apply nth_In; auto). rewrite Forall_forall in HN, Hbig.
    destruct (scalar_call_ok O HR h1 Ai Bi L dA dB (nth k sizes 0) (a k) (b k) ab true true false false tmp) as (h2 & F1 & F2 & F3); auto.
    + apply dispatch_scalar; auto.
    + apply (Agr A); auto.
    + apply (Agr B); auto.
    + intros Hc. apply (Al A dA tmp); eauto.
    + intros Hc. apply (Al B dB tmp); eauto.
    + exists h2. unfold scalar_at in F1. rewrite F1. cbn [bind]. auto.
Qed.
Print Assumptions C44_scalar_exact.

(** Right when C is overwritten (prefactor zero). *)
Theorem C44_scalar_partial :
  forall (O : Ops) (HR : is_ring O) (h : heap (car O)) sizes Ai Bi L A B (Ca tmp : Z) a b c0 ab threads env,
  labels L [] Ai Bi -> Ai <> [] -> (forall l, In l L -> count_occ Nat.eq_dec Ai l = 1%nat) ->
  dot_product (mkEin [] Ai Bi) = false ->
  Forall (fun n => n < 2 ^ 31) sizes -> bt_ok (length Ai) A sizes -> bt_ok (length Bi) B sizes ->
  bt_holds h A a -> bt_holds h B b -> h Ca = Some c0 -> ~ bt_cell A Ca -> ~ bt_cell B Ca -> h tmp = None ->
  Permutation (concat threads) (seq 0 (length sizes)) ->
  exists h', block_scalar (mkEin [] Ai Bi) o0 Ca ab A B tmp threads h = Some (Ok h') /\
    h' Ca = Some (omul ab (einstein L Ai Bi (fun _ => off sizes (length sizes)) (dense sizes a) (dense sizes b) env)) /\
    (forall z, z <> Ca -> h' z = h z).
Proof.
  intros O HR h sizes Ai Bi L A B Ca tmp a b c0 ab threads env. intros.
  destruct (C44_scalar_exact O HR h sizes Ai Bi L A B Ca tmp a b c0 o0 ab threads env) as (h' & E & E1 & E2); auto.
  exists h'. split; auto. split; auto. rewrite E1. f_equal. rewrite (omul_0_l HR).
  now rewrite !(Radd_0_l (ir_rt O HR)).
Qed.
Print Assumptions C44_scalar_partial.

(** Same labels in the same order: [dot] is used and the result is right for
    every prefactor. *)
Theorem C44_scalar_dot :
  forall (O : Ops) (HR : is_ring O) (h : heap (car O)) sizes Ai L A B (Ca tmp : Z) a b c0 cp ab threads env,
  contracted L [] Ai Ai -> Ai <> [] -> NoDup Ai ->
  bt_ok (length Ai) A sizes -> bt_ok (length Ai) B sizes ->
  bt_holds h A a -> bt_holds h B b -> h Ca = Some c0 ->
  Permutation (concat threads) (seq 0 (length sizes)) ->
  exists h', block_scalar (mkEin [] Ai Ai) cp Ca ab A B tmp threads h = Some (Ok h') /\
    h' Ca = Some (oadd (omul cp c0)
              (omul ab (einstein L Ai Ai (fun _ => off sizes (length sizes)) (dense sizes a) (dense sizes b) env))) /\
    (forall z, z <> Ca -> h' z = h z).
Proof.
  intros O HR h sizes Ai L A B Ca tmp a b c0 cp ab threads env HL Hne ND OA OB HA HB HC HP.
  assert (HD : dot_product (mkEin [] Ai Ai) = true).
  { unfold dot_product, same_indices. simpl. destruct (list_eq_dec Nat.eq_dec Ai Ai); [|congruence].
    unfold A_hadamard, B_hadamard, C_hadamard. simpl. rewrite !(proj2 (hadamard_NoDup Ai) ND). reflexivity. }
  unfold block_scalar. rewrite HD.
  assert (PA : (0 < length Ai)%nat) by (destruct Ai; [congruence|simpl; lia]).
  rewrite (C48_dot O HR (length Ai) A B sizes a b h (concat threads)) by auto. cbn [bind].
  unfold rd, wr. rewrite HC. cbn [bind].
  assert (E1 : forall v, upd h Ca v Ca = Some v) by (intros; unfold upd; now rewrite Z.eqb_refl).
  rewrite !E1. cbn [bind]. eexists. split; [reflexivity|]. split.
  - unfold upd at 1. rewrite Z.eqb_refl. f_equal. f_equal; [apply (omul_comm HR)|]. f_equal.
    assert (DA : bt_dim A = off sizes (length sizes)) by (destruct OA as (_ & _ & _ & _ & _ & E); auto). rewrite DA.
    unfold einstein. assert (PL : Permutation L Ai).
    { destruct HL as (NL & HL). apply NoDup_Permutation; auto. intros l. rewrite HL. simpl. tauto. }
    rewrite (Sum_over_perm HR L Ai); auto.
    + rewrite (Sum_over_indices HR). replace (repeat (off sizes (length sizes)) (length Ai)) with (map (fun _ : nat => off sizes (length sizes)) Ai).
      * apply lsum_ext. intros ix Hix. apply in_indices, inb_length in Hix. rewrite map_length in Hix.
        rewrite upds_map; auto.
      * clear. induction Ai; simpl; f_equal; auto.
    + intros e1 e2 He. f_equal; f_equal; apply map_ext; auto.
    + destruct HL; auto.
  - intros z Hz. rewrite !upd_other by auto. auto.
Qed.
Print Assumptions C44_scalar_dot.

(** Vector times block tensor with a scalar result (the block tensor then has
    the vector's label in every position, at least twice: C = sum_i X(i)*B(i,i)). *)
Theorem C44_vec_scalar_exact :
  forall (O : Ops) (HR : is_ring O) (h : heap (car O)) sizes (v : nat) Bi L X B (Ca tmp : Z) x b c0 cp ab s threads env,
  labels L [] [v] Bi -> Bi <> [] -> dot_product (mkEin [] [v] Bi) = false ->
  Forall (fun n => n < 2 ^ 31) sizes -> bt_ok (length Bi) B sizes -> ddims X = [bt_dim B] -> dstrides X = [s] ->
  holds h X x -> bt_holds h B b -> h Ca = Some c0 -> ~ cell X Ca -> ~ bt_cell B Ca -> h tmp = None ->
  Permutation (concat threads) (seq 0 (length sizes)) ->
  exists h', vec_block_scalar (mkEin [] [v] Bi) cp Ca ab X B tmp threads h = Ok h' /\
    h' Ca = Some (oadd (omul cp c0) (oadd (omul cp c0)
              (omul ab (einstein L [v] Bi (fun _ => off sizes (length sizes)) x (dense sizes b) env)))) /\
    (forall z, z <> Ca -> h' z = h z).
Proof.
  intros O HR h sizes v Bi L X B Ca tmp x b c0 cp ab s threads env Hlab Hne HD Hbig OB DX SX HX HB HC NX NB Ht HP.
  assert (HN : Forall (fun n => 0 <= n) sizes) by (destruct OB; auto).
  assert (Hv : In v Bi).
  { destruct Bi as [|w Bi']; [congruence|]. destruct Hlab as (H1 & _).
    destruct (H1 w (or_intror (or_introl eq_refl))) as [[]|([<-|[]] & G)]. auto. }
  assert (Hone : forall l, In l L -> count_occ Nat.eq_dec [v] l = 1%nat).
  { intros l Hl. destruct Hlab as (H1 & (_ & H2)). apply H2 in Hl as (Hl & Hn). destruct (H1 l Hl) as [|([<-|[]] & _)]; [tauto|].
    simpl. destruct (Nat.eq_dec v v); congruence. }
  assert (DB : bt_dim B = off sizes (length sizes)) by (destruct OB as (_ & _ & _ & _ & _ & E); auto). rewrite DB in DX.
  unfold vec_block_scalar.
  edestruct (scalar_loop_ok HR) with
    (g := fun k => omul ab (einstein L [v] Bi (fun _ => nth k sizes 0) (fun j => x (map (fun p => off sizes k + p) j)) (b k) env))
    (n := length sizes) (Ca := Ca) (tmp := tmp) (cp := cp) (threads := threads) (h := h) as (h' & E & E1 & E2); eauto.
  2:{ exists h'. split; [exact E|]. split; auto. rewrite E1. do 3 f_equal.
      rewrite (lsum_mul_l O HR). f_equal. symmetry.
      apply (scalar_sum HR) with (aK := fun k j => x (map (fun p => off sizes k + p) j)); auto; try discriminate.
      - apply (supp_right O HR). intros l [<-|[]]. auto.
      - intros k e Hk He. split; [now rewrite map_map|]. apply block_local; auto.
        intros l Hl; apply He; apply in_app_iff; auto. }
  intros k h1 Hk Hag Ht1. destruct (bt_block _ B sizes k OB Hk) as (dB & EB & D2 & _). cbv beta.
  rewrite EB, (bt_range _ B sizes k OB Hk). destruct (off_bounds sizes k HN Hk) as (B1 & B2 & B3 & B4).
  destruct (Z.eqb_spec (tdim dB 0) 0) as [Ez|Ez].
  - left. split; auto.
    assert (Ezz : nth k sizes 0 = 0) by (unfold tdim in Ez; rewrite D2 in Ez; destruct Bi; [congruence|exact Ez]).
    rewrite Ezz, (einstein_empty L); [apply (omul_0_r HR)|].
    intros ->. destruct Hlab as (_ & (_ & G)). destruct (proj2 (G v)). split; auto.
  - right.
    assert (HX1 : holds h1 X x).
    { intros idx Hi. rewrite Hag; [now apply HX| |].
      - intros E0. apply NX. exists idx; auto.
      - intros E0. rewrite <- E0, HX in Ht by auto. discriminate. }
    assert (HB1 : holds h1 dB (b k)).
    { intros idx Hi. rewrite Hag; [now apply (HB k dB EB)| |].
      - intros E0. apply NB. exists k, dB. split; auto. exists idx; auto.
      - intros E0. rewrite <- E0, (HB k dB EB) in Ht by auto. discriminate. }
    destruct (vec_slice_ok _ h1 X x _ s (off sizes k) (off sizes (S k)) DX SX) as (V1 & V2 & V3 & V4); auto; try lia.
    assert (In (nth k sizes 0) sizes) by (apply nth_In; auto). rewrite Forall_forall in HN, Hbig.
    destruct (scalar_call_ok O HR h1 [v] Bi L (vec_slice X (off sizes k, off sizes (S k))) dB (nth k sizes 0)
       (fun j => x (map (fun p => off sizes k + p) j)) (b k) ab false true true false tmp) as (h2 & F1 & F2 & F3); auto.
    + apply dispatch_scalar; auto. discriminate.
    + rewrite V1. simpl. do 2 f_equal. lia.
    + intros (j & Hj & Ej). destruct (V4 j Hj) as (p & Hp & Ep). rewrite Ej, Ep, HX in Ht by auto. discriminate.
    + intros (j & Hj & Ej). rewrite Ej, (HB k dB EB) in Ht by auto. discriminate.
    + exists h2. unfold scalar_at in F1. rewrite F1. cbn [bind]. auto.
Qed.
Print Assumptions C44_vec_scalar_exact.

(** ** Concrete block tensors: sizes 1 and 2, elements of [mem]. *)
Definition bget (h : heap Z) (t : bt) (k : nat) (idx : list Z) : Z :=
  match nth_error (bt_blocks t) k with Some d => get h d idx | None => 0 end.
Lemma bt_holds_check : forall h t,
  forallb (fun d => forallb (fun idx => match h (addr d idx) with Some _ => true | None => false end) (indices (ddims d)))
    (bt_blocks t) = true -> bt_holds h t (bget h t).
Proof.
  intros h t H k d E idx Hi. rewrite forallb_forall in H. specialize (H d (nth_error_In _ _ E)).
  rewrite forallb_forall in H. specialize (H idx). rewrite in_indices in H. specialize (H Hi).
  unfold bget, get. rewrite E. destruct (h (addr d idx)); auto. discriminate.
Qed.
Lemma bt_disj_check : forall t u,
  forallb (fun d => forallb (fun e => forallb (fun i => forallb (fun j => negb (addr d i =? addr e j)) (indices (ddims e))) (indices (ddims d)))
    (bt_blocks u)) (bt_blocks t) = true -> bt_disj t u.
Proof.
  intros t u H i j d e Ed Ee. apply disj_check. rewrite forallb_forall in H. specialize (H d (nth_error_In _ _ Ed)).
  rewrite forallb_forall in H. apply (H e (nth_error_In _ _ Ee)).
Qed.
Definition exA := bt_ctor 2 100 [0; 1] [1; 2].
Definition exB := bt_ctor 2 100 [5; 6] [1; 2].
Definition exC := bt_ctor 2 100 [10; 11] [1; 2].
Lemma ex_ok2 : forall b0 b1, bt_ok 2 (bt_ctor 2 100 [b0; b1] [1; 2]) [1; 2].
Proof.
  intros. split; [repeat constructor; lia|]. split; [reflexivity|]. split.
  - intros [|[|k]] d E; simpl in E; try (destruct k; discriminate); injection E as <-; repeat split; reflexivity.
  - split; [reflexivity|]. split; [|reflexivity]. intros [|[|k]] Hk; simpl in Hk; try lia; reflexivity.
Qed.
Lemma ex_sep : bt_sep exC.
Proof.
  intros [|[|i]] [|[|j]] d e Ed Ee Hij; simpl in Ed, Ee; try (destruct i; discriminate); try (destruct j; discriminate);
    try congruence; injection Ed as <-; injection Ee as <-; apply disj_check; reflexivity.
Qed.

(** C(i,j) = 3*C(i,j) + 2*sum_k A(i,k)*B(k,j): the hypotheses hold (the matrix
    path is taken on each block), and one element. *)
Example C44_block_case :
  labels [2]%nat [0; 1]%nat [0; 2]%nat [2; 1]%nat /\
  @path_ok ZOps [2]%nat [0; 1]%nat [0; 2]%nat [2; 1]%nat 3 [1; 2] /\
  bt_ok 2 exA [1; 2] /\ bt_ok 2 exB [1; 2] /\ bt_ok 2 exC [1; 2] /\
  bt_holds (mem 20) exA (bget (mem 20) exA) /\ bt_sep exC /\ bt_disj exC exA /\ bt_disj exC exB /\
  exists h', block_einsum (O := ZOps) (mkEin [0; 1] [0; 2] [2; 1])%nat 3 exC 2 exA exB [1; 0]%nat (mem 20) = Ok h' /\
    h' 12 =
      Some (3 * bget (mem 20) exC 1 [0; 1] +
            2 * (bget (mem 20) exA 1 [0; 0] * bget (mem 20) exB 1 [0; 1] + bget (mem 20) exA 1 [0; 1] * bget (mem 20) exB 1 [1; 1])).
Proof.
  split. { split; [intros l; simpl; intuition|]. split; [repeat constructor; simpl; intuition lia|]. intros l. simpl. intuition lia. }
  split. { unfold path_ok. change (dispatch (mkEin [0; 1]%nat [0; 2]%nat [2; 1]%nat) false true true true) with PGemm.
           split; [intros l; simpl; intuition lia|]. left. repeat constructor; lia. }
  split; [apply ex_ok2|]. split; [apply ex_ok2|]. split; [apply ex_ok2|].
  split; [apply bt_holds_check; reflexivity|]. split; [apply ex_sep|].
  split; [apply bt_disj_check; reflexivity|]. split; [apply bt_disj_check; reflexivity|].
  eexists. split; [vm_compute; reflexivity|]. vm_compute. reflexivity.
Qed.

(** Scalar C = C + sum A(i,j)*B(j,i): the old value is added twice. *)
Theorem C44_scalar_refuted :
  let h := upd (mem 15) 50 (100 : Z) in
  exists h', block_scalar (O := ZOps) (mkEin [] [0; 1] [1; 0])%nat 1 50 1 exA exB 60 [[0]; [1]]%nat h = Some (Ok h') /\
    bt_holds h exA (bget h exA) /\ bt_holds h exB (bget h exB) /\ h 60 = None /\
    h' 50 <> Some (1 * 100 + 1 * einstein (O := ZOps) [0; 1]%nat [0; 1]%nat [1; 0]%nat (fun _ => 3)
                               (dense (O := ZOps) [1; 2] (bget h exA)) (dense (O := ZOps) [1; 2] (bget h exB)) (fun _ => 0)) /\
    h' 50 = Some (2 * 100 + 1 * einstein (O := ZOps) [0; 1]%nat [0; 1]%nat [1; 0]%nat (fun _ => 3)
                               (dense (O := ZOps) [1; 2] (bget h exA)) (dense (O := ZOps) [1; 2] (bget h exB)) (fun _ => 0)).
Proof.
  cbv zeta. eexists. split; [vm_compute; reflexivity|]. split; [apply bt_holds_check; reflexivity|].
  split; [apply bt_holds_check; reflexivity|]. split; [reflexivity|]. split; [|vm_compute; reflexivity].
  intros H. vm_compute in H. discriminate.
Qed.
Print Assumptions C44_scalar_refuted.

(** C(i,j) = X(i)*D(j) with a plain vector X and block vector D: the true result
    is not block diagonal, the call succeeds and drops the other elements. *)
Theorem C44_vector_outer_refuted :
  let X := tensor_ctor 0 [3] in let D := bt_ctor 1 100 [5; 6] [1; 2] in let h := mem 20 in
  labels [] [0; 1]%nat [0]%nat [1]%nat /\ holds h X (get h X) /\ bt_holds h D (bget h D) /\ bt_holds h exC (bget h exC) /\
  exists h', vec_block (O := ZOps) (mkEin [0; 1] [0] [1])%nat 1 exC 1 X D [0; 1]%nat h = Ok h' /\
    ~ block_result (O := ZOps) [1; 2] [0; 1]%nat [0]%nat [1]%nat [] 1 1 exC (get h X) (dense (O := ZOps) [1; 2] (bget h D)) (bget h exC) h h'.
Proof.
  cbv zeta. split. { split; [intros l; simpl; intuition|]. split; [constructor|]. intros l. simpl. intuition lia. }
  split; [apply (holds_check Z); reflexivity|]. split; [apply bt_holds_check; reflexivity|]. split; [apply bt_holds_check; reflexivity|].
  eexists. split; [vm_compute; reflexivity|]. intros (c' & _ & H & _).
  specialize (H (fun l => Z.of_nat l)). cbv beta in H.
  assert (E : env_ok (fun _ => off [1; 2] (length [1; 2])) (fun l => Z.of_nat l) [0; 1]%nat).
  { intros l [<-|[<-|[]]]; vm_compute; split; congruence. }
  specialize (H E). vm_compute in H. discriminate.
Qed.
Print Assumptions C44_vector_outer_refuted.

(** A label only in C: C(i,j) = A(i)*B(i) for block vectors A, B. *)
Theorem C44_broadcast_refuted :
  let A := bt_ctor 1 100 [0; 1] [1; 2] in let B := bt_ctor 1 100 [5; 6] [1; 2] in let h := mem 20 in
  labels [] [0; 1]%nat [0]%nat [0]%nat /\ bt_holds h A (bget h A) /\ bt_holds h B (bget h B) /\ bt_holds h exC (bget h exC) /\
  exists h', block_einsum (O := ZOps) (mkEin [0; 1] [0] [0])%nat 1 exC 1 A B [0; 1]%nat h = Ok h' /\
    ~ block_result (O := ZOps) [1; 2] [0; 1]%nat [0]%nat [0]%nat [] 1 1 exC (dense (O := ZOps) [1; 2] (bget h A)) (dense (O := ZOps) [1; 2] (bget h B)) (bget h exC) h h'.
Proof.
  cbv zeta. split. { split; [intros l; simpl; intuition|]. split; [constructor|]. intros l. simpl. intuition lia. }
  split; [apply bt_holds_check; reflexivity|]. split; [apply bt_holds_check; reflexivity|]. split; [apply bt_holds_check; reflexivity|].
  eexists. split; [vm_compute; reflexivity|]. intros (c' & _ & H & _).
  specialize (H (fun l => Z.of_nat l)). cbv beta in H.
  assert (E : env_ok (fun _ => off [1; 2] (length [1; 2])) (fun l => Z.of_nat l) [0; 1]%nat).
  { intros l [<-|[<-|[]]]; vm_compute; split; congruence. }
  specialize (H E). vm_compute in H. discriminate.
Qed.
Print Assumptions C44_broadcast_refuted.

(** C(i) = 3*C(i) + 2*sum_j A(i,j)*X(j) with X a strided view; C = sum_i X(i)*B(i,i). *)
Example C44_vec_case :
  let X := mkDesc 0 [3] [2] in let C := bt_ctor 1 100 [10; 11] [1; 2] in let h := mem 20 in
  labels [1]%nat [0]%nat [0; 1]%nat [1]%nat /\ element_wise_multiplication (mkEin [0] [0; 1] [1])%nat = false /\
  disj_vec C X /\ bt_disj C exB /\
  (exists h', block_vec (O := ZOps) (mkEin [0] [0; 1] [1])%nat 3 C 2 exB X [1; 0]%nat h = Ok h' /\
     h' 12 = Some (3 * bget h C 1 [1] + 2 * (bget h exB 1 [1; 0] * get h X [1] + bget h exB 1 [1; 1] * get h X [2]))) /\
  dot_product (mkEin [] [0] [0; 0])%nat = false /\
  (exists h', vec_block_scalar (O := ZOps) (mkEin [] [0] [0; 0])%nat 0 15 2 X exB 60 [[1]; [0]]%nat h = Ok h' /\
     h' 15 = Some (2 * (get h X [0] * bget h exB 0 [0; 0] + get h X [1] * bget h exB 1 [0; 0] + get h X [2] * bget h exB 1 [1; 1]))).
Proof.
  cbv zeta. split. { split; [intros l; simpl; intuition|]. split; [repeat constructor; simpl; intuition|]. intros l. simpl. intuition lia. }
  split; [reflexivity|]. split. { intros [|[|k]] d E; simpl in E; try (destruct k; discriminate); injection E as <-; apply disj_check; reflexivity. }
  split; [apply bt_disj_check; reflexivity|].
  split; [eexists; split; [vm_compute; reflexivity|vm_compute; reflexivity]|]. split; [reflexivity|].
  eexists; split; [vm_compute; reflexivity|vm_compute; reflexivity].
Qed.
