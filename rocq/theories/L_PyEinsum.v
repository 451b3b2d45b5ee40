(** * L_PyEinsum: lemmas for the Python einsum plans. *)
From Coq Require Import List ZArith Lia Bool Permutation Ring_theory Ring.
From Verif Require Import Base Heap Conc M_Addr M_Einsum M_Blas M_Dispatch M_PyEinsum S_Einsum S_PyEinsum
  S_Blas L_Addr L_Einsum L_Blas L_Dispatch L_Decomp L_Elt.
Import ListNotations.
Open Scope Z_scope.

(** ** Schedules *)
Lemma run_safe : forall T A (p : prog T A) h r, run p h = Ok r -> psafe (fun _ => True) (fun _ => False) p h.
Proof.
  induction p as [x|a k IH|a v k IH]; intros h r H; simpl in *; auto.
  - destruct (h a) as [v|] eqn:E; [|discriminate]. split; auto. exists v. split; auto. eapply IH; eauto.
  - destruct (h a) as [w|] eqn:E; [|discriminate]. split; auto. split; eauto.
Qed.

Lemma par_one : forall T (p : prog T unit) (h h' : heap T) (Q : heap T -> Prop), run p h = Ok (tt, h') ->
  (forall g, (forall a, g a = h' a) -> Q g) -> par_spec [p] h Q.
Proof.
  intros T p h h' Q E HQ.
  assert (D := par_drf T (fun i _ => i = 0%nat) (fun _ => False) [p] h (fun _ => h')).
  assert (P : par_spec [p] h (fun g => (forall i a, (i < 1)%nat -> i = 0%nat -> g a = h' a) /\
    (forall a, (forall i, (i < 1)%nat -> i <> 0%nat) -> g a = h a))).
  { apply D.
    - intros i j a -> ->. reflexivity.
    - tauto.
    - intros [|i] q Hq; [|destruct i; discriminate]. inversion Hq; subst. split; auto.
      eapply psafe_mono; [| |eapply run_safe; eauto]; simpl; auto. }
  destruct P as (P1 & P2). split; auto. intros ps' g Hs. destruct (P1 ps' g Hs) as (A1 & A2 & A3).
  split; auto. split; auto. intros Hd. apply HQ. intros a. apply (proj1 (A3 Hd) 0%nat); auto.
Qed.

Lemma par_spec_mono : forall T (ps : list (prog T unit)) h (Q R : heap T -> Prop), (forall g, Q g -> R g) ->
  par_spec ps h Q -> par_spec ps h R.
Proof. intros T ps h Q R HQ (H1 & H2). split; auto. intros ps' h' Hs. destruct (H1 _ _ Hs) as (A & B & C). auto. Qed.
Lemma steps_mono : forall (O : Ops) k (ss : list (@pystep O)) h (Q R : heap (car O) -> Prop), (forall g, Q g -> R g) ->
  steps_spec k ss h Q -> steps_spec k ss h R.
Proof.
  intros O k. induction ss as [|[f|body n|body n|c f n] ss IH]; intros h Q R HQ; cbn [steps_spec]; auto.
  - intros (h' & E & H). exists h'. split; eauto.
  - intros H th Hp. eapply par_spec_mono; [|apply H; auto]. cbn. eauto.
  - intros H. eapply par_spec_mono; [|apply H]. cbn. eauto.
  - intros H th Hp. destruct (H th Hp) as (h' & E & Hs). exists h'. split; eauto.
Qed.

(** With one thread a plan is run in order. *)
Fixpoint seq_exec {O : Ops} (ss : list (@pystep O)) (h : heap (car O)) : res (heap (car O)) :=
  match ss with
  | [] => Ok h
  | PySeq f :: r => h' <- f h ;; seq_exec r h'
  | PyFor body n :: r | PyRegion body n :: r => h' <- exec (pseq (zrange n) body) h ;; seq_exec r h'
  | PyReduce c f n :: r => h' <- exec (reduce c f [zrange n]) h ;; seq_exec r h'
  end.

Lemma par_run : forall (O : Ops) (p : prog (car O) unit) (h : heap (car O)) (Q : heap (car O) -> Prop), par_spec [p] h Q ->
  exists h', exec p h = Ok h' /\ Q h'.
Proof.
  induction p as [[]|a k IH|a v k IH]; intros h Q (H1 & H2).
  - exists h. split; auto. apply (H1 _ _ (pss_refl _)). repeat constructor.
  - destruct (H1 _ _ (pss_refl _)) as (_ & [Hd|(s & Hs)] & _); [inversion Hd; discriminate|].
    assert (E : exists v, h a = Some v).
    { inversion Hs as [? ? i ? ? v Hn Hv|? ? i ? v ? w Hn Hv]; subst; destruct i as [|[|]]; try discriminate; cbn in Hn; injection Hn; intros; subst; eauto. }
    destruct E as (v & E).
    assert (St : pstep ([PRd a k], h) ([k v], h)) by (apply (ps_rd [PRd a k] h 0%nat a k v); auto).
    destruct (IH v h Q) as (h' & Er & HQ).
    { split; [|apply H2; auto]. intros ps' g Hg. apply H1. econstructor; eauto. }
    exists h'. split; auto. unfold exec in *. cbn [run]. now rewrite E.
  - destruct (H1 _ _ (pss_refl _)) as (_ & [Hd|(s & Hs)] & _); [inversion Hd; discriminate|].
    assert (E : exists w, h a = Some w).
    { inversion Hs as [? ? i ? ? w Hn Hv|? ? i ? w ? u Hn Hv]; subst; destruct i as [|[|]]; try discriminate; cbn in Hn; injection Hn; intros; subst; eauto. }
    destruct E as (w & E).
    assert (St : pstep ([PWr a v k], h) ([k], upd h a v)) by (apply (ps_wr [PWr a v k] h 0%nat a v k w); auto).
    destruct (IH (upd h a v) Q) as (h' & Er & HQ).
    { split; [|apply H2; auto]. intros ps' g Hg. apply H1. econstructor; eauto. }
    exists h'. split; auto. unfold exec in *. cbn [run]. now rewrite E.
Qed.

Lemma classes_perm : forall (l : list Z) (f : Z -> nat) k, (forall x, In x l -> (f x < k)%nat) ->
  Permutation (concat (map (fun t => filter (fun x => Nat.eqb (f x) t) l) (seq 0 k))) l.
Proof.
  intros l f k H.
  assert (G : forall n, Permutation (concat (map (fun t => filter (fun x => Nat.eqb (f x) t) l) (seq 0 n)))
                          (filter (fun x => Nat.ltb (f x) n) l)).
  { induction n as [|n IH].
    - simpl. clear. induction l; simpl; auto.
    - rewrite seq_S, map_app, concat_app. cbn [map concat]. rewrite app_nil_r, Nat.add_0_l.
      eapply Permutation_trans; [apply Permutation_app_tail; exact IH|]. clear.
      induction l as [|x l IH]; simpl; auto.
      destruct (Nat.ltb_spec (f x) n), (Nat.eqb_spec (f x) n), (Nat.ltb_spec (f x) (S n)); try lia; simpl; auto.
      eapply Permutation_trans; [apply Permutation_sym, Permutation_middle|]. auto. }
  eapply Permutation_trans; [apply G|].
  assert (E : filter (fun x => Nat.ltb (f x) k) l = l).
  { clear - H. induction l as [|x l IH]; simpl; auto. destruct (Nat.ltb_spec (f x) k) as [H0|H0].
    - f_equal. apply IH. intros; apply H; simpl; auto.
    - specialize (H x (or_introl eq_refl)). lia. }
  rewrite E. auto.
Qed.

Lemma strided_perm : forall k n, (0 < k)%nat -> Permutation (concat (map (strided k n) (seq 0 k))) (zrange n).
Proof.
  intros k n Hk.
  replace (map (strided k n) (seq 0 k))
    with (map (fun t => filter (fun x => Nat.eqb (Z.to_nat (x mod Z.of_nat k)) t) (zrange n)) (seq 0 k)).
  - apply classes_perm. intros x Hx. assert (B := Z.mod_pos_bound x (Z.of_nat k)). lia.
  - apply map_ext_in. intros t Ht. unfold strided. apply filter_ext. intros x.
    assert (B := Z.mod_pos_bound x (Z.of_nat k)).
    destruct (Nat.eqb_spec (Z.to_nat (x mod Z.of_nat k)) t), (Z.eqb_spec (x mod Z.of_nat k) (Z.of_nat t)); auto; lia.
Qed.

Lemma strided_one : forall n, map (strided 1 n) (seq 0 1) = [zrange n].
Proof.
  intros n. cbn [seq map]. f_equal. unfold strided. change (Z.of_nat 1) with 1. change (Z.of_nat 0) with 0.
  induction (zrange n) as [|x l IH]; cbn [filter]; auto. rewrite Z.mod_1_r. cbn [Z.eqb]. now rewrite IH.
Qed.

Lemma steps_seq : forall (O : Ops) (ss : list (@pystep O)) h Q, steps_spec 1 ss h Q -> exists h', seq_exec ss h = Ok h' /\ Q h'.
Proof.
  intros O. induction ss as [|[f|body n|body n|c f n] ss IH]; intros h Q; cbn [steps_spec seq_exec]; eauto.
  - intros (h' & -> & H). cbn [bind]. auto.
  - intros H. specialize (H [zrange n]). cbn [concat] in H. rewrite app_nil_r in H. specialize (H (Permutation_refl _)).
    unfold omp_for in H. cbn [map] in H. apply par_run in H as (h' & -> & H). cbn [bind]. auto.
  - rewrite strided_one. unfold omp_for. cbn [map]. intros H. apply par_run in H as (h' & -> & H). cbn [bind]. auto.
  - intros H. specialize (H [zrange n]). cbn [concat] in H. rewrite app_nil_r in H.
    destruct (H (Permutation_refl _)) as (h' & -> & H'). cbn [bind]. auto.
Qed.

(** ** Unravelling *)
Lemma unravel_inb : forall dims s, nonneg dims -> 0 <= s < zprod dims -> inb (unravel dims s) dims.
Proof. intros. unfold unravel. rewrite dims_to_strides_eq. apply rm_sti_inb; auto. Qed.

Lemma unravel_perm : forall dims, nonneg dims -> Permutation (map (unravel dims) (zrange (zprod dims))) (indices dims).
Proof.
  intros. apply Permutation_sym. unfold unravel. rewrite dims_to_strides_eq. apply indices_flat_perm. auto.
Qed.

Lemma unravel_inj : forall dims s t, nonneg dims -> 0 <= s < zprod dims -> 0 <= t < zprod dims ->
  unravel dims s = unravel dims t -> s = t.
Proof.
  unfold unravel. intros dims s t HN Hs Ht E. rewrite dims_to_strides_eq in E. cbn [fst] in E.
  rewrite <- (rm_sti_ordinal dims s), <- (rm_sti_ordinal dims t) by auto. now rewrite E.
Qed.

Lemma loop_size_ok : forall dims, dims <> [] -> loop_size dims = Ok (zprod dims).
Proof.
  intros [|d ds] H; [congruence|]. unfold loop_size. rewrite dims_to_strides_eq. cbn [fst]. rewrite rms_cons. reflexivity.
Qed.

(** ** Permutation tables and extents *)
Lemma perm_table_length : forall X U, length (create_perm_table X U) = length X.
Proof. intros. apply map_length. Qed.

Lemma perm_table_env : forall X U (env : nat -> Z), (forall l, In l X -> In l U) ->
  map (fun q => nth q (map env U) 0) (create_perm_table X U) = map env X.
Proof.
  intros X U env H. unfold create_perm_table. rewrite map_map. apply map_ext_in. intros l Hl.
  destruct (find_position_In l U (H l Hl)) as (p & E). rewrite E. apply nth_map_error. now apply find_position_Some.
Qed.

Lemma replace_nth_same : forall A (l : list A) i x d, (i < length l)%nat -> nth i (replace i x l) d = x.
Proof. induction l as [|y l IH]; intros [|i] x d H; simpl in *; auto; try lia. apply IH. lia. Qed.
Lemma replace_nth_other : forall A (l : list A) i j x d, i <> j -> nth j (replace i x l) d = nth j l d.
Proof.
  induction l as [|y l IH]; intros [|i] [|j] x d H; simpl; auto; try congruence.
Qed.
Lemma replace_len : forall A (l : list A) i x, length (replace i x l) = length l.
Proof. induction l as [|y l IH]; intros [|i] x; simpl; auto. Qed.

(** [out] gives the extents of the labels in [K] and zero for the others. *)
Definition filled (ext : nat -> Z) (U K : list nat) (out : list Z) : Prop :=
  length out = length U /\
  forall j l, nth_error U j = Some l -> nth j out 0 = if in_dec Nat.eq_dec l K then ext l else 0.

Lemma fill_dims_filled : forall (ext : nat -> Z) (U X : list nat) K out, NoDup U -> (forall l, In l X -> In l U) ->
  filled ext U K out -> filled ext U (X ++ K) (fill_dims (create_perm_table X U) (map ext X) out).
Proof.
  intros ext U X. induction X as [|x X IH]; intros K out HN HX HF.
  - exact HF.
  - unfold fill_dims. cbn [create_perm_table map combine fold_left fst snd].
    destruct (find_position_In x U (HX x (or_introl eq_refl))) as (p & E). rewrite E.
    assert (Ep := find_position_Some _ _ _ E). destruct HF as (H1 & H2).
    assert (Hp : (p < length out)%nat) by (rewrite H1; apply nth_error_Some; congruence).
    assert (G : filled ext U (x :: K) (if nth p out 0 =? 0 then replace p (ext x) out else out)).
    { assert (Hx := H2 p x Ep).
      destruct (Z.eqb_spec (nth p out 0) 0) as [Ez|Ez]; split; auto.
      - now rewrite replace_len.
      - intros j l Hj. destruct (Nat.eq_dec p j) as [<-|Hne].
        + rewrite replace_nth_same by auto. assert (l = x) by congruence. subst.
          destruct (in_dec Nat.eq_dec x (x :: K)) as [|n]; auto. exfalso. apply n. now left.
        + rewrite replace_nth_other by auto. rewrite (H2 j l Hj).
          assert (l <> x). { intros ->. apply Hne. apply (proj1 (NoDup_nth_error U) HN); [apply nth_error_Some|]; congruence. }
          destruct (in_dec Nat.eq_dec l K), (in_dec Nat.eq_dec l (x :: K)); auto; simpl in *; exfalso; tauto || (destruct i; congruence || tauto).
      - intros j l Hj. rewrite (H2 j l Hj). destruct (Nat.eq_dec l x) as [->|Hne].
        + destruct (in_dec Nat.eq_dec x K) as [i|n]; [|congruence].
          destruct (in_dec Nat.eq_dec x (x :: K)) as [|n]; auto. exfalso. apply n. now left.
        + destruct (in_dec Nat.eq_dec l K), (in_dec Nat.eq_dec l (x :: K)); auto; simpl in *; exfalso; tauto || (destruct i; congruence || tauto). }
    apply IH in G; auto; [|intros; apply HX; now right].
    destruct G as (G1 & G2). split; [exact G1|]. intros j l Hj. unfold fill_dims, create_perm_table in G2. rewrite (G2 j l Hj).
    destruct (in_dec Nat.eq_dec l (X ++ x :: K)) as [i|n], (in_dec Nat.eq_dec l ((x :: X) ++ K)) as [i'|n']; auto; exfalso.
    + apply n'. apply in_app_or in i as [i|[<-|i]]; simpl; auto; right; apply in_or_app; auto.
    + apply n. destruct i' as [<-|i']; [apply in_or_app; simpl; auto|]. apply in_app_or in i' as [i|i]; apply in_or_app; simpl; auto.
Qed.

Lemma unique_dims_ok : forall e (ext : nat -> Z) (C A B : desc),
  consistent ext (eC e) C -> consistent ext (eA e) A -> consistent ext (eB e) B ->
  py_unique_dims (py_base e) C A B = map ext (unique (eA e ++ eB e ++ eC e)).
Proof.
  intros e ext C A B HC HA HB. unfold py_unique_dims, py_base. cbn [pb_num pb_A pb_B pb_C].
  rewrite HC, HA, HB. set (U := unique (eA e ++ eB e ++ eC e)).
  assert (IU : forall l, In l U <-> In l (eA e) \/ In l (eB e) \/ In l (eC e)).
  { intros l. unfold U. rewrite in_unique, !in_app_iff. tauto. }
  assert (HN : NoDup U) by apply unique_NoDup.
  assert (F0 : filled ext U [] (repeat 0 (length U))).
  { split; [apply repeat_length|]. intros j l _. destruct (in_dec Nat.eq_dec l []) as [[]|_]. 
    clear. revert j. induction (length U) as [|n IH]; intros [|j]; simpl; auto. }
  apply (fill_dims_filled ext U (eC e)) in F0; auto; [|intros; apply IU; auto].
  apply (fill_dims_filled ext U (eA e)) in F0; auto; [|intros; apply IU; auto].
  apply (fill_dims_filled ext U (eB e)) in F0; auto; [|intros; apply IU; auto].
  destruct F0 as (F1 & F2). apply nth_ext with (d := 0) (d' := 0); [now rewrite map_length|].
  intros j Hj. rewrite F1 in Hj. destruct (nth_error U j) as [l|] eqn:E; [|apply nth_error_None in E; lia].
  rewrite (F2 j l E), (nth_map_error _ _ ext U j l 0 E).
  destruct (in_dec Nat.eq_dec l _) as [_|n]; auto. exfalso. apply n. apply nth_error_In in E. apply IU in E.
  rewrite !in_app_iff. tauto.
Qed.

(** ** Sums picking one target element *)
Section Pick.
  Context {O : Ops} (HR : is_ring O).
  Notation T := (car O).
  Add Ring OR : (ir_rt O HR).

  Lemma Sum_over_zero : forall U ext env (G : (nat -> Z) -> T),
    (forall e, (forall l, ~ In l U -> e l = env l) -> G e = o0) -> Sum_over U ext env G = o0.
  Proof.
    induction U as [|u U IH]; intros ext env G H; simpl; [apply H; auto|].
    unfold zsum. transitivity (lsum (zrange (ext u)) (fun _ => @o0 O)); [|apply (lsum_0 O HR)].
    apply lsum_ext. intros v Hv. apply IH. intros e He. apply H. intros l Hl. simpl in Hl. rewrite He by tauto.
    unfold upde. destruct (Nat.eqb_spec l u); auto. subst. tauto.
  Qed.

  Lemma Sum_over_pick : forall V L ext env (G : (nat -> Z) -> T), env_proper G -> NoDup (V ++ L) -> env_ok ext env V ->
    (forall e, (exists l, In l V /\ e l <> env l) -> G e = o0) ->
    forall e0, (forall l, ~ In l V -> e0 l = env l) -> Sum_over (V ++ L) ext e0 G = Sum_over L ext env G.
  Proof.
    induction V as [|v V IH]; intros L ext env G HG HN Hok HZ e0 He.
    - simpl. apply Sum_over_ext; auto.
    - simpl in HN |- *. apply NoDup_cons_iff in HN as (Hv & HN). unfold zsum.
      rewrite (lsum_single O HR _ _ (env v)).
      + apply IH; auto.
        * intros l Hl. apply Hok. now right.
        * intros e (l & Hl & Hne). apply HZ. exists l. split; auto. now right.
        * intros l Hl. unfold upde. destruct (Nat.eqb_spec l v); [now subst|]. apply He. intros [->|H]; auto.
      + apply zrange_NoDup.
      + apply zrange_in. apply Hok. now left.
      + intros x Hx Hne. apply Sum_over_zero. intros e Ee. apply HZ. exists v. split; [now left|].
        rewrite Ee by auto. unfold upde. rewrite Nat.eqb_refl. auto.
  Qed.

  (** The sum over all labels of the terms belonging to one element of C is the
      sum over the contracted labels. *)
  Lemma pick_target : forall U Ci Ai Bi L ext (F : (nat -> Z) -> T) env, env_proper F ->
    NoDup U -> (forall l, In l U <-> In l Ai \/ In l Bi \/ In l Ci) -> contracted L Ci Ai Bi -> env_ok ext env Ci ->
    lsum (indices (map ext U)) (fun ix => if list_eq_dec Z.eq_dec (map (upds U ix env) Ci) (map env Ci)
                                          then F (upds U ix env) else o0)
    = Sum_over L ext env F.
  Proof.
    intros U Ci Ai Bi L ext F env HF HN HU (HL & HLi) Hok.
    rewrite <- (Sum_over_indices HR U ext env
       (fun e => if list_eq_dec Z.eq_dec (map e Ci) (map env Ci) then F e else o0)).
    assert (Hp : env_proper (fun e => if list_eq_dec Z.eq_dec (map e Ci) (map env Ci) then F e else @o0 O)).
    { intros e1 e2 He. rewrite (map_ext e1 e2 He). destruct (list_eq_dec _ _ _); auto. }
    rewrite (Sum_over_perm HR U (unique Ci ++ L)); auto.
    - rewrite (Sum_over_pick (unique Ci) L ext env); auto.
      + rewrite !(Sum_over_indices HR). apply lsum_ext. intros ix Hix.
        destruct (list_eq_dec Z.eq_dec _ _) as [_|n]; auto. exfalso. apply n.
        apply map_ext_in. intros l Hl. apply upds_other. intros H. apply HLi in H. tauto.
      + apply NoDup_app_disj; auto.
        * apply unique_NoDup.
        * intros l H1 H2. rewrite in_unique in H1. apply HLi in H2. tauto.
      + intros l Hl. rewrite in_unique in Hl. auto.
      + intros e (l & Hl & Hne). rewrite in_unique in Hl. destruct (list_eq_dec Z.eq_dec _ _) as [E|_]; auto.
        exfalso. apply Hne. clear - Hl E. induction Ci as [|x r IH]; [contradiction|]. simpl in E. inversion E.
        destruct Hl as [->|Hl]; auto.
    - apply NoDup_Permutation; auto.
      + apply NoDup_app_disj; auto; [apply unique_NoDup|].
        intros l H1 H2. rewrite in_unique in H1. apply HLi in H2. tauto.
      + intros l. rewrite HU, in_app_iff, in_unique, HLi. destruct (in_dec Nat.eq_dec l Ci); tauto.
  Qed.
End Pick.

(** ** The generic loop *)
Lemma par_cells_Q : forall X T (l : list X) (threads : list (list X)) (ad : X -> Z) (val : X -> option T)
    (body : X -> prog T unit) (h : heap T) (Q : heap T -> Prop),
  Permutation (concat threads) l -> NoDup (map ad l) -> task_ok l ad val body h ->
  (forall h', (forall x, In x l -> h' (ad x) = val x) /\ (forall a, ~ owned l ad a -> h' a = h a) -> Q h') ->
  par_spec (omp_for body threads) h Q.
Proof.
  intros X T l threads ad val body h Q HP HN HT HQ. eapply par_spec_weaken; [exact HQ|]. now apply par_cells.
Qed.

Section Generic.
  Context {O : Ops} (HR : is_ring O).
  Notation T := (car O).
  Add Ring OR2 : (ir_rt O HR).

  Lemma scale_step : forall (cp : T) (C : desc) (c : list Z -> T) (h : heap T) threads (Q : heap T -> Prop),
    inj C -> nonneg (ddims C) -> holds h C c ->
    Permutation (concat threads) (zrange (zprod (ddims C))) ->
    (forall h', holds h' C (fun i => omul cp (c i)) -> (forall z, ~ cell C z -> h' z = h z) -> Q h') ->
    par_spec (omp_for (scale_body cp C) threads) h Q.
  Proof.
    intros cp C c h threads Q HI HN HC HP HQ.
    apply (par_cells_Q Z T (zrange (zprod (ddims C))) threads
        (fun s => addr C (unravel (ddims C) s)) (fun s => Some (omul cp (c (unravel (ddims C) s))))); auto.
    - rewrite <- (map_map (unravel (ddims C)) (addr C)).
      eapply Permutation_NoDup; [apply Permutation_map, Permutation_sym, unravel_perm; auto|]. now apply addr_NoDup.
    - intros s h' Hs Hf. apply zrange_in in Hs. assert (HB := unravel_inb _ _ HN Hs).
      assert (E : h' (addr C (unravel (ddims C) s)) = Some (c (unravel (ddims C) s))) by (rewrite Hf by auto; now apply HC).
      unfold scale_body. destruct (oeqb cp o0) eqn:Ec; cbn [psafe run].
      + split; [split; [reflexivity|split; [eauto|exact I]]|]. rewrite E. eexists. split; [reflexivity|]. cbv beta. rewrite upd_same. f_equal.
        apply (ir_eqb O HR) in Ec. subst. ring.
      + split; [split; [auto|]; eexists; split; [exact E|]; split; [reflexivity|split; [eauto|exact I]]|]. rewrite E. eexists. split; [reflexivity|]. cbv beta. rewrite upd_same. f_equal. ring.
    - intros h' (H1 & H2). apply HQ.
      + intros idx Hi. apply in_indices in Hi.
        eapply Permutation_in in Hi; [|apply Permutation_sym, unravel_perm; auto].
        apply in_map_iff in Hi as (s & <- & Hs). apply (H1 s Hs).
      + intros z Hz. apply H2. intros Ho. apply in_map_iff in Ho as (s & <- & Hs). apply Hz.
        apply zrange_in in Hs. eexists. split; [apply unravel_inb; eauto|reflexivity].
  Qed.

  Variables (e : ein) (ext : nat -> Z) (A B C : desc) (a b c : list Z -> T) (cp ab : T) (L : list nat).
  Hypothesis Hext : forall l, 0 <= ext l.
  Hypothesis HdA : consistent ext (eA e) A.
  Hypothesis HdB : consistent ext (eB e) B.
  Hypothesis HdC : consistent ext (eC e) C.
  Hypothesis HI : inj C.
  Hypothesis DA : disj C A.
  Hypothesis DB : disj C B.
  Hypothesis HL : contracted L (eC e) (eA e) (eB e).

  Let U := unique (eA e ++ eB e ++ eC e).
  Lemma in_U : forall l, In l U <-> In l (eA e) \/ In l (eB e) \/ In l (eC e).
  Proof. intros l. unfold U. rewrite in_unique, !in_app_iff. tauto. Qed.
  Lemma nn : forall X, nonneg (map ext X).
  Proof. intros X. apply Forall_map, Forall_forall. auto. Qed.

  (** Environment of one iteration. *)
  Definition senv (env : nat -> Z) (s : Z) : nat -> Z := upds U (unravel (map ext U) s) env.

  Lemma senv_U : forall env s, 0 <= s < zprod (map ext U) -> map (senv env s) U = unravel (map ext U) s.
  Proof.
    intros env s Hs. apply upds_map; [apply unique_NoDup|].
    assert (E := inb_length _ _ (unravel_inb _ _ (nn U) Hs)). rewrite map_length in E. auto.
  Qed.
  Lemma senv_ok : forall env s X, (forall l, In l X -> In l U) -> 0 <= s < zprod (map ext U) -> env_ok ext (senv env s) X.
  Proof.
    intros env s X HX Hs l Hl. apply HX in Hl. revert l Hl. apply env_ok_map.
    rewrite senv_U by auto. apply unravel_inb; auto. apply nn.
  Qed.
  Lemma senv_at : forall env s X, (forall l, In l X -> In l U) -> 0 <= s < zprod (map ext U) ->
    map (fun q => nth q (unravel (map ext U) s) 0) (create_perm_table X U) = map (senv env s) X.
  Proof. intros env s X HX Hs. rewrite <- (senv_U env s Hs). now apply perm_table_env. Qed.

  Definition sval (env : nat -> Z) : T := omul (omul ab (a (map env (eA e)))) (b (map env (eB e))).

  Lemma UA : forall l, In l (eA e) -> In l U. Proof. intros; apply in_U; auto. Qed.
  Lemma UB' : forall l, In l (eB e) -> In l U. Proof. intros; apply in_U; auto. Qed.
  Lemma UC : forall l, In l (eC e) -> In l U. Proof. intros; apply in_U; auto. Qed.

  Lemma sum_body_run : forall s h w env, 0 <= s < zprod (map ext U) ->
    holds h A a -> holds h B b ->
    h (addr C (map (senv env s) (eC e))) = Some w ->
    run (sum_body (py_base e) ab C A B (map ext U) s) h
    = Ok (tt, upd h (addr C (map (senv env s) (eC e))) (oadd w (sval (senv env s)))).
  Proof.
    intros s h w env Hs HA HB Hw. unfold sum_body, py_base. cbn [pb_A pb_B pb_C]. fold U. cbv zeta.
    rewrite !(senv_at env s) by (auto using UA, UB', UC). cbn [run].
    rewrite HA by (rewrite HdA; apply inb_map_env, senv_ok; auto using UA).
    rewrite HB by (rewrite HdB; apply inb_map_env, senv_ok; auto using UB').
    rewrite Hw. reflexivity.
  Qed.

  Lemma sval_einstein : forall env, Sum_over L ext env sval = omul ab (einstein L (eA e) (eB e) ext a b env).
  Proof.
    intros env. unfold einstein. rewrite <- (Sum_over_mul_l HR). rewrite !(Sum_over_indices HR).
    apply lsum_ext. intros ix _. unfold sval. ring.
  Qed.
  Lemma sval_proper : env_proper sval.
  Proof. intros e1 e2 H. unfold sval. now rewrite !(map_ext e1 e2 H). Qed.

  Lemma senv_base : forall env env' s X, (forall l, In l X -> In l U) -> 0 <= s < zprod (map ext U) ->
    map (senv env s) X = map (senv env' s) X.
  Proof. intros. rewrite <- !(senv_at _ s X) by auto. reflexivity. Qed.
  Lemma sval_base : forall env env' s, 0 <= s < zprod (map ext U) -> sval (senv env s) = sval (senv env' s).
  Proof. intros. unfold sval. now rewrite (senv_base env env' s (eA e)), (senv_base env env' s (eB e)) by auto using UA, UB'. Qed.

  Lemma cell_not : forall d h0 (f : list Z -> T) h', disj C d -> holds h0 d f ->
    (forall z, ~ cell C z -> h' z = h0 z) -> holds h' d f.
  Proof.
    intros d h0 f h' HD HH HF i Hi. rewrite HF; [now apply HH|]. intros (j & Hj & E). apply (HD j i); auto.
  Qed.

  (** The second loop, run by one thread. *)
  Lemma sum_seq : forall h c1, holds h A a -> holds h B b -> holds h C c1 ->
    exists h', run (pseq (zrange (zprod (map ext U))) (sum_body (py_base e) ab C A B (map ext U))) h = Ok (tt, h') /\
      (forall env, env_ok ext env (eC e) -> h' (addr C (map env (eC e))) =
         Some (oadd (c1 (map env (eC e))) (omul ab (einstein L (eA e) (eB e) ext a b env)))) /\
      (forall idx, inb idx (ddims C) -> (forall env, env_ok ext env (eC e) -> idx <> map env (eC e)) ->
         h' (addr C idx) = Some (c1 idx)) /\
      (forall z, ~ cell C z -> h' z = h z).
  Proof.
    intros h c1 HA HB HC. rewrite run_pseq_forM. set (e0 := fun _ : nat => 0).
    set (tgt := fun s => map (senv e0 s) (eC e)).
    assert (Tin : forall s, In s (zrange (zprod (map ext U))) -> inb (tgt s) (ddims C)).
    { intros s Hs. apply zrange_in in Hs. rewrite HdC. apply inb_map_env, senv_ok; auto using UC. }
    match goal with |- context [forM _ ?f _] => set (body := f) end.
    destruct (acc_loop HR Z tgt (fun s => sval (senv e0 s)) C h body
      HI (zrange (zprod (map ext U))) h c1 Tin HC) as (h' & E & V & F); auto.
    { intros s h' t Hs Hf Ht. unfold body. rewrite (sum_body_run s h' t e0); auto.
      - now apply zrange_in.
      - eapply cell_not; eauto.
      - eapply cell_not; eauto. }
    change (Z -> option (car O)) with (heap (car O)) in E. rewrite E. exists h'. split; auto. split; [|split; auto].
    - intros env Hok. rewrite V by (rewrite HdC; now apply inb_map_env). f_equal. f_equal.
      rewrite <- sval_einstein, <- (pick_target HR U (eC e) (eA e) (eB e) L ext sval env sval_proper (unique_NoDup _) in_U HL Hok).
      rewrite <- (lsum_perm O HR _ _ _ _ (unravel_perm _ (nn U))), lsum_map. apply lsum_ext. intros s Hs.
      apply zrange_in in Hs. change (upds U (unravel (map ext U) s) env) with (senv env s). unfold tgt.
      rewrite (senv_base e0 env s (eC e)), (sval_base e0 env s) by auto using UC. reflexivity.
    - intros idx Hi Hne. rewrite V by auto. f_equal. 
      transitivity (oadd (c1 idx) (lsum (zrange (zprod (map ext U))) (fun _ => @o0 O))).
      + f_equal. apply lsum_ext. intros s Hs. destruct (list_eq_dec Z.eq_dec (tgt s) idx) as [Et|]; auto.
        exfalso. apply (Hne (senv e0 s)); auto. apply senv_ok; auto using UC. now apply zrange_in.
      + rewrite (lsum_0 O HR). ring.
  Qed.

  (** The second loop on any number of threads, if no label is summed. *)
  Lemma sum_par : forall h c1 threads (Q : heap T -> Prop), L = [] -> holds h A a -> holds h B b -> holds h C c1 ->
    Permutation (concat threads) (zrange (zprod (map ext U))) ->
    (forall h', (forall env, env_ok ext env (eC e) -> h' (addr C (map env (eC e))) =
         Some (oadd (c1 (map env (eC e))) (omul ab (einstein L (eA e) (eB e) ext a b env)))) ->
      (forall idx, inb idx (ddims C) -> (forall env, env_ok ext env (eC e) -> idx <> map env (eC e)) ->
         h' (addr C idx) = Some (c1 idx)) ->
      (forall z, ~ cell C z -> h' z = h z) -> Q h') ->
    par_spec (omp_for (sum_body (py_base e) ab C A B (map ext U)) threads) h Q.
  Proof.
    intros h c1 threads Q HL0 HA HB HC HP HQ. set (e0 := fun _ : nat => 0).
    assert (AC : forall l, In l U -> In l (eC e)).
    { intros l Hl. apply in_U in Hl. destruct (in_dec Nat.eq_dec l (eC e)); auto.
      assert (H : In l L) by (apply (proj2 HL); tauto). rewrite HL0 in H. contradiction. }
    apply (par_cells_Q Z T (zrange (zprod (map ext U))) threads (fun s => addr C (map (senv e0 s) (eC e)))
             (fun s => Some (oadd (c1 (map (senv e0 s) (eC e))) (sval (senv e0 s))))); auto.
    - rewrite <- (map_map (fun s => map (senv e0 s) (eC e)) (addr C)).
      assert (H : forall l : list Z, (forall s, In s l -> 0 <= s < zprod (map ext U)) -> NoDup l ->
        NoDup (map (addr C) (map (fun s => map (senv e0 s) (eC e)) l))).
      { induction l as [|s l IH]; intros Hin HN; simpl; [constructor|]. inversion HN; subst. constructor.
        - intros Hi. apply in_map_iff in Hi as (i & Ei & Hi). apply in_map_iff in Hi as (t & <- & Ht).
          apply HI in Ei; try (rewrite HdC; apply inb_map_env, senv_ok; auto using UC; apply Hin; simpl; auto).
          assert (t = s); [|subst; auto].
          apply (unravel_inj (map ext U)); [apply nn|apply Hin; simpl; auto|apply Hin; simpl; auto|].
          rewrite <- !(senv_U e0) by (apply Hin; simpl; auto).
          apply map_ext_in. intros x Hx. apply AC in Hx. apply (ext_in_map Ei x Hx).
        - apply IH; auto. intros; apply Hin; simpl; auto. }
      apply H; [intros; now apply zrange_in|apply zrange_NoDup].
    - intros s h' Hs Hf. assert (Hs' := Hs). apply zrange_in in Hs.
      assert (NA : forall d f i, disj C d -> holds h d f -> inb i (ddims d) ->
        ~ owned (zrange (zprod (map ext U))) (fun s => addr C (map (senv e0 s) (eC e))) (addr d i) /\ h' (addr d i) = Some (f i)).
      { intros d f i Hd Hh Hi.
        assert (N : ~ owned (zrange (zprod (map ext U))) (fun s => addr C (map (senv e0 s) (eC e))) (addr d i)).
        { intros Ho. apply in_map_iff in Ho as (t & Et & Ht). apply zrange_in in Ht.
          apply (Hd (map (senv e0 t) (eC e)) i); auto. rewrite HdC; apply inb_map_env, senv_ok; auto using UC. }
        split; auto. rewrite Hf by auto. now apply Hh. }
      destruct (NA A a (map (senv e0 s) (eA e)) DA HA) as (NA1 & NA2).
      { rewrite HdA; apply inb_map_env, senv_ok; auto using UA. }
      destruct (NA B b (map (senv e0 s) (eB e)) DB HB) as (NB1 & NB2).
      { rewrite HdB; apply inb_map_env, senv_ok; auto using UB'. }
      assert (EC : h' (addr C (map (senv e0 s) (eC e))) = Some (c1 (map (senv e0 s) (eC e)))).
      { rewrite Hf by auto. apply HC. rewrite HdC; apply inb_map_env, senv_ok; auto using UC. }
      unfold sum_body, py_base. cbn [pb_A pb_B pb_C]. fold U. cbv zeta.
      rewrite !(senv_at e0 s) by (auto using UA, UB', UC). cbn [run psafe].
      rewrite NA2, NB2, EC. split.
      + split; auto. eexists; split; eauto. split; auto. eexists; split; eauto. split; auto. eexists; split; eauto.
      + eexists. split; [reflexivity|]. cbv beta. rewrite upd_same. reflexivity.
    - intros h' (H1 & H2). apply HQ.
      + intros env Hok.
        set (s := dotp (map env U) (row_major_strides (map ext U))).
        assert (HokU : env_ok ext env U) by (intros l Hl; apply Hok, AC; auto).
        assert (Hs : 0 <= s < zprod (map ext U)) by (apply rm_range, inb_map_env; auto).
        assert (Es : unravel (map ext U) s = map env U).
        { unfold unravel. rewrite dims_to_strides_eq. apply rm_roundtrip, inb_map_env. auto. }
        assert (Ee : forall X, (forall l, In l X -> In l U) -> map (senv e0 s) X = map env X).
        { intros X HX. rewrite <- (senv_at e0 s X HX Hs), Es. now apply perm_table_env. }
        specialize (H1 s (proj2 (zrange_in _ _) Hs)). cbv beta in H1. rewrite (Ee (eC e) UC) in H1. rewrite H1.
        f_equal. f_equal. rewrite HL0. unfold einstein. simpl. unfold sval. rewrite (Ee _ UA), (Ee _ UB'). ring.
      + intros idx Hi Hne. rewrite H2; [now apply HC|]. intros Ho. apply in_map_iff in Ho as (s & Es & Hs).
        apply zrange_in in Hs.
        apply HI in Es; [|rewrite HdC; apply inb_map_env, senv_ok; auto using UC|auto].
        apply (Hne (senv e0 s)); auto. apply senv_ok; auto using UC.
      + intros z Hz. apply H2. intros Ho. apply in_map_iff in Ho as (s & <- & Hs). apply zrange_in in Hs. apply Hz.
        eexists. split; [|reflexivity]. rewrite HdC; apply inb_map_env, senv_ok; auto using UC.
  Qed.

  Lemma generic_ok : forall h k, holds h A a -> holds h B b -> holds h C c -> eC e <> [] -> (0 < k)%nat ->
    k = 1%nat \/ L = [] ->
    py_runs k (py_generic (py_base e) cp C ab A B) h (py_result ext (eC e) (eA e) (eB e) L cp ab C a b c h).
  Proof.
    intros h k HA HB HC Hne Hk Hkl. unfold py_runs, py_generic.
    match goal with |- context [if ?g then Throw else _] => replace g with false end.
    2:{ unfold py_base. cbn [pb_A pb_B pb_C]. rewrite !perm_table_length, HdA, HdB, HdC, !map_length, !Nat.eqb_refl. reflexivity. }
    rewrite (unique_dims_ok e ext C A B HdC HdA HdB). fold U.
    rewrite (loop_size_ok (ddims C)) by (rewrite HdC; destruct (eC e); simpl; congruence).
    rewrite (loop_size_ok (map ext U)).
    2:{ assert (H : forall l, In l (eC e) -> In l U) by exact UC. clearbody U. destruct (eC e) as [|x r]; [congruence|].
        specialize (H x (or_introl eq_refl)). destruct U; [contradiction|discriminate]. }
    cbn [bind]. eexists. split; [reflexivity|]. cbn [steps_spec]. intros threads HP.
    apply (scale_step cp C c h threads); auto.
    { rewrite HdC. apply nn. }
    intros h1 HC1 HF1.
    assert (HA1 : holds h1 A a) by (eapply cell_not; eauto).
    assert (HB1 : holds h1 B b) by (eapply cell_not; eauto).
    assert (Fin : forall h', (forall env, env_ok ext env (eC e) -> h' (addr C (map env (eC e))) =
         Some (oadd (omul cp (c (map env (eC e)))) (omul ab (einstein L (eA e) (eB e) ext a b env)))) ->
      (forall idx, inb idx (ddims C) -> (forall env, env_ok ext env (eC e) -> idx <> map env (eC e)) ->
         h' (addr C idx) = Some (omul cp (c idx))) ->
      (forall z, ~ cell C z -> h' z = h1 z) -> py_result ext (eC e) (eA e) (eB e) L cp ab C a b c h h').
    { intros h' P1 P2 P3. split; auto. split; auto. intros z Hz.
      assert (Nz : ~ cell C z) by (intros (i & Hi & ->); apply (Hz i Hi); auto). rewrite P3, HF1; auto. }
    destruct Hkl as [-> | Hl].
    - rewrite strided_one. unfold omp_for. cbn [map].
      destruct (sum_seq h1 _ HA1 HB1 HC1) as (h2 & E & P1 & P2 & P3).
      eapply par_one; [exact E|]. intros g Hg. apply Fin; intros; rewrite Hg; auto.
    - apply (sum_par h1 (fun i => omul cp (c i))); auto. now apply strided_perm.
  Qed.
End Generic.
