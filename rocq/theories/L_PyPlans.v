(** * L_PyPlans: which plan is chosen for common index patterns, and the
    direct-product, dot and outer-product plans. *)
From Coq Require Import List ZArith Lia Bool Permutation Ring_theory Ring.
From Verif Require Import Base Heap Conc M_Addr M_Einsum M_Blas M_Dispatch M_PyEinsum S_Blas S_Einsum S_PyEinsum
  L_Addr L_Einsum L_Blas L_Dispatch L_Paths L_Elt L_PyEinsum.
Import ListNotations.
Open Scope Z_scope.

(** ** Positions of blocks of labels *)
Definition disjl (P Q : list nat) : Prop := forall l, In l P -> In l Q -> False.

Lemma ftwp_app : forall P Q X, find_type_with_position (P ++ Q) X = find_type_with_position P X ++ find_type_with_position Q X.
Proof. intros. unfold find_type_with_position. apply flat_map_app. Qed.

Lemma ftp_app : forall t X Y k, find_type_pos t k (X ++ Y) = find_type_pos t k X ++ find_type_pos t (k + length X) Y.
Proof.
  induction X as [|x X IH]; intros Y k; simpl; [now rewrite Nat.add_0_r|].
  rewrite IH. replace (S k + length X)%nat with (k + S (length X))%nat by lia. destruct (Nat.eqb x t); auto.
Qed.

Lemma ftwp_none : forall P X, disjl P X -> find_type_with_position P X = [].
Proof.
  induction P as [|p P IH]; intros X H; simpl; auto. unfold find_type_with_position. cbn [flat_map].
  fold (find_type_with_position P X). rewrite IH, ftp_notin; auto; intros l; intros; eapply H; simpl; eauto.
Qed.

Lemma ftwp_block : forall P pre post, NoDup (pre ++ P ++ post) ->
  find_type_with_position P (pre ++ P ++ post) = combine P (seq (length pre) (length P)).
Proof.
  induction P as [|p P IH]; intros pre post HN; auto.
  unfold find_type_with_position. cbn [flat_map]. fold (find_type_with_position P (pre ++ (p :: P) ++ post)).
  assert (E : pre ++ (p :: P) ++ post = (pre ++ [p]) ++ P ++ post) by (rewrite <- app_assoc; reflexivity).
  rewrite E at 2. rewrite IH by (rewrite <- E; auto). rewrite app_length. cbn [length seq combine].
  rewrite Nat.add_1_r. change (p :: P) with ([p] ++ P). rewrite <- app_assoc, ftp_app. cbn [app].
  apply NoDup_remove_2 in HN. rewrite in_app_iff in HN. rewrite (ftp_notin p pre) by tauto. simpl.
  rewrite Nat.eqb_refl, (ftp_notin p (P ++ post)) by tauto. reflexivity.
Qed.
Lemma ftwp_first : forall P post, NoDup (P ++ post) -> find_type_with_position P (P ++ post) = combine P (seq 0 (length P)).
Proof. intros. apply (ftwp_block P [] post). auto. Qed.
Lemma ftwp_last : forall P pre, NoDup (pre ++ P) -> find_type_with_position P (pre ++ P) = combine P (seq (length pre) (length P)).
Proof. intros P pre H. assert (E := ftwp_block P pre []). rewrite app_nil_r in E. auto. Qed.
Lemma ftwp_all : forall P, NoDup P -> find_type_with_position P P = combine P (seq 0 (length P)).
Proof. intros P H. assert (E := ftwp_block P [] []). simpl in E. rewrite app_nil_r in E. auto. Qed.

Lemma combine_length_seq : forall (P : list nat) s, length (combine P (seq s (length P))) = length P.
Proof. intros. rewrite combine_length, seq_length. lia. Qed.
Lemma combine_fst : forall (P : list nat) s, map fst (combine P (seq s (length P))) = P.
Proof. induction P as [|p P IH]; intros s; simpl; auto. now rewrite IH. Qed.
Lemma combine_snd : forall (P : list nat) s, map snd (combine P (seq s (length P))) = seq s (length P).
Proof. induction P as [|p P IH]; intros s; simpl; auto. now rewrite IH. Qed.

Lemma contig_combine : forall P s, contiguous_positions (combine P (seq s (length P))) = true.
Proof.
  induction P as [|p P IH]; intros s; auto. destruct P as [|q P]; auto. specialize (IH (S s)).
  cbn [length seq combine contiguous_positions snd] in *. rewrite IH, andb_true_r. apply Z.eqb_eq. lia.
Qed.

Lemma same_order_combine : forall P s t, P <> [] ->
  is_same_ordering (combine P (seq s (length P))) (combine P (seq t (length P))) = true.
Proof.
  intros P s t H. unfold is_same_ordering. rewrite !combine_fst. destruct P as [|p P]; [congruence|].
  cbn [length seq combine]. destruct (list_eq_dec _ _ _); congruence.
Qed.

Lemma front_combine : forall P s, P <> [] -> front_pos (combine P (seq s (length P))) = Ok s.
Proof. intros [|p P] s H; [congruence|]. reflexivity. Qed.

Lemma max_combine : forall P s, P <> [] -> max_pos (combine P (seq s (length P))) = Ok (s + length P - 1)%nat.
Proof.
  intros [|p P] s H; [congruence|]. unfold max_pos. cbn [length seq combine snd]. f_equal.
  assert (G : forall (Q : list nat) (m s : nat), (m < s)%nat -> fold_left (fun m q => Nat.max m (snd q)) (combine Q (seq s (length Q))) m
            = match Q with [] => m | _ => (s + length Q - 1)%nat end).
  { clear. induction Q as [|q Q IH]; intros m s H; auto. cbn [length seq combine fold_left snd].
    replace (Nat.max m s) with s by lia. rewrite IH by lia. destruct Q; simpl; lia. }
  rewrite G by lia. destruct P; simpl; lia.
Qed.

Lemma distinct_combine : forall P s, distinct_pos (combine P (seq s (length P))) = seq s (length P).
Proof. intros. unfold distinct_pos. rewrite combine_snd. apply unique_id, seq_NoDup. Qed.

(** ** Index sets *)
Lemma py_intersect_nodup : forall S1 S2, NoDup S2 -> py_intersect S1 S2 = intersect S1 S2.
Proof.
  intros S1 S2 HN. induction S1 as [|x S1 IH]; auto. unfold py_intersect. cbn [flat_map]. fold (py_intersect S1 S2).
  rewrite IH. unfold intersect. cbn [filter]. fold (intersect S1 S2).
  replace (flat_map (fun m => if Nat.eqb x m then [x] else []) S2) with (if has_type x S2 then [x] else []).
  - destruct (has_type x S2); auto.
  - clear IH. destruct (has_type x S2) eqn:E.
    + apply has_type_In in E. apply in_split in E as (l1 & l2 & ->). apply NoDup_remove_2 in HN. rewrite in_app_iff in HN.
      rewrite flat_map_app. cbn [flat_map]. rewrite Nat.eqb_refl.
      assert (G : forall l, ~ In x l -> flat_map (fun m => if Nat.eqb x m then [x] else []) l = []).
      { induction l as [|y l IH]; intros Hn; simpl; auto. destruct (Nat.eqb_spec x y); [subst; simpl in Hn; tauto|].
        apply IH. simpl in Hn. tauto. }
      rewrite !G by tauto. reflexivity.
    + apply has_type_false in E. induction S2 as [|y l IH]; simpl; auto.
      destruct (Nat.eqb_spec x y); [subst; simpl in E; tauto|]. inversion HN; subst. apply IH; auto. simpl in E. tauto.
Qed.

Lemma filter_all : forall (f : nat -> bool) l, (forall x, In x l -> f x = true) -> filter f l = l.
Proof. induction l as [|x l IH]; intros H; simpl; auto. rewrite H by now left. f_equal. apply IH. intros; apply H; now right. Qed.
Lemma filter_none : forall (f : nat -> bool) l, (forall x, In x l -> f x = false) -> filter f l = [].
Proof. induction l as [|x l IH]; intros H; simpl; auto. rewrite H by now left. apply IH. intros; apply H; now right. Qed.

Lemma intersect_app_l : forall P Q X, intersect (P ++ Q) X = intersect P X ++ intersect Q X.
Proof. intros. apply filter_app. Qed.
Lemma intersect_sub : forall P X, (forall l, In l P -> In l X) -> intersect P X = P.
Proof. intros. apply filter_all. intros. apply has_type_In. auto. Qed.
Lemma intersect_disj : forall P X, disjl P X -> intersect P X = [].
Proof. intros P X H. apply filter_none. intros x Hx. apply has_type_false. intros H2. eapply H; eauto. Qed.
Lemma difference_disj : forall P X, disjl P X -> difference P X = P.
Proof. intros P X H. apply filter_all. intros x Hx. apply negb_true_iff, has_type_false. intros H2. eapply H; eauto. Qed.

Lemma no_hadamard_ok : forall e, NoDup (eA e) -> NoDup (eB e) -> NoDup (eC e) -> no_hadamard e = true.
Proof.
  intros e H1 H2 H3. apply hadamard_NoDup in H1, H2, H3. unfold no_hadamard, A_hadamard, B_hadamard, C_hadamard.
  now rewrite H1, H2, H3.
Qed.
Lemma same_indices_refl : forall X, same_indices X X = true.
Proof. intros. unfold same_indices. destruct (list_eq_dec _ _ _); congruence. Qed.

(** ** Choice of the plan *)
Lemma plan_direct : forall I, NoDup I -> I <> [] -> py_algorithm (mkEin I I I) = Ok PyDirect.
Proof.
  intros I HN Hne. unfold py_algorithm, py_dot_product, py_element_wise. cbn [eA eB eC].
  rewrite (no_hadamard_ok (mkEin I I I)) by auto. rewrite same_indices_refl. destruct I; [congruence|]. reflexivity.
Qed.
Lemma plan_dot : forall I, NoDup I -> py_algorithm (mkEin [] I I) = Ok PyDot.
Proof.
  intros I HN. unfold py_algorithm, py_dot_product. cbn [eA eB eC].
  rewrite (no_hadamard_ok (mkEin [] I I)) by (auto; constructor). rewrite same_indices_refl. reflexivity.
Qed.

Lemma plan_outer : forall P Q (sw : bool), NoDup (P ++ Q) -> P <> [] ->
  py_algorithm (mkEin (if sw then Q ++ P else P ++ Q) P Q)
  = Ok (if sw then PyGer (seq (length Q) (length P)) (seq 0 (length Q)) (negb (Nat.eqb (length Q) 0))
        else PyGer (seq 0 (length P)) (seq (length P) (length Q)) false).
Proof.
  intros P Q sw HN HP. set (e := mkEin (if sw then Q ++ P else P ++ Q) P Q).
  assert (HNP := NoDup_app_l _ _ _ HN). assert (HNQ := NoDup_app_r _ _ _ HN).
  assert (HD : disjl P Q).
  { intros l H1 H2. clear - HN H1 H2. induction P as [|p P IH]; [contradiction|]. simpl in HN. inversion HN; subst.
    destruct H1 as [->|H1]; auto. apply H3. apply in_or_app; auto. }
  assert (HD' : disjl Q P) by (intros l H1 H2; eapply HD; eauto).
  assert (HN' : NoDup (Q ++ P)) by (eapply Permutation_NoDup; [apply Permutation_app_comm|auto]).
  assert (HC : NoDup (eC e)) by (unfold e; destruct sw; auto).
  assert (EU : C_unique e = eC e) by (apply unique_id; auto).
  assert (TA : target_position_in_A e = combine P (seq 0 (length P))).
  { unfold target_position_in_A. rewrite EU. unfold e. cbn [eC eA]. destruct sw; rewrite ftwp_app.
    - rewrite (ftwp_none Q P), ftwp_all; auto.
    - rewrite (ftwp_none Q P), ftwp_all, app_nil_r; auto. }
  assert (TB : target_position_in_B e = combine Q (seq 0 (length Q))).
  { unfold target_position_in_B. rewrite EU. unfold e. cbn [eC eB]. destruct sw; rewrite ftwp_app.
    - rewrite (ftwp_none P Q), ftwp_all, app_nil_r; auto.
    - rewrite (ftwp_none P Q), ftwp_all; auto. }
  assert (CA : A_target_position_in_C e = combine P (seq (if sw then length Q else 0%nat) (length P))).
  { unfold A_target_position_in_C, e. cbn [eC eA]. destruct sw; [apply ftwp_last|apply ftwp_first]; auto. }
  assert (CB : B_target_position_in_C e = combine Q (seq (if sw then 0%nat else length P) (length Q))).
  { unfold B_target_position_in_C, e. cbn [eC eB]. destruct sw; [apply ftwp_first|apply ftwp_last]; auto. }
  assert (LAB : py_linksAB e = []).
  { unfold py_linksAB, e. cbn [eA eB]. rewrite py_intersect_nodup by auto. now apply intersect_disj. }
  unfold py_algorithm.
  assert (D0 : py_dot_product e = false).
  { unfold py_dot_product. replace (Nat.eqb (length (eC e)) 0) with false; auto. symmetry. apply Nat.eqb_neq.
    unfold e. cbn [eC]. destruct P; [congruence|]. destruct sw; rewrite app_length; simpl; lia. }
  rewrite D0.
  assert (D1 : py_element_wise e = false).
  { unfold py_element_wise. replace (same_indices (eB e) (eC e)) with false; [now rewrite andb_false_r|].
    unfold same_indices. destruct (list_eq_dec _ _ _) as [E|]; auto. exfalso. unfold e in E. cbn [eB eC] in E.
    apply (f_equal (@length nat)) in E. destruct P; [congruence|]. destruct sw; rewrite app_length in E; simpl in E; lia. }
  rewrite D1.
  assert (D2 : py_outer_product e = true).
  { unfold py_outer_product. rewrite LAB, TA, TB, !contig_combine, no_hadamard_ok; auto. }
  rewrite D2, CA, CB, front_combine by auto. cbn [bind]. rewrite !distinct_combine. destruct sw; auto.
Qed.

(** ** Extents *)
Lemma vat_map : forall (ext : nat -> Z) X i l, nth_error X i = Some l -> vat (map ext X) i = Ok (ext l).
Proof. intros. unfold vat. rewrite nth_error_map, H. reflexivity. Qed.

Lemma shape_prod_block : forall (ext : nat -> Z) P pre post acc,
  shape_prod (map ext (pre ++ P ++ post)) (seq (length pre) (length P)) acc = Ok (acc * zprod (map ext P)).
Proof.
  intros ext P. induction P as [|p P IH]; intros pre post acc; cbn [length seq shape_prod map].
  - f_equal. simpl. lia.
  - rewrite (vat_map ext _ _ p) by (rewrite nth_error_app2, Nat.sub_diag by lia; reflexivity). cbn [bind].
    replace (pre ++ (p :: P) ++ post) with ((pre ++ [p]) ++ P ++ post) by (rewrite <- app_assoc; reflexivity).
    replace (S (length pre)) with (length (pre ++ [p])) by (rewrite app_length; simpl; lia).
    rewrite IH. f_equal. simpl. lia.
Qed.
Lemma shape_prod_first : forall (ext : nat -> Z) P post acc,
  shape_prod (map ext (P ++ post)) (seq 0 (length P)) acc = Ok (acc * zprod (map ext P)).
Proof. intros. apply (shape_prod_block ext P []). Qed.
Lemma shape_prod_last : forall (ext : nat -> Z) P pre acc,
  shape_prod (map ext (pre ++ P)) (seq (length pre) (length P)) acc = Ok (acc * zprod (map ext P)).
Proof. intros. assert (E := shape_prod_block ext P pre [] acc). rewrite app_nil_r in E. auto. Qed.

(** The loop that indexes the [n] first of the link positions. *)
Lemma shape_prod_at_eq : forall (ext : nat -> Z) shape pos n acc, (n <= length pos)%nat ->
  shape_prod_at shape pos (seq 0 n) acc = shape_prod shape (firstn n pos) acc.
Proof.
  intros ext shape pos n acc Hn.
  assert (G : forall m s acc, (s + m <= length pos)%nat ->
    shape_prod_at shape pos (seq s m) acc = shape_prod shape (firstn m (skipn s pos)) acc).
  { induction m as [|m IH]; intros s a0 Hs; auto. cbn [seq shape_prod_at].
    destruct (nth_error pos s) as [p|] eqn:E; [|apply nth_error_None in E; lia].
    assert (Es : skipn s pos = p :: skipn (S s) pos).
    { clear - E. revert pos E. induction s as [|s IH]; intros [|x r] E; simpl in *; try discriminate; [congruence|]. now apply IH. }
    unfold vat at 1. rewrite E. cbn [bind]. rewrite Es. cbn [firstn shape_prod].
    destruct (vat shape p); auto. cbn [bind]. apply IH. lia. }
  apply (G n 0%nat). lia.
Qed.

Lemma contiguous_rm : forall d, py_contiguous d = true <-> rowmaj d.
Proof.
  intros d. unfold py_contiguous. rewrite dims_to_strides_eq. cbn [fst]. unfold rowmaj.
  destruct (list_eq_dec _ _ _); split; congruence.
Qed.

(** ** Direct product and dot product *)
Section Plans.
  Context {O : Ops} (HR : is_ring O).
  Notation T := (car O).
  Add Ring OR3 : (ir_rt O HR).

  Lemma nonneg_map : forall (ext : nat -> Z), (forall l, 0 <= ext l) -> forall X, nonneg (map ext X).
  Proof. intros ext H X. apply Forall_map, Forall_forall. auto. Qed.

  (** A tensor without repeated labels: every position is given by an environment. *)
  Lemma cover : forall (ext : nat -> Z) X idx, NoDup X -> inb idx (map ext X) ->
    exists env, env_ok ext env X /\ idx = map env X.
  Proof.
    intros ext X idx HN Hi. assert (E := inb_length _ _ Hi). rewrite map_length in E.
    exists (upds X idx (fun _ => 0)). rewrite upds_map by auto. split; auto. apply env_ok_map. rewrite upds_map; auto.
  Qed.

  Lemma result_nodup : forall ext Ci Ai Bi L (cp ab : T) C a b c h h', NoDup Ci -> consistent ext Ci C ->
    (forall env, env_ok ext env Ci -> h' (addr C (map env Ci)) =
     Some (oadd (omul cp (c (map env Ci))) (omul ab (einstein L Ai Bi ext a b env)))) ->
    (forall z, ~ cell C z -> h' z = h z) -> py_result ext Ci Ai Bi L cp ab C a b c h h'.
  Proof.
    intros ext Ci Ai Bi L cp ab C a b c h h' HN HD H1 H2. split; auto. split.
    - intros idx Hi Hne. rewrite HD in Hi. destruct (cover ext Ci idx HN Hi) as (env & Hok & ->).
      exfalso. apply (Hne env Hok). auto.
    - intros z Hz. apply H2. intros (i & Hi & ->). apply (Hz i Hi). auto.
  Qed.

  Lemma direct_ok : forall k sz (cp ab : T) I L ext A B C a b c h, NoDup I -> I <> [] ->
    py_call h ext I I I L A B C a b c ->
    py_runs k (py_einsum (mkEin I I I) sz cp C ab A B) h (py_result ext I I I L cp ab C a b c h).
  Proof.
    intros k sz cp ab I L ext A B C a b c h HN Hne ((HLn & HL) & Hx & HdA & HdB & HdC & HA & HB & HC & HI & DA & DB).
    assert (L = []) by (destruct L as [|l L]; auto; exfalso; destruct (proj1 (HL l) (or_introl eq_refl)); tauto). subst L.
    unfold py_einsum. rewrite plan_direct by auto. cbn [bind]. unfold py_execute, py_direct.
    assert (EN : pb_num (py_base (mkEin I I I)) = length I).
    { unfold py_base. cbn [pb_num eA eB eC]. apply Permutation_length, NoDup_Permutation; auto; [apply unique_NoDup|].
      intros l. rewrite in_unique, !in_app_iff. tauto. }
    rewrite EN. unfold consistent in *. rewrite HdA, HdB, HdC, !map_length, !Nat.eqb_refl. cbn [negb orb].
    rewrite dims_to_strides_eq. cbn [snd]. eexists. split; [reflexivity|]. cbn [steps_spec]. intros threads HP.
    assert (NN := nonneg_map ext Hx I). set (ui := unravel (map ext I)).
    assert (UI : forall s, In s (zrange (zprod (map ext I))) -> inb (ui s) (map ext I)).
    { intros s Hs. apply zrange_in in Hs. now apply unravel_inb. }
    apply (par_cells_Q Z T (zrange (zprod (map ext I))) threads (fun s => addr C (ui s))
      (fun s => Some (oadd (omul cp (c (ui s))) (omul ab (omul (a (ui s)) (b (ui s))))))); auto.
    - rewrite <- (map_map ui (addr C)).
      eapply Permutation_NoDup; [apply Permutation_map, Permutation_sym, unravel_perm; auto|]. rewrite <- HdC. now apply addr_NoDup.
    - intros s h' Hs Hf. assert (HU := UI s Hs).
      assert (G : forall d f, disj C d -> holds h d f -> ddims d = map ext I ->
        ~ owned (zrange (zprod (map ext I))) (fun s => addr C (ui s)) (addr d (ui s)) /\ h' (addr d (ui s)) = Some (f (ui s))).
      { intros d f Hd Hh Ed.
        assert (N : ~ owned (zrange (zprod (map ext I))) (fun s => addr C (ui s)) (addr d (ui s))).
        { intros Ho. apply in_map_iff in Ho as (t & Et & Ht). apply (Hd (ui t) (ui s)); auto; [rewrite HdC|rewrite Ed]; auto. }
        split; auto. rewrite Hf by auto. apply Hh. now rewrite Ed. }
      destruct (G A a DA HA HdA) as (NA & EA). destruct (G B b DB HB HdB) as (NB & EB).
      assert (EC : h' (addr C (ui s)) = Some (c (ui s))) by (rewrite Hf by auto; apply HC; now rewrite HdC).
      unfold direct_body. rewrite HdA. fold (ui s). destruct (oeqb cp o0) eqn:Ec; cbn [psafe run]; rewrite EA, EB, EC.
      + split; [split; auto; eexists; split; eauto; split; auto; eexists; split; eauto|].
        eexists. split; [reflexivity|]. cbv beta. rewrite upd_same. f_equal. apply (ir_eqb O HR) in Ec. subst. ring.
      + split; [split; auto; eexists; split; eauto; split; auto; eexists; split; eauto; split; auto; eexists; split; eauto|].
        eexists. split; [reflexivity|]. cbv beta. rewrite upd_same. f_equal. ring.
    - intros h' (H1 & H2). apply result_nodup; auto.
      + intros env Hok. assert (Hi := inb_map_env _ _ _ Hok). apply in_indices in Hi.
        eapply Permutation_in in Hi; [|apply Permutation_sym, unravel_perm; auto].
        apply in_map_iff in Hi as (s & Es & Hs). specialize (H1 s Hs). cbv beta in H1. unfold ui in H1. rewrite Es in H1. exact H1.
      + intros z Hz. apply H2. intros Ho. apply in_map_iff in Ho as (s & <- & Hs). apply Hz. exists (ui s). rewrite HdC. auto.
  Qed.

  Lemma reduce_spec : forall (cc : Z) (f : Z -> prog T T) (g : Z -> T) (h : heap T) threads l v,
    Permutation (concat threads) l -> (forall x, In x l -> run (f x) h = Ok (g x, h)) -> h cc = Some v ->
    exec (reduce cc f threads) h = Ok (upd h cc (oadd v (lsum l g))).
  Proof.
    intros cc f g h threads l v HP Hf Hv. unfold reduce, exec. cbn [run]. rewrite Hv.
    assert (G1 : forall share s, (forall x, In x share -> In x l) ->
      run (pfold share (fun s i => pbind (f i) (fun v => PRet (oadd s v))) s) h
      = Ok (oadd s (lsum share g), h)).
    { induction share as [|x r IH]; intros s Hin; simpl.
      - f_equal. f_equal. ring.
      - rewrite !run_bind. rewrite Hf by (apply Hin; simpl; auto). simpl.
        rewrite IH by (intros; apply Hin; simpl; auto). f_equal. f_equal. ring. }
    assert (G2 : forall ts tot, (forall x, In x (concat ts) -> In x l) ->
      run (pfold ts (fun tot share =>
        pbind (pfold share (fun s i => pbind (f i) (fun v => PRet (oadd s v))) o0)
            (fun s => PRet (oadd tot s))) tot) h = Ok (oadd tot (lsum (concat ts) g), h)).
    { induction ts as [|t r IH]; intros tot Hin; simpl.
      - f_equal. f_equal. ring.
      - simpl in Hin. rewrite !run_bind. rewrite G1 by (intros; apply Hin; apply in_or_app; auto). simpl.
        rewrite IH by (intros; apply Hin; apply in_or_app; auto). f_equal. f_equal.
        rewrite (lsum_app O HR). ring. }
    rewrite run_bind, G2 by (intros x Hx; eapply Permutation_in; eauto). cbn [run]. rewrite Hv. cbn [bind snd].
    rewrite (lsum_perm O HR) with (1 := HP). reflexivity.
  Qed.

  Lemma dot_plan_ok : forall k sz (cp ab : T) I L ext A B C a b c h, NoDup I -> I <> [] ->
    py_call h ext [] I I L A B C a b c ->
    py_runs k (py_einsum (mkEin [] I I) sz cp C ab A B) h (py_result ext [] I I L cp ab C a b c h).
  Proof.
    intros k sz cp ab I L ext A B C a b c h HN Hne ((HLn & HL) & Hx & HdA & HdB & HdC & HA & HB & HC & HI & DA & DB).
    unfold py_einsum. rewrite plan_dot by auto. cbn [bind]. unfold py_execute, py_dot. unfold consistent in *.
    rewrite HdA, HdB, !map_length, Nat.eqb_refl. cbn [negb].
    rewrite loop_size_ok by (destruct I; simpl; congruence). cbn [bind]. eexists. split; [reflexivity|]. cbn [steps_spec].
    assert (EC : h (dbase C) = Some (c [])).
    { replace (dbase C) with (addr C []) by (unfold addr; destruct (dstrides C); simpl; lia). apply HC. rewrite HdC. constructor. }
    assert (CC : cell C (dbase C)).
    { exists []. rewrite HdC. split; [constructor|]. unfold addr; destruct (dstrides C); simpl; lia. }
    set (h1 := upd h (dbase C) (omul cp (c []))). exists h1. split.
    { unfold exec. destruct (oeqb cp o0) eqn:Ec; cbn [run]; rewrite EC; cbn [bind snd]; unfold h1; do 2 f_equal.
      - apply (ir_eqb O HR) in Ec. subst. ring.
      - ring. }
    intros threads HP. eexists. split.
    { apply reduce_spec with (l := zrange (zprod (map ext I)))
        (g := fun s => omul ab (omul (a (unravel (map ext I) s)) (b (unravel (map ext I) s)))) (v := omul cp (c [])); auto.
      - intros s Hs. cbn [run].
        assert (HU : inb (unravel (map ext I) s) (map ext I)) by (apply unravel_inb; [apply nonneg_map; auto|now apply zrange_in]).
        unfold h1. assert (EP : addr C [] = dbase C) by (unfold addr; destruct (dstrides C); simpl; lia).
        rewrite !upd_other.
        + assert (E1 := HA (unravel (map ext I) s) ltac:(rewrite HdA; auto)).
          assert (E2 := HB (unravel (map ext I) s) ltac:(rewrite HdB; auto)). rewrite E1, E2. do 2 f_equal. ring.
        + rewrite <- EP. intros E. apply (DB [] (unravel (map ext I) s)); auto; [rewrite HdC; constructor|now rewrite HdB].
        + rewrite <- EP. intros E. apply (DA [] (unravel (map ext I) s)); auto; [rewrite HdC; constructor|now rewrite HdA].
      - unfold h1. now rewrite upd_same. }
    cbn beta. apply result_nodup; auto.
    - constructor.
    - intros env _. cbn [map]. replace (addr C []) with (dbase C) by (unfold addr; destruct (dstrides C); simpl; lia).
      rewrite upd_same. f_equal. f_equal.
      unfold einstein. rewrite (Sum_over_perm HR L I); auto.
      + rewrite (Sum_over_indices HR), <- (lsum_mul_l O HR).
        rewrite <- (lsum_perm O HR _ _ _ _ (unravel_perm _ (nonneg_map ext Hx I))), lsum_map. apply lsum_ext. intros s Hs.
        assert (HU : inb (unravel (map ext I) s) (map ext I)) by (apply unravel_inb; [apply nonneg_map; auto|now apply zrange_in]).
        apply inb_length in HU. rewrite map_length in HU. rewrite upds_map; auto.
      + apply einstein_proper.
      + apply NoDup_Permutation; auto. intros l. rewrite HL. simpl. tauto.
    - intros z Hz. unfold h1. rewrite !upd_other; auto; intros ->; auto.
  Qed.
End Plans.
