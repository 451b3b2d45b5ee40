(** * L_Fold: lemmas for unfold and Khatri-Rao. *)
From Coq Require Import List ZArith Lia Bool Permutation.
From Verif Require Import Base Heap Conc M_Addr S_Addr L_Addr M_Elt L_Elt M_Einsum S_Einsum L_Einsum M_Blas L_Blas
  M_Dispatch L_Dispatch M_Fold S_Fold.
Import ListNotations.
Open Scope Z_scope.

(** ** Parallel loops whose iterations are themselves loops over cells *)

Lemma pseq_app_run : forall T X (l m : list X) (f : X -> prog T unit) h,
  run (pseq (l ++ m) f) h = run (pbind (pseq l f) (fun _ => pseq m f)) h.
Proof.
  induction l as [|x l IH]; intros m f h; simpl; auto. rewrite !run_bind.
  destruct (run (f x) h) as [[u h1]| |]; auto. rewrite IH, !run_bind. reflexivity.
Qed.
Lemma pseq_app_safe : forall T X own sh (l m : list X) (f : X -> prog T unit) h,
  psafe own sh (pseq (l ++ m) f) h <-> psafe own sh (pbind (pseq l f) (fun _ => pseq m f)) h.
Proof.
  induction l as [|x l IH]; intros m f h; simpl; [tauto|]. rewrite !psafe_bind. split.
  - intros (H1 & H2). split; [split; auto|].
    + intros u h1 E. specialize (H2 u h1 E). apply IH, psafe_bind in H2. tauto.
    + intros u h1 E. rewrite run_bind in E. destruct (run (f x) h) as [[v h2]| |] eqn:E1; try discriminate.
      specialize (H2 v h2 eq_refl). apply IH, psafe_bind in H2. destruct H2 as (_ & H2). eauto.
  - intros ((H1 & H2) & H3). split; auto. intros u h1 E. apply IH, psafe_bind. split; [eauto|].
    intros v h2 E2. apply (H3 v h2). rewrite run_bind, E. auto.
Qed.

Definition flat {X Y} (ys : list Y) (r : list X) : list (X * Y) := flat_map (fun x => map (pair x) ys) r.

Lemma pseq_map_run : forall T X Y (g : X -> Y) (l : list X) (f : Y -> prog T unit) h,
  run (pseq (map g l) f) h = run (pseq l (fun x => f (g x))) h.
Proof.
  induction l as [|x l IH]; intros f h; simpl; auto. rewrite !run_bind.
  destruct (run (f (g x)) h) as [[u h1]| |]; auto.
Qed.
Lemma pseq_map_safe : forall T X Y own sh (g : X -> Y) (l : list X) (f : Y -> prog T unit) h,
  psafe own sh (pseq (map g l) f) h <-> psafe own sh (pseq l (fun x => f (g x))) h.
Proof.
  induction l as [|x l IH]; intros f h; simpl; [tauto|]. rewrite !psafe_bind.
  split; intros (H1 & H2); (split; [auto|]); intros u h1 E; apply IH; eauto.
Qed.

Lemma nested_run : forall T X Y (ys : list Y) (r : list X) (f : X * Y -> prog T unit) h,
  run (pseq (flat ys r) f) h = run (pseq r (fun x => pseq ys (fun y => f (x, y)))) h.
Proof.
  induction r as [|x r IH]; intros f h; simpl; auto. rewrite pseq_app_run, !run_bind, pseq_map_run.
  destruct (run (pseq ys (fun y => f (x, y))) h) as [[u h1]| |]; auto.
Qed.
Lemma nested_safe : forall T X Y own sh (ys : list Y) (r : list X) (f : X * Y -> prog T unit) h,
  psafe own sh (pseq (flat ys r) f) h <-> psafe own sh (pseq r (fun x => pseq ys (fun y => f (x, y)))) h.
Proof.
  induction r as [|x r IH]; intros f h; simpl; [tauto|]. rewrite pseq_app_safe, !psafe_bind, pseq_map_safe.
  split; intros (H1 & H2); (split; [auto|]); intros u h1 E; apply IH.
  - apply (H2 u h1). rewrite pseq_map_run. auto.
  - apply (H2 u h1). rewrite <- pseq_map_run. auto.
Qed.

Theorem par_cells_nested : forall X Y T (l : list X) (ys : list Y) (threads : list (list X)) (ad : X * Y -> Z)
    (val : X * Y -> option T) (body : X * Y -> prog T unit) (h : heap T),
  Permutation (concat threads) l ->
  NoDup (map ad (flat ys l)) ->
  task_ok (flat ys l) ad val body h ->
  par_spec (map (fun r => pseq r (fun x => pseq ys (fun y => body (x, y)))) threads) h (fun h' =>
    (forall x, In x (flat ys l) -> h' (ad x) = val x) /\
    (forall a, ~ owned (flat ys l) ad a -> h' a = h a)).
Proof.
  intros X Y T l ys threads ad val body h HP0 Hnd Hok.
  set (fth := map (flat ys) threads).
  assert (HP : Permutation (concat fth) (flat ys l)).
  { unfold fth, flat. rewrite <- flat_map_concat_map.
    replace (flat_map _ threads) with (flat_map (fun x => map (pair x) ys) (concat threads)).
    - apply Permutation_flat_map; auto.
    - clear. induction threads as [|t ts IH]; simpl; auto. rewrite flat_map_app. now rewrite IH. }
  assert (HPm := Permutation_map ad HP).
  assert (Hndc : NoDup (concat (map (map ad) fth))).
  { rewrite <- concat_map. eapply Permutation_NoDup; [apply Permutation_sym; eauto|auto]. }
  assert (HT : forall i r, nth_error fth i = Some r ->
     NoDup (map ad r) /\ (forall x, In x r -> In x (flat ys l))).
  { intros i r Hi. split.
    - clear - Hndc Hi. revert i Hi. induction fth as [|t ts IH]; intros [|i] Hi; simpl in *; try discriminate.
      + injection Hi as ->. eapply NoDup_app_l; eauto.
      + eapply IH; eauto. eapply NoDup_app_r; eauto.
    - intros x Hx. eapply Permutation_in; eauto. apply in_concat. exists r. split; auto. eapply nth_error_In; eauto. }
  set (own := fun i a => exists r, nth_error fth i = Some r /\ In a (map ad r)).
  set (fin := fun i => match nth_error fth i with
     | Some r => match run (pseq r body) h with Ok (_, g) => g | _ => h end | None => h end).
  set (ps := map (fun r => pseq r (fun x => pseq ys (fun y => body (x, y)))) threads).
  assert (HD : par_spec ps h (fun h' =>
    (forall i a, (i < length ps)%nat -> own i a -> h' a = fin i a) /\
    (forall a, (forall i, (i < length ps)%nat -> ~ own i a) -> h' a = h a))).
  { apply par_drf with (shared := fun a => ~ owned (flat ys l) ad a).
    - intros i j a (r & Hr & Ha) (r' & Hr' & Ha').
      apply (NoDup_concat_disj _ (map (map ad) fth) i j (map ad r) (map ad r') a); auto;
        rewrite nth_error_map; [rewrite Hr|rewrite Hr']; auto.
    - intros i a (r & Hr & Ha) Hn. apply Hn. apply in_map_iff in Ha as (x & <- & Hx).
      apply in_map. eapply HT; eauto.
    - intros i p Hi. unfold ps in Hi. rewrite nth_error_map in Hi. destruct (nth_error threads i) as [r0|] eqn:Er0; [|discriminate].
      injection Hi as <-.
      assert (Er : nth_error fth i = Some (flat ys r0)) by (unfold fth; rewrite nth_error_map, Er0; auto).
      destruct (HT i _ Er) as (Hr1 & Hr2).
      destruct (run_tasks_seq _ T _ ad val body h Hnd Hok _ h Hr1 Hr2) as (Hs & h2 & E2 & _); auto.
      split.
      + apply nested_safe. eapply psafe_mono; [| |exact Hs]; simpl; auto. intros a Ha. exists (flat ys r0). auto.
      + rewrite <- nested_run. unfold fin. rewrite Er, E2. auto. }
  assert (HLn : length ps = length fth) by (unfold ps, fth; now rewrite !map_length).
  destruct HD as (HD & HA). split; auto. intros ps' h' Hst. destruct (HD ps' h' Hst) as (H1 & H2 & H3).
  split; [auto|]. split; [auto|]. intros Hdone. destruct (H3 Hdone) as (H4 & H5). split.
  - intros x Hx.
    assert (Hc : In x (concat fth)) by (eapply Permutation_in; [apply Permutation_sym; eauto|auto]).
    apply in_concat in Hc as (r & Hr & Hxr). apply In_nth_error in Hr as (i & Hi).
    rewrite (H4 i (ad x)).
    + unfold fin. rewrite Hi. destruct (HT i r Hi) as (Hr1 & Hr2).
      destruct (run_tasks_seq _ T _ ad val body h Hnd Hok r h Hr1 Hr2) as (_ & h2 & E2 & Hv & _); auto.
      rewrite E2. auto.
    + rewrite HLn. apply nth_error_Some. congruence.
    + exists r. split; auto. now apply in_map.
  - intros a Ha. apply H5. intros i Hi (r & Hr & Har). apply Ha.
    apply in_map_iff in Har as (x & <- & Hx). apply in_map. eapply HT; eauto.
Qed.

(** ** Lists *)
Lemma rowcode_dotp : forall dims idx, length idx = length dims -> rowcode dims idx = dotp idx (row_major_strides dims).
Proof.
  induction dims as [|d ds IH]; intros [|i is] H; simpl in *; try discriminate; auto.
  rewrite rms_cons. simpl. rewrite IH by lia. auto.
Qed.

Lemma rowcode_app : forall D1 D2 i1 i2, length i1 = length D1 -> length i2 = length D2 ->
  rowcode (D1 ++ D2) (i1 ++ i2) = rowcode D1 i1 * zprod D2 + rowcode D2 i2.
Proof.
  intros. rewrite !rowcode_dotp by (rewrite ?app_length; congruence). rewrite dotp_pair by auto. auto.
Qed.

Lemma indices1 : forall n, indices [n] = map (fun z => [z]) (zrange n).
Proof. intros. simpl. induction (zrange n) as [|x l IH]; simpl; f_equal; auto. Qed.

Lemma combine_nth_In : forall A (l : list A) n z x, 0 <= z -> Z.of_nat (length l) <= n ->
  nth_error l (Z.to_nat z) = Some x -> In (z, x) (combine (zrange n) l).
Proof.
  intros A l n z x Hz Hn Hx.
  assert (HL : (Z.to_nat z < length l)%nat) by (apply nth_error_Some; congruence).
  assert (E : nth_error (combine (zrange n) l) (Z.to_nat z) = Some (z, x)); [|eapply nth_error_In; eauto].
  assert (G : forall (a : list Z) (b : list A) k u v, nth_error a k = Some u -> nth_error b k = Some v ->
     nth_error (combine a b) k = Some (u, v)).
  { induction a as [|a0 a IH]; intros [|b0 b] [|k] u v H1 H2; simpl in *; try discriminate; auto.
    congruence. }
  apply G; auto. unfold zrange. rewrite nth_error_map.
  rewrite (nth_error_nth' (seq 0 (Z.to_nat n)) 0%nat) by (rewrite seq_length; lia).
  rewrite seq_nth by lia. simpl. f_equal. lia.
Qed.

Lemma map_fst_combine : forall A B (a : list A) (b : list B), length a = length b -> map fst (combine a b) = a.
Proof. induction a as [|x a IH]; intros [|y b] H; simpl in *; try discriminate; auto. f_equal. apply IH. lia. Qed.

Lemma map_nth_seq : forall (l : list Z) d, map (fun k => nth k l d) (seq 0 (length l)) = l.
Proof.
  intros. apply nth_ext with (d := d) (d' := d); [now rewrite map_length, seq_length|].
  intros n Hn. rewrite map_length, seq_length in Hn.
  rewrite nth_indep with (d' := (fun k => nth k l d) 0%nat) by (rewrite map_length, seq_length; auto).
  rewrite (map_nth (fun k => nth k l d)), seq_nth by auto. reflexivity.
Qed.

Lemma without_length : forall T mode (l : list T), (mode < length l)%nat -> length (without mode l) = (length l - 1)%nat.
Proof. intros. unfold without. rewrite app_length, firstn_length, skipn_length. lia. Qed.

(** ** Unfold *)
Section UnfoldL.
  Context {T : Type}.
  Variables (zero : T) (mode : nat) (dims : list Z) (sbase base : Z).
  Hypothesis Hmode : (mode < length dims)%nat.
  Hypothesis Hrank : (length dims <= 16)%nat.
  Hypothesis Hd : Forall (fun d => 0 <= d < 2 ^ 31) dims.
  Let rank := length dims.
  Let source := tensor_ctor sbase dims.
  Let others := seq 0 mode ++ seq (S mode) (rank - S mode).

  Lemma seq_split3 : seq 0 rank = seq 0 mode ++ mode :: seq (S mode) (rank - S mode).
  Proof.
    replace rank with (mode + S (rank - S mode))%nat at 1 by (unfold rank; lia). rewrite seq_app. reflexivity.
  Qed.

  Lemma link_eq : unfold_link mode rank = [mode].
  Proof.
    unfold unfold_link, unfold_target_indices, unfold_source_indices, intersect. simpl.
    assert (has_type mode (seq 0 rank) = true) as ->.
    { apply has_type_In, in_seq. unfold rank. lia. }
    assert (has_type Zlabel (seq 0 rank) = false) as ->; auto.
    apply has_type_false. rewrite in_seq. unfold Zlabel, rank. lia.
  Qed.

  Lemma source_only_eq : unfold_source_only mode rank = others.
  Proof.
    unfold unfold_source_only, difference. rewrite link_eq. unfold unfold_source_indices. rewrite seq_split3, filter_app.
    cbn [filter]. unfold has_type at 2. cbn [existsb]. rewrite Nat.eqb_refl. cbn [orb negb]. unfold others. 
    assert (G : forall l, ~ In mode l -> filter (fun k => negb (has_type k [mode])) l = l).
    { induction l as [|x l IH]; intros HN; simpl in *; auto. rewrite orb_false_r.
      destruct (Nat.eqb_spec x mode) as [->|Hx]; [tauto|]. simpl. rewrite IH; tauto. }
    rewrite !G; auto; rewrite in_seq; lia.
  Qed.

  Lemma map_others : forall (l : list Z), length l = rank -> map (fun k => nth k l 0) others = without mode l.
  Proof.
    intros l Hl. unfold others. rewrite map_app.
    assert (E := map_nth_seq l 0). rewrite Hl, seq_split3, map_app in E. cbn [map] in E.
    unfold without. set (a := map _ (seq 0 mode)) in *. set (b := map _ (seq (S mode) _)) in *.
    assert (La : length a = mode) by (unfold a; now rewrite map_length, seq_length).
    rewrite <- E. rewrite firstn_app, La, Nat.sub_diag, app_nil_r, firstn_all2 by lia. f_equal.
    rewrite skipn_app, La. rewrite skipn_all2 by lia. replace (S mode - mode)%nat with 1%nat by lia. reflexivity.
  Qed.

  Let ext := fun k => nth k dims 0.
  Lemma ext_ok : forall k, (k < rank)%nat -> 0 <= ext k < 2 ^ 31.
  Proof. intros k Hk. unfold ext. rewrite Forall_forall in Hd. apply Hd, nth_In. auto. Qed.
  Lemma source_dims : ddims source = map ext (seq 0 rank).
  Proof. simpl. symmetry. apply map_nth_seq. Qed.

  Lemma unfold_dims_eq : unfold_dims mode source = [nth mode dims 0; zprod (without mode dims)].
  Proof.
    unfold unfold_dims, tdim. simpl ddims. f_equal. f_equal. fold rank.
    assert (G : forall l acc, fold_left (fun acc i => if Nat.eqb i mode then acc else acc * nth i dims 0) l acc =
      acc * zprod (map ext (filter (fun k => negb (has_type k [mode])) l))).
    { induction l as [|x l IH]; intros acc; simpl; [lia|]. rewrite orb_false_r.
      destruct (Nat.eqb x mode); simpl; rewrite IH; auto. rewrite <- Z.mul_assoc. reflexivity. }
    rewrite G, Z.mul_1_l. f_equal. rewrite <- map_others by auto. f_equal.
    rewrite <- source_only_eq. unfold unfold_source_only, difference. rewrite link_eq. reflexivity.
  Qed.

  Let target := tensor_ctor base (unfold_dims mode source).

  Lemma rows_eq : unfold_rows mode source target = map (fun i => [i]) (zrange (nth mode dims 0)).
  Proof.
    unfold unfold_rows. simpl ddims. fold rank. rewrite link_eq. unfold unfold_target_indices, find_type_with_position.
    cbn [flat_map find_type_pos]. rewrite Nat.eqb_refl.
    destruct (Nat.eqb_spec Zlabel mode) as [E|_]; [unfold Zlabel in E; lia|].
    unfold get_dim_ranges_for. cbn [app map snd]. unfold tdim. simpl ddims. cbn [nth].
    change (tdim source mode) with (ext mode). rewrite int_extent; [apply indices1|]. exact (ext_ok mode Hmode).
  Qed.

  Lemma cols_eq : unfold_cols mode source = indices (without mode dims).
  Proof.
    unfold unfold_cols. simpl ddims. fold rank. unfold unfold_source_indices.
    rewrite link_dims_eq with (ext := ext); [|apply source_dims| |].
    - f_equal. rewrite source_only_eq. apply map_others. auto.
    - intros l Hl. apply in_seq in Hl. apply ext_ok. lia.
    - intros l Hl. unfold unfold_source_only in Hl. apply in_difference in Hl as (Hl & _).
      apply NoDup_count_occ'; auto. apply seq_NoDup.
  Qed.

  Lemma without_nonneg : Forall (fun d => 0 <= d) (without mode dims).
  Proof.
    rewrite <- map_others by auto. apply Forall_map, Forall_forall. intros k Hk.
    apply (ext_ok k). unfold others in Hk. apply in_app_or in Hk as [Hk|Hk]; apply in_seq in Hk; unfold rank in *; lia.
  Qed.

  Lemma others_in : forall k, (k < rank)%nat -> In k others \/ In k [mode].
  Proof.
    intros k Hk. assert (H : In k (seq 0 rank)) by (apply in_seq; lia). rewrite seq_split3 in H.
    unfold others. apply in_app_or in H as [H|[H|H]].
    - left. apply in_or_app; auto.
    - right. simpl; auto.
    - left. apply in_or_app; auto.
  Qed.
  Lemma others_NoDup : NoDup (others ++ [mode]).
  Proof.
    apply Permutation_NoDup with (l := seq 0 rank); [|apply seq_NoDup]. rewrite seq_split3. unfold others.
    rewrite <- app_assoc. apply Permutation_app_head. apply Permutation_cons_append.
  Qed.

  (** The element read for a row and a combination of the other indices. *)
  Definition sidx (l sc : list Z) : list Z := map (construct_index others sc [mode] l) (seq 0 rank).

  Lemma sidx_of : forall idx, inb idx dims -> sidx [nth mode idx 0] (without mode idx) = idx.
  Proof.
    intros idx Hi. assert (HL := inb_length _ _ Hi). rewrite <- map_others by auto. unfold sidx.
    transitivity (map (fun k => nth k idx 0) (seq 0 rank)); [|unfold rank; rewrite <- HL; apply map_nth_seq].
    apply map_ext_in. intros k Hk. apply in_seq in Hk.
    apply (construct_index_env others [mode] (fun k => nth k idx 0)). apply others_in. lia.
  Qed.

  Lemma sidx_inb : forall i sc, 0 <= i < nth mode dims 0 -> inb sc (without mode dims) -> inb (sidx [i] sc) dims.
  Proof.
    intros i sc Hi Hs. assert (HL := inb_length _ _ Hs). rewrite without_length in HL by auto.
    assert (Lo : length others = (rank - 1)%nat) by (unfold others; rewrite app_length, !seq_length; unfold rank; lia).
    set (env := construct_index (others ++ [mode]) (sc ++ [i]) [] []).
    assert (E := env_of_comb (others ++ [mode]) (sc ++ [i]) others_NoDup). rewrite !app_length in E. simpl in E.
    specialize (E ltac:(rewrite HL, Lo; reflexivity)). fold env in E. rewrite map_app in E.
    assert (E1 : map env others = sc /\ map env [mode] = [i]).
    { apply app_inj_tail in E. destruct E as (-> & E). simpl. rewrite E. auto. }
    destruct E1 as (E1 & E2). unfold sidx.
    replace (map (construct_index others sc [mode] [i]) (seq 0 rank)) with (map env (seq 0 rank)).
    - change dims with (ddims source). rewrite source_dims. apply inb_map_env. intros k Hk. apply in_seq in Hk.
      destruct (others_in k ltac:(lia)) as [Ho|Ho].
      + assert (Hok : env_ok ext env others).
        { apply env_ok_map. rewrite E1. unfold ext. rewrite map_others by auto. auto. }
        apply Hok. auto.
      + destruct Ho as [<-|[]]. simpl in E2. injection E2 as ->. unfold ext. auto.
    - apply map_ext_in. intros k Hk. apply in_seq in Hk. rewrite <- E1, <- E2. symmetry.
      apply construct_index_env. apply others_in. lia.
  Qed.

  Let zs := combine (zrange (Z.of_nat (length (unfold_cols mode source)))) (unfold_cols mode source).
  Definition uad (x : list Z * (Z * list Z)) : Z := addr target [nth 0 (fst x) (-1); fst (snd x)].
  Definition uval (f : list Z -> T) (x : list Z * (Z * list Z)) : option T := Some (f (sidx (fst x) (snd (snd x)))).

  Lemma flat_in : forall x, In x (flat zs (unfold_rows mode source target)) ->
    exists i z sc, x = ([i], (z, sc)) /\ 0 <= i < nth mode dims 0 /\ inb sc (without mode dims) /\ 0 <= z < zprod (without mode dims).
  Proof.
    intros x Hx. unfold flat in Hx. apply in_flat_map in Hx as (l & Hl & Hx). rewrite rows_eq in Hl.
    apply in_map_iff in Hl as (i & <- & Hi). apply in_map_iff in Hx as ((z, sc) & <- & Hx). exists i, z, sc.
    apply zrange_in in Hi. unfold zs in Hx. assert (Hx1 := in_combine_l _ _ _ _ Hx). apply in_combine_r in Hx.
    rewrite cols_eq in *. apply in_indices in Hx. apply zrange_in in Hx1.
    rewrite indices_length in Hx1 by apply without_nonneg. auto.
  Qed.

  Lemma flat_addrs : map uad (flat zs (unfold_rows mode source target)) = map (addr target) (indices (ddims target)).
  Proof.
    unfold target at 3. simpl ddims. rewrite unfold_dims_eq. unfold flat. rewrite rows_eq.
    assert (Hzs : map fst zs = zrange (zprod (without mode dims))).
    { unfold zs. rewrite cols_eq. rewrite map_fst_combine by (rewrite zrange_length; lia).
      now rewrite indices_length by apply without_nonneg. }
    change (indices [nth mode dims 0; zprod (without mode dims)]) with
      (flat_map (fun i => map (cons i) (indices [zprod (without mode dims)])) (zrange (nth mode dims 0))).
    rewrite indices1, <- Hzs. clear Hzs.
    induction (zrange (nth mode dims 0)) as [|i l IH]; [reflexivity|].
    cbn [map flat_map]. rewrite !map_app. rewrite IH. f_equal. rewrite !map_map. reflexivity.
  Qed.

  Lemma unfold_par : forall (h : heap T) f threads,
    holds h source f -> (forall a, cell target a -> h a = None) ->
    Permutation (concat threads) (unfold_rows mode source target) ->
    par_spec (omp_for (unfold_body mode source target) threads) (alloc_buffer zero base (data_size (unfold_dims mode source)) h)
      (fun h' =>
        (forall i sc, 0 <= i < nth mode dims 0 -> inb sc (without mode dims) ->
           h' (addr target [i; rowcode (without mode dims) sc]) = Some (f (sidx [i] sc))) /\
        (forall a, ~ cell target a -> h' a = alloc_buffer zero base (data_size (unfold_dims mode source)) h a)).
  Proof.
    intros h f threads Hh Hfresh HP. set (h1 := alloc_buffer zero base _ h).
    assert (Hdsz : data_size (unfold_dims mode source) = zprod (unfold_dims mode source)).
    { apply data_size_eq. rewrite unfold_dims_eq. discriminate. }
    assert (Hcell : forall a, cell target a -> h1 a = Some zero).
    { intros a (idx & Hi & ->). apply alloc_buffer_cell. assert (HR := rm_range _ _ Hi). simpl in HR.
      unfold addr. simpl. rewrite Hdsz. simpl in *. lia. }
    assert (Hcin : forall i z, 0 <= i < nth mode dims 0 -> 0 <= z < zprod (without mode dims) -> inb [i; z] (ddims target)).
    { intros i z Hi Hz. simpl. rewrite unfold_dims_eq. repeat constructor; lia. }
    assert (Hsrc : forall idx, inb idx dims -> h1 (addr source idx) = Some (f idx) /\ ~ cell target (addr source idx)).
    { intros idx Hi. assert (Hs := Hh idx Hi).
      assert (Hnc : ~ cell target (addr source idx)) by (intros Hc; apply Hfresh in Hc; congruence).
      split; auto. unfold h1. rewrite alloc_buffer_other; auto. intros Hb. apply Hnc.
      rewrite Hdsz in Hb.
      assert (HN : Forall (fun d => 0 <= d) (unfold_dims mode source)).
      { rewrite unfold_dims_eq. constructor; [|constructor; [|constructor]].
        - apply (ext_ok mode). auto.
        - apply zprod_nonneg. apply without_nonneg. }
      exists (sentinel_to_indices (addr source idx - base) (row_major_strides (unfold_dims mode source))).
      change (ddims target) with (unfold_dims mode source). split; [apply rm_sti_inb; auto; lia|]. unfold addr at 2. cbn [dbase dstrides target tensor_ctor].
      rewrite rm_sti_ordinal by (auto; lia). lia. }
    assert (HPC := par_cells_nested _ _ T (unfold_rows mode source target) zs threads uad (uval f)
      (fun x => unfold_copy mode source target (fst x) (snd x)) h1 HP).
    eapply par_spec_weaken; [|apply HPC].
    - intros h' (H1 & H2). split.
      + intros i sc Hi Hs. assert (HL := inb_length _ _ Hs). assert (HR := rm_range _ _ Hs). rewrite <- rowcode_dotp in HR by auto.
        assert (HI : In ([i], (rowcode (without mode dims) sc, sc)) (flat zs (unfold_rows mode source target))).
        { unfold flat. apply in_flat_map. exists [i]. split.
          - rewrite rows_eq. apply in_map_iff. exists i. split; auto. now apply zrange_in.
          - apply in_map. unfold zs. rewrite cols_eq. apply combine_nth_In; try lia.
            rewrite rowcode_dotp by auto. now apply nth_error_indices. }
        apply H1 in HI. exact HI.
      + intros a Ha. apply H2. unfold owned. rewrite flat_addrs. rewrite in_addrs. auto.
    - rewrite flat_addrs. apply addr_NoDup. apply rm_inj.
    - intros x h2 Hx Hag. unfold owned in *. rewrite flat_addrs in *.
      destruct (flat_in x Hx) as (i & z & sc & -> & Hi & Hs & Hz).
      assert (Hin := Hcin i z Hi Hz). assert (Hsi := sidx_inb i sc Hi Hs). destruct (Hsrc _ Hsi) as (Hv & Hnc).
      cbn [fst snd]. unfold unfold_copy. cbn [nth]. simpl ddims. fold rank.
      rewrite source_only_eq, link_eq. unfold unfold_source_indices. fold (sidx [i] sc).
      rewrite subscript_inb by auto. rewrite subscript_inb by auto.
      assert (Ea : uad ([i], (z, sc)) = addr target [i; z]) by reflexivity. rewrite Ea in *.
      assert (Hnc' : ~ In (addr source (sidx [i] sc)) (map (addr target) (indices (ddims target)))) by (rewrite in_addrs; auto).
      assert (E1 : h2 (addr source (sidx [i] sc)) = Some (f (sidx [i] sc))) by (rewrite Hag by auto; auto).
      assert (E2 : h2 (addr target [i; z]) = Some zero).
      { rewrite Hag by auto. apply Hcell. exists [i; z]. auto. }
      simpl. rewrite E1, E2. split.
      + split; [auto|]. exists (f (sidx [i] sc)). split; [auto|]. split; [auto|]. split; [eauto|auto].
      + eexists. split; [reflexivity|]. rewrite upd_same. reflexivity.
  Qed.
End UnfoldL.
