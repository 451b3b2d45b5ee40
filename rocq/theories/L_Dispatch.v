(** * L_Dispatch: index positions, block structure, matrix views. *)
From Coq Require Import List ZArith Lia Bool Permutation Ring.
From Verif Require Import Base Heap Conc M_Addr L_Addr M_Elt L_Elt M_Einsum S_Einsum L_Einsum S_Blas M_Blas L_Blas M_Dispatch.
Import ListNotations.
Open Scope Z_scope.

(** ** Positions *)
Lemma ftp_notin : forall t X k, ~ In t X -> find_type_pos t k X = [].
Proof.
  induction X as [|x X IH]; intros k H; simpl; auto. destruct (Nat.eqb_spec x t).
  - exfalso. apply H. simpl. auto.
  - apply IH. simpl in H. tauto.
Qed.

Lemma ftp_in : forall t X k, NoDup X -> In t X ->
  exists p, find_type_pos t k X = [(t, (k + p)%nat)] /\ nth_error X p = Some t.
Proof.
  induction X as [|x X IH]; intros k HN HI; [contradiction|]. inversion HN; subst. simpl.
  destruct (Nat.eqb_spec x t).
  - subst. exists 0%nat. rewrite ftp_notin by auto. split; auto. f_equal. f_equal. lia.
  - destruct HI as [HI|HI]; [contradiction|]. destruct (IH (S k) H2 HI) as (p & E & Hp).
    exists (S p). rewrite E. split; auto. f_equal. f_equal. lia.
Qed.

Definition at_pos (X : list nat) (l : nat) (lp : nat * nat) : Prop := fst lp = l /\ nth_error X (snd lp) = Some l.

Lemma ftwp_spec : forall Ts X, NoDup X -> Forall2 (at_pos X) (intersect Ts X) (find_type_with_position Ts X).
Proof.
  induction Ts as [|t Ts IH]; intros X HN; simpl; [constructor|].
  unfold find_type_with_position. simpl. fold (find_type_with_position Ts X).
  destruct (has_type t X) eqn:E.
  - apply has_type_In in E. destruct (ftp_in t X 0 HN E) as (p & -> & Hp). simpl. constructor; auto.
    split; auto.
  - apply has_type_false in E. rewrite ftp_notin by auto. simpl. auto.
Qed.

Lemma at_pos_fst : forall X P ps, Forall2 (at_pos X) P ps -> map fst ps = P.
Proof. intros X P ps H. induction H as [|l p P ps (E & _) _ IH]; simpl; congruence. Qed.

Lemma at_pos_length : forall X P ps, Forall2 (at_pos X) P ps -> length ps = length P.
Proof. intros X P ps H. induction H; simpl; auto. Qed.

Lemma contig_block : forall X P ps, Forall2 (at_pos X) P ps -> contiguous_positions ps = true -> P <> [] ->
  exists pre post, X = pre ++ P ++ post /\ length pre = first_pos ps /\
    snd (last ps (0%nat, 0%nat)) = (length pre + length P - 1)%nat.
Proof.
  intros X P ps H. induction H as [|l p P ps (E1 & E2) HF IH]; intros HC Hne; [congruence|].
  destruct HF as [|l2 p2 P ps H2 HF].
  - apply nth_error_split in E2 as (pre & post & -> & EL). exists pre, post. split; auto. split; auto.
    simpl. lia.
  - cbn [contiguous_positions] in HC. apply andb_true_iff in HC as (HC1 & HC2). apply Z.eqb_eq in HC1.
    destruct IH as (pre & post & EX & EL & ELs); auto; [discriminate|].
    assert (EP : first_pos (p2 :: ps) = snd p2) by reflexivity. rewrite EP in EL.
    assert (Hpre : exists pre', pre = pre' ++ [l]).
    { destruct (exists_last (l := pre)) as (pre' & x & ->).
      - intros ->. simpl in EL. lia.
      - exists pre'. f_equal. f_equal. rewrite app_length in EL. simpl in EL.
        rewrite EX, <- app_assoc in E2. rewrite nth_error_app2 in E2 by lia.
        replace (snd p - length pre')%nat with 0%nat in E2 by lia. simpl in E2. congruence. }
    destruct Hpre as (pre' & ->). exists pre', post. split; [|split].
    + rewrite EX, <- app_assoc. reflexivity.
    + rewrite app_length in EL. simpl in EL. unfold first_pos. simpl. lia.
    + change (last (p :: p2 :: ps) (0%nat, 0%nat)) with (last (p2 :: ps) (0%nat, 0%nat)). rewrite ELs.
      rewrite app_length. simpl. lia.
Qed.

Lemma first_block : forall (X P Q post1 pre2 post2 : list nat), NoDup X -> X = P ++ post1 -> X = pre2 ++ Q ++ post2 ->
  P <> [] -> Q <> [] -> (forall l, In l X -> In l P \/ In l Q) -> (forall l, In l P -> In l Q -> False) -> X = P ++ Q.
Proof.
  intros X P Q post1 pre2 post2 HN E1 E2 HP HQ HX HD.
  assert (HPn : forall l, In l P -> In l post1 -> False).
  { intros l H1 H2. rewrite E1 in HN. clear - HN H1 H2. induction P as [|x P IH]; [contradiction|].
    simpl in HN. inversion HN; subst. destruct H1 as [->|H1]; auto. apply H3. apply in_or_app; auto. }
  assert (Ndapp : forall (U V : list nat), NoDup (U ++ V) -> forall l, In l U -> In l V -> False).
  { intros U V HU l. induction U as [|x U IH]; [contradiction|]. simpl in HU. inversion HU; subst.
    intros [->|Ha] Hb; [|auto]. match goal with H : ~ In _ (U ++ V) |- _ => apply H end. apply in_or_app; auto. }
  assert (E := E2). rewrite E1 in E. symmetry in E. apply app_eq_app in E as (l & [(Ea & Eb)|(Ea & Eb)]).
  - (* pre2 = P ++ l, post1 = l ++ Q ++ post2 *)
    assert (l = []).
    { destruct l as [|x l]; auto. exfalso. assert (Hx : In x X) by (rewrite E2, Ea; apply in_or_app; left; apply in_or_app; simpl; auto).
      destruct (HX x Hx) as [H1|H1].
      - apply (HPn x H1). rewrite Eb. simpl. auto.
      - rewrite E2 in HN. apply (Ndapp _ _ HN x); [rewrite Ea; apply in_or_app; simpl; auto|apply in_or_app; auto]. }
    subst l. simpl in Eb.
    assert (post2 = []).
    { destruct post2 as [|x r]; auto. exfalso.
      assert (Hx : In x X) by (rewrite E2; apply in_or_app; right; apply in_or_app; simpl; auto).
      destruct (HX x Hx) as [H1|H1].
      - apply (HPn x H1). rewrite Eb. apply in_or_app; simpl; auto.
      - rewrite E1, Eb in HN. apply NoDup_app_r in HN. apply (Ndapp _ _ HN x); simpl; auto. }
    subst post2. rewrite app_nil_r in Eb. congruence.
  - (* P = pre2 ++ l, Q ++ post2 = l ++ post1 *)
    assert (l = []).
    { destruct l as [|x l]; auto. exfalso. destruct Q as [|q Q]; [congruence|]. simpl in Eb. injection Eb as -> _.
      apply (HD x); [rewrite Ea; apply in_or_app; simpl; auto|simpl; auto]. }
    subst l. simpl in Eb. rewrite app_nil_r in Ea. subst pre2.
    assert (post2 = []).
    { destruct post2 as [|x r]; auto. exfalso.
      assert (Hx : In x X) by (rewrite E2; apply in_or_app; right; apply in_or_app; simpl; auto).
      destruct (HX x Hx) as [H1|H1].
      - apply (HPn x H1). rewrite <- Eb. apply in_or_app; simpl; auto.
      - rewrite E2 in HN. apply NoDup_app_r in HN. apply (Ndapp _ _ HN x); simpl; auto. }
    subst post2. rewrite app_nil_r in E2. auto.
Qed.

Lemma two_blocks : forall (X P Q pre1 post1 pre2 post2 : list nat), NoDup X ->
  X = pre1 ++ P ++ post1 -> X = pre2 ++ Q ++ post2 -> P <> [] -> Q <> [] ->
  (forall l, In l X -> In l P \/ In l Q) -> (forall l, In l P -> In l Q -> False) ->
  (length pre1 = 0%nat -> X = P ++ Q) /\ (length pre1 <> 0%nat -> X = Q ++ P).
Proof.
  intros X P Q pre1 post1 pre2 post2 HN E1 E2 HP HQ HX HD. split; intros HL.
  - destruct pre1; [|discriminate]. eapply first_block; eauto.
  - destruct pre1 as [|x pre1]; [simpl in HL; congruence|].
    assert (Hx : In x Q).
    { destruct (HX x) as [H|H]; auto. { rewrite E1. simpl. auto. }
      exfalso. rewrite E1 in HN. simpl in HN. inversion HN; subst. apply H2. apply in_or_app. right. apply in_or_app; auto. }
    assert (pre2 = []).
    { destruct pre2 as [|y pre2]; auto. exfalso.
      assert (x = y) by (rewrite E2 in E1; simpl in E1; congruence). subst y.
      rewrite E2 in HN. simpl in HN. apply NoDup_cons_iff in HN as (HN & _).
      apply HN. apply in_or_app. right. apply in_or_app; auto. }
    subst pre2. simpl in E2. eapply first_block with (pre2 := x :: pre1); eauto.
    intros l Hl. destruct (HX l Hl); auto.
Qed.

(** ** Extents and strides of a group of labels *)
Lemma product_dims_spec : forall (ext : nat -> Z) X d P ps, ddims d = map ext X -> Forall2 (at_pos X) P ps ->
  product_dims ps d = zprod (map ext P).
Proof.
  intros ext X d P ps Hd H. unfold product_dims.
  assert (G : forall (l : list (nat * nat)) acc, fold_left (fun acc p => acc * tdim d (snd p)) l acc
            = acc * zprod (map (fun p => tdim d (snd p)) l)).
  { induction l as [|p l IH]; intros acc; simpl; [lia|]. rewrite IH. lia. }
  rewrite G, map_rev, zprod_rev, Z.mul_1_l. f_equal.
  induction H as [|l p P ps (E1 & E2) HF IH]; simpl; auto. f_equal; auto. eapply tdim_pos; eauto.
Qed.

Lemma rms_nth : forall dims k, (k < length dims)%nat -> nth k (row_major_strides dims) 0 = zprod (skipn (S k) dims).
Proof.
  induction dims as [|d ds IH]; intros k Hk; simpl in Hk; [lia|]. rewrite rms_cons. destruct k; simpl; auto.
  rewrite IH by lia. reflexivity.
Qed.

Lemma last_stride_spec : forall (ext : nat -> Z) X d ps pre P post,
  rowmaj d -> ddims d = map ext X -> X = pre ++ P ++ post -> P <> [] ->
  snd (last ps (0%nat, 0%nat)) = (length pre + length P - 1)%nat ->
  last_stride ps d = zprod (map ext post).
Proof.
  intros ext X d ps pre P post HR Hd EX HP HL. unfold last_stride, tstride. rewrite HL, HR, Hd.
  assert (length P <> 0%nat) by (destruct P; simpl; congruence).
  rewrite rms_nth by (rewrite map_length, EX, !app_length; lia).
  f_equal. rewrite EX, !map_app, app_assoc.
  replace (S (length pre + length P - 1)) with (length (map ext pre ++ map ext P)) by (rewrite app_length, !map_length; lia).
  rewrite skipn_app, skipn_all, Nat.sub_diag. reflexivity.
Qed.

(** ** Matrix views *)
Section PairView.
  Variable ext : nat -> Z.

  Definition fl (P : list nat) (env : nat -> Z) : Z := dotp (map env P) (row_major_strides (map ext P)).
  Definition st (P : list nat) (n : Z) : list Z := sentinel_to_indices n (row_major_strides (map ext P)).
  Definition vol (P : list nat) : Z := zprod (map ext P).

  Definition pos_ext (P : list nat) : Prop := forall l, In l P -> 0 <= ext l.

  Lemma pos_ext_nonneg : forall P, pos_ext P -> nonneg (map ext P).
  Proof. intros P H. apply Forall_map, Forall_forall. exact H. Qed.
  Lemma vol_nonneg : forall P, pos_ext P -> 0 <= vol P.
  Proof. intros. apply zprod_nonneg, pos_ext_nonneg. auto. Qed.

  Lemma st_inb : forall P n, pos_ext P -> 0 <= n < vol P -> inb (st P n) (map ext P).
  Proof. intros. apply rm_sti_inb; auto. apply pos_ext_nonneg; auto. Qed.

  Lemma fl_range : forall P env, env_ok ext env P -> 0 <= fl P env < vol P.
  Proof. intros. apply rm_range. apply inb_map_env. auto. Qed.
  Lemma st_fl : forall P env, env_ok ext env P -> st P (fl P env) = map env P.
  Proof. intros. apply rm_roundtrip. apply inb_map_env. auto. Qed.

  Lemma rms_app : forall D1 D2,
    row_major_strides (D1 ++ D2) = map (fun s => s * zprod D2) (row_major_strides D1) ++ row_major_strides D2.
  Proof.
    induction D1 as [|d D1 IH]; intros D2; simpl; auto. rewrite !rms_cons. simpl. rewrite IH, zprod_app. reflexivity.
  Qed.
  Lemma dotp_scale : forall c s i, dotp i (map (fun x => x * c) s) = dotp i s * c.
  Proof. induction s as [|x s IH]; intros [|i is]; simpl; auto. rewrite IH. lia. Qed.

  Lemma dotp_pair : forall i1 i2 D1 D2, length i1 = length D1 ->
    dotp (i1 ++ i2) (row_major_strides (D1 ++ D2))
    = dotp i1 (row_major_strides D1) * zprod D2 + dotp i2 (row_major_strides D2).
  Proof.
    intros. rewrite rms_app, dotp_app by (rewrite map_length, rms_length; auto). rewrite dotp_scale. lia.
  Qed.

  Definition mview (d : desc) (P Q : list nat) : desc := mkDesc (dbase d) [vol P; vol Q] [vol Q; 1].
  Definition mfun {T} (f : list Z -> T) (P Q : list nat) (d0 : T) (idx : list Z) : T :=
    match idx with [i; j] => f (st P i ++ st Q j) | _ => d0 end.

  Lemma mview_mat : forall d P Q, mat (mview d P Q) (vol P) (vol Q) (vol Q).
  Proof. intros. repeat split; simpl; lia. Qed.

  Lemma mview_addr : forall d P Q i j, rowmaj d -> ddims d = map ext (P ++ Q) -> pos_ext (P ++ Q) ->
    0 <= i < vol P -> 0 <= j < vol Q ->
    addr (mview d P Q) [i; j] = addr d (st P i ++ st Q j) /\ inb (st P i ++ st Q j) (ddims d).
  Proof.
    intros d P Q i j HR Hd Hp Hi Hj.
    assert (HpP : pos_ext P) by (intros l Hl; apply Hp, in_or_app; auto).
    assert (HpQ : pos_ext Q) by (intros l Hl; apply Hp, in_or_app; auto).
    assert (H1 := st_inb P i HpP Hi). assert (H2 := st_inb Q j HpQ Hj). split.
    - unfold addr. simpl dstrides. simpl dbase. rewrite HR, Hd, map_app, dotp_pair by (apply inb_length in H1; auto).
      unfold st at 1. rewrite (rm_sti_ordinal (map ext P)) by (auto; apply pos_ext_nonneg; auto).
      unfold st at 1. rewrite (rm_sti_ordinal (map ext Q)) by (auto; apply pos_ext_nonneg; auto).
      unfold vol. simpl. lia.
    - rewrite Hd, map_app. apply inb_app; auto.
  Qed.

  Lemma mview_holds : forall T (h : heap T) d P Q f d0, rowmaj d -> ddims d = map ext (P ++ Q) -> pos_ext (P ++ Q) ->
    holds h d f -> holds h (mview d P Q) (mfun f P Q d0).
  Proof.
    intros T h d P Q f d0 HR Hd Hp HH idx Hi. simpl in Hi. apply inb2_inv in Hi as (i & j & -> & Hi & Hj).
    destruct (mview_addr d P Q i j HR Hd Hp Hi Hj) as (E & HI). rewrite E. simpl. apply HH. auto.
  Qed.

  Lemma env_ok_app : forall env P Q, env_ok ext env (P ++ Q) <-> env_ok ext env P /\ env_ok ext env Q.
  Proof.
    intros. split.
    - intros H. split; intros l Hl; apply H, in_or_app; auto.
    - intros (H1 & H2) l Hl. apply in_app_or in Hl as [Hl|Hl]; auto.
  Qed.

  Lemma mview_env : forall d P Q env, rowmaj d -> ddims d = map ext (P ++ Q) -> env_ok ext env (P ++ Q) ->
    addr (mview d P Q) [fl P env; fl Q env] = addr d (map env (P ++ Q)).
  Proof.
    intros d P Q env HR Hd He. unfold addr. simpl. rewrite HR, Hd, !map_app, dotp_pair by now rewrite !map_length.
    unfold fl, vol. lia.
  Qed.

  Lemma mview_cell : forall d P Q z, rowmaj d -> ddims d = map ext (P ++ Q) -> pos_ext (P ++ Q) ->
    cell (mview d P Q) z <-> cell d z.
  Proof.
    intros d P Q z HR Hd Hp. split.
    - intros (idx & Hi & ->). simpl in Hi. apply inb2_inv in Hi as (i & j & -> & Hi & Hj).
      destruct (mview_addr d P Q i j HR Hd Hp Hi Hj) as (E & HI). exists (st P i ++ st Q j). auto.
    - intros (idx & Hi & ->). rewrite Hd, map_app in Hi.
      assert (HL := inb_length _ _ Hi). rewrite app_length in HL.
      rewrite <- (firstn_skipn (length (map ext P)) idx) in Hi |- *.
      apply inb_app_inv in Hi as (H1 & H2); [|rewrite firstn_length; lia].
      set (i1 := firstn (length (map ext P)) idx) in *. set (i2 := skipn (length (map ext P)) idx) in *.
      exists [dotp i1 (row_major_strides (map ext P)); dotp i2 (row_major_strides (map ext Q))]. split.
      + simpl. apply inb2. split; apply rm_range; auto.
      + unfold addr. simpl. rewrite HR, Hd, map_app, dotp_pair by (apply inb_length in H1; auto).
        unfold vol. lia.
  Qed.

  Lemma mview_disj : forall d P Q d', rowmaj d -> ddims d = map ext (P ++ Q) -> pos_ext (P ++ Q) ->
    (forall z, cell d z -> cell d' z -> False) -> forall z, cell (mview d P Q) z -> cell d' z -> False.
  Proof. intros d P Q d' HR Hd Hp HD z Hz. apply HD. revert Hz. apply mview_cell; auto. Qed.

  (** Vector over all elements of a row-major tensor. *)
  Definition vview (d : desc) (P : list nat) : desc := mkDesc (dbase d) [vol P] [1].
  Definition vfun {T} (f : list Z -> T) (P : list nat) (d0 : T) (idx : list Z) : T :=
    match idx with [i] => f (st P i) | _ => d0 end.
  Lemma vview_vect : forall d P, vect (vview d P) (vol P) 1.
  Proof. intros. repeat split; simpl; lia. Qed.
  Lemma vview_holds : forall T (h : heap T) d P f d0, rowmaj d -> ddims d = map ext P -> pos_ext P ->
    holds h d f -> holds h (vview d P) (vfun f P d0).
  Proof.
    intros T h d P f d0 HR Hd Hp HH idx Hi. simpl in Hi. apply inb1_inv in Hi as (i & -> & Hi).
    assert (H1 := st_inb P i Hp Hi). simpl. rewrite <- HH by (rewrite Hd; auto). f_equal.
    unfold addr. simpl. rewrite HR, Hd. unfold st. rewrite rm_sti_ordinal by (auto; apply pos_ext_nonneg; auto). lia.
  Qed.
  Lemma vview_env : forall d P env, rowmaj d -> ddims d = map ext P -> env_ok ext env P ->
    addr (vview d P) [fl P env] = addr d (map env P).
  Proof. intros d P env HR Hd He. unfold addr. simpl. rewrite HR, Hd. unfold fl. lia. Qed.
  Lemma vview_cell : forall d P z, rowmaj d -> ddims d = map ext P -> pos_ext P -> cell (vview d P) z <-> cell d z.
  Proof.
    intros d P z HR Hd Hp. rewrite (rowmaj_cell d) by (auto; rewrite Hd; apply pos_ext_nonneg; auto).
    rewrite Hd. unfold line. split.
    - intros (idx & Hi & ->). simpl in Hi. apply inb1_inv in Hi as (i & -> & Hi). exists i. split; auto.
      unfold addr. simpl. lia.
    - intros (i & Hi & ->). exists [i]. split; [simpl; apply inb1; auto|]. unfold addr. simpl. lia.
  Qed.
End PairView.

(** ** Two groups of labels making up an operand *)
Section Groups.
  Variable ext : nat -> Z.

  Lemma last_stride_blk : forall X d P ps pre post, Forall2 (at_pos X) P ps -> P <> [] -> NoDup X ->
    X = pre ++ P ++ post -> rowmaj d -> ddims d = map ext X -> last_stride ps d = vol ext post.
  Proof.
    intros X d P ps pre post HF HP HN EX HR Hd. eapply last_stride_spec; eauto.
    destruct (exists_last HP) as (P' & x & ->).
    apply Forall2_app_inv_l in HF as (ps1 & ps2 & HF1 & HF2 & ->).
    inversion HF2 as [|x' p l1 l2 (E1 & E2) HF3 Ea Eb]; subst. inversion HF3; subst. rewrite last_last.
    apply (proj1 (NoDup_nth_error _) HN).
    - apply nth_error_Some. rewrite E2. discriminate.
    - rewrite E2. rewrite nth_error_app2 by (rewrite app_length; simpl; lia).
      rewrite app_length. simpl. rewrite nth_error_app1 by (rewrite app_length; simpl; lia).
      rewrite nth_error_app2 by lia.
      replace (length pre + (length P' + 1) - 1 - length pre - length P')%nat with 0%nat by lia. auto.
  Qed.

  Lemma groups : forall X d P Q ps qs, NoDup X -> Forall2 (at_pos X) P ps -> Forall2 (at_pos X) Q qs ->
    contiguous_positions ps = true -> contiguous_positions qs = true -> P <> [] -> Q <> [] ->
    (forall l, In l X -> In l P \/ In l Q) -> (forall l, In l P -> In l Q -> False) ->
    rowmaj d -> ddims d = map ext X ->
    let t := Nat.eqb (first_pos ps) 0 in
    X = (if t then P ++ Q else Q ++ P) /\
    last_stride ps d = (if t then vol ext Q else 1) /\ last_stride qs d = (if t then 1 else vol ext P).
  Proof.
    intros X d P Q ps qs HN HF HG CP CQ HP HQ HX HD HR Hd t.
    destruct (contig_block X P ps HF CP HP) as (pre1 & post1 & E1 & L1 & _).
    destruct (contig_block X Q qs HG CQ HQ) as (pre2 & post2 & E2 & L2 & _).
    destruct (two_blocks X P Q pre1 post1 pre2 post2 HN E1 E2 HP HQ HX HD) as (B1 & B2).
    unfold t. destruct (Nat.eqb_spec (first_pos ps) 0) as [E|E].
    - assert (EX : X = P ++ Q) by (apply B1; congruence). split; auto. split.
      + apply (last_stride_blk X d P ps [] Q); auto.
      + change 1 with (vol ext []). apply (last_stride_blk X d Q qs P []); auto. now rewrite app_nil_r.
    - assert (EX : X = Q ++ P) by (apply B2; congruence). split; auto. split.
      + change 1 with (vol ext []). apply (last_stride_blk X d P ps Q []); auto. now rewrite app_nil_r.
      + apply (last_stride_blk X d Q qs [] P); auto.
  Qed.

  Lemma count_m1_nonneg : forall dims, Forall (fun d => 0 <= d) dims -> count_m1 dims = 0%nat.
  Proof.
    intros dims H. unfold count_m1. induction H as [|x l Hx HF IH]; simpl; auto.
    destruct (Z.eqb_spec x (-1)); [lia|auto].
  Qed.

  Lemma sview_ok : forall X dims strides, Forall (fun d => 0 <= d) dims ->
    sview X dims strides = Ok (mkDesc (dbase X) dims strides).
  Proof.
    intros X dims strides H. unfold sview, view_ctor. rewrite count_m1_nonneg by auto. simpl.
    rewrite dotp_repeat0, Z.add_0_r.
    destruct (Nat.eqb (length dims) (length (ddims X))); auto.
    destruct (zprod dims =? zprod (ddims X)); auto.
  Qed.

  Lemma rank_1_view_ok : forall v d P, rowmaj d -> ddims d = map ext P -> pos_ext ext P -> P <> [] ->
    rank_1_view v d = Ok (vview ext d P).
  Proof.
    intros v d P HR Hd Hp Hne. assert (Hv := vol_nonneg ext P Hp).
    destruct d as [b dims strides]. unfold rowmaj in HR. simpl in HR, Hd. subst strides dims.
    unfold rank_1_view, vview. simpl dbase. destruct P as [|p P]; [congruence|]. simpl map. rewrite rms_cons.
    destruct v.
    - unfold view_to_rank_1. simpl length. destruct P as [|q P].
      + simpl. unfold vol. simpl. rewrite Z.mul_1_r. auto.
      + cbn [length Nat.eqb ddims dstrides map dbase].
        assert (EL : last (zprod (ext q :: map ext P) :: row_major_strides (ext q :: map ext P)) 0 = 1).
        { destruct (@exists_last _ (q :: P)) as (P' & x & E); [discriminate|].
          change (ext q :: map ext P) with (map ext (q :: P)). rewrite E, map_app. simpl map.
          rewrite (rms_app (map ext P') [ext x]). rewrite app_comm_cons. change (row_major_strides [ext x]) with [1]. rewrite last_last. reflexivity. }
        rewrite EL. cbn [Z.eqb Pos.eqb negb].
        assert (EV : zprod (ext q :: map ext P) * ext p = vol ext (p :: q :: P)) by (unfold vol; simpl; lia).
        rewrite EV. fold (sview (mkDesc b (ext p :: ext q :: map ext P)
           (zprod (ext q :: map ext P) :: row_major_strides (ext q :: map ext P))) [vol ext (p :: q :: P)] [1]).
        apply sview_ok. repeat constructor. auto.
    - unfold tensor_to_rank_1. simpl ddims. rewrite data_size_eq by discriminate.
      unfold view_ctor. fold (vol ext (p :: P)). change (zprod (ext p :: map ext P)) with (vol ext (p :: P)).
      rewrite count_m1_nonneg by (repeat constructor; auto). simpl Nat.ltb. cbv iota. simpl andb. cbv iota.
      simpl Nat.eqb. cbv iota. simpl dbase. rewrite dotp_repeat0, Z.add_0_r.
      destruct P as [|q P].
      + simpl. reflexivity.
      + cbn [length Nat.eqb ddims dstrides map dbase].
        replace (zprod [vol ext (p :: q :: P)] =? zprod (ext p :: ext q :: map ext P)) with true; [reflexivity|].
        symmetry. apply Z.eqb_eq. unfold vol. simpl. lia.
  Qed.

  Lemma cell_env : forall d X z, NoDup X -> ddims d = map ext X -> cell d z ->
    exists env, env_ok ext env X /\ z = addr d (map env X).
  Proof.
    intros d X z HN Hd (idx & Hi & ->). rewrite Hd in Hi. assert (HL := inb_length _ _ Hi). rewrite map_length in HL.
    exists (upds X idx (fun _ => 0)). rewrite upds_map by auto. split; auto.
    apply upds_ok; auto. intros l H1 H2. contradiction.
  Qed.

  Lemma env_cell : forall d X env, ddims d = map ext X -> env_ok ext env X -> cell d (addr d (map env X)).
  Proof. intros d X env Hd He. exists (map env X). split; auto. rewrite Hd. apply inb_map_env. auto. Qed.
End Groups.

(** ** The contraction as a sum over the flattened links *)
Section Flat.
  Context {O : Ops} (HR : is_ring O).
  Notation T := (car O).

  Lemma map_upds_other : forall U ix env X, (forall l, In l X -> ~ In l U) -> map (upds U ix env) X = map env X.
  Proof. intros U ix env X H. apply map_ext_in. intros l Hl. apply upds_other. auto. Qed.

  (** [a], [b] enter as functions of the link index. *)
  Lemma einstein_flat : forall ext L Ai Bi (a b : list Z -> T) env u v,
    pos_ext ext L ->
    (forall ix, inb ix (map ext L) -> a (map (upds L ix env) Ai) = u ix) ->
    (forall ix, inb ix (map ext L) -> b (map (upds L ix env) Bi) = v ix) ->
    einstein L Ai Bi ext a b env = zsum (vol ext L) (fun p => omul (u (st ext L p)) (v (st ext L p))).
  Proof.
    intros ext L Ai Bi a b env u v Hp Hu Hv. unfold einstein. rewrite (Sum_over_indices HR).
    rewrite (lsum_ext _ _ _ _ (fun ix => omul (u ix) (v ix))).
    - rewrite (lsum_flat HR) by (apply pos_ext_nonneg; auto). reflexivity.
    - intros ix Hi. apply in_indices in Hi. now rewrite Hu, Hv.
  Qed.

  Lemma einstein_perm : forall ext L L' Ai Bi (a b : list Z -> T) env, NoDup L -> Permutation L L' ->
    einstein L Ai Bi ext a b env = einstein L' Ai Bi ext a b env.
  Proof. intros. apply (Sum_over_perm HR); auto. apply einstein_proper. Qed.
End Flat.

Lemma par_empty : forall T X (body : X -> prog T unit) threads h (Q : heap T -> Prop),
  concat threads = [] -> Q h -> par_spec (omp_for body threads) h Q.
Proof.
  intros T X body threads h Q HE HQ.
  assert (HD : Forall (fun p => p = PRet tt) (omp_for body threads)).
  { unfold omp_for. apply Forall_map. apply Forall_forall. intros r Hr.
    destruct r as [|x r]; auto. exfalso. assert (In x (concat threads)) by (apply in_concat; exists (x :: r); simpl; auto).
    rewrite HE in H. contradiction. }
  revert HD. generalize (omp_for body threads). clear HE. intros ps HD.
  assert (NS : forall s, ~ pstep (ps, h) s).
  { intros s Hs. inversion Hs; subst; match goal with H : nth_error ps _ = Some _ |- _ =>
      apply nth_error_In in H; eapply Forall_forall in HD; [|exact H] end; discriminate. }
  split.
  - intros ps' h' Hst. inversion Hst as [|s t u H1 H2]; subst.
    + split; [|split; auto]. intros (i & [(a & k & E & _)|(a & v & k & E & _)]);
        apply nth_error_In in E; eapply Forall_forall in HD; try exact E; discriminate.
    + exfalso. eapply NS; eauto.
  - constructor. intros s Hs. exfalso. eapply NS; eauto.
Qed.
