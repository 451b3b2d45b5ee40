(** * L_DevMem: lemmas about device tensors and their memory. *)
From Coq Require Import List ZArith Lia Bool Permutation.
From Verif Require Import Base Heap M_Addr S_Addr S_Blas L_Addr M_Gpu L_Einsum L_GpuOps M_GpuView L_GpuView M_DevMem S_Value L_Value S_DevMem.
Import ListNotations.
Open Scope Z_scope.

(** ** Lists *)
Lemma set_nth_length : forall A (l : list A) i v, length (set_nth i v l) = length l.
Proof. induction l; intros [|i] v; cbn; auto. Qed.
Lemma set_nth_eq : forall A (l : list A) i v, (i < length l)%nat -> set_nth i v l = firstn i l ++ v :: skipn (S i) l.
Proof.
  induction l as [|x l IH]; intros [|i] v H; cbn in *; try lia; auto. rewrite IH by lia. reflexivity.
Qed.
Lemma zprod_snoc : forall l d, zprod (l ++ [d]) = zprod l * d.
Proof. induction l as [|x l IH]; intros d; cbn; [lia|]. rewrite IH. lia. Qed.
Lemma rms_snoc : forall l d, row_major_strides (l ++ [d]) = map (fun x => x * d) (row_major_strides l) ++ [1].
Proof.
  induction l as [|x l IH]; intros d; cbn [app]; rewrite ?rms_cons; cbn [map app]; [reflexivity|].
  rewrite IH, zprod_snoc. reflexivity.
Qed.
Lemma dotp_scale : forall l m d, dotp l (map (fun x => x * d) m) = d * dotp l m.
Proof. induction l as [|x l IH]; intros [|y m] d; cbn; try lia. rewrite IH. lia. Qed.
Lemma dotp_snoc : forall l m x y, length l = length m -> dotp (l ++ [x]) (m ++ [y]) = dotp l m + x * y.
Proof. induction l as [|a l IH]; intros [|b m] x y H; cbn in *; try discriminate; [lia|]. rewrite IH by lia. lia. Qed.
Lemma rm_code : forall dims e, nonneg dims -> 0 <= e < zprod dims -> dotp (rm_index dims e) (row_major_strides dims) = e.
Proof.
  intros dims. induction dims as [|d l IH] using rev_ind; intros e Hn He.
  - cbn in *. lia.
  - apply Forall_app in Hn as (Hl & Hd). inversion Hd as [|? ? Hd1 _]; subst.
    rewrite zprod_snoc in He. assert (0 <= zprod l) by (apply zprod_nonneg; auto).
    assert (Hd' : 0 < d) by (destruct (Z.eq_dec d 0) as [->|]; lia).
    assert (Q : 0 <= e / d < zprod l).
    { split; [apply Z.div_pos; lia|apply Z.div_lt_upper_bound; lia]. }
    assert (E : rm_index (l ++ [d]) e = rm_index l (e / d) ++ [e mod d]) by (unfold rm_index; rewrite rev_app_distr; reflexivity).
    rewrite E, rms_snoc, dotp_snoc, dotp_scale, IH; auto.
    + pose proof (Z.div_mod e d ltac:(lia)). lia.
    + rewrite map_length, rms_length. apply inb_length, rm_inb; auto.
Qed.

(** ** Kernels *)
Definition step_put (from : list (option Z)) (acc : option (list (option Z))) (e : Z) : option (list (option Z)) :=
  match acc with
  | None => None
  | Some l => match nth_error from (Z.to_nat e) with Some v => put_elt e v l | None => None end
  end.
Lemma firstn_snoc : forall A (l : list A) m v, nth_error l m = Some v -> firstn (S m) l = firstn m l ++ [v].
Proof. induction l as [|x l IH]; intros [|m] v H; cbn in *; try discriminate; [congruence|]. f_equal. apply IH. auto. Qed.
Lemma skipn_next : forall A (l : list A) m, skipn 1 (skipn m l) = skipn (S m) l.
Proof. induction l as [|x l IH]; intros [|m]; auto. cbn [skipn]. apply IH. Qed.
Lemma fold_put : forall from to m, length from = length to -> (m <= length to)%nat ->
  fold_left (step_put from) (map Z.of_nat (seq 0 m)) (Some to) = Some (firstn m from ++ skipn m to).
Proof.
  intros from to m L. induction m as [|m IH]; intros Hm; [reflexivity|].
  rewrite seq_S, map_app, fold_left_app, IH by lia. cbn [map fold_left plus]. unfold step_put at 1. rewrite Nat2Z.id.
  destruct (nth_error from m) as [v|] eqn:E; [|apply nth_error_None in E; lia].
  unfold put_elt. assert (Hl : length (firstn m from) = m) by (rewrite firstn_length; lia).
  rewrite app_length, Hl, skipn_length, (proj2 (Z.leb_le _ _)), (proj2 (Z.ltb_lt _ _)) by lia. cbn [andb]. rewrite Nat2Z.id.
  f_equal. rewrite set_nth_eq by (rewrite app_length, Hl, skipn_length; lia).
  rewrite firstn_app, Hl, Nat.sub_diag, firstn_firstn, Nat.min_id, firstn_O, app_nil_r.
  rewrite (firstn_snoc _ _ _ _ E), <- app_assoc. cbn [app]. f_equal. f_equal.
  rewrite skipn_app, Hl, skipn_all2 by lia. cbn [app]. replace (S m - m)%nat with 1%nat by lia. apply skipn_next.
Qed.
Lemma fold_ext : forall A B (f g : A -> B -> A) l a, (forall x e, In e l -> f x e = g x e) -> fold_left f l a = fold_left g l a.
Proof. induction l as [|e l IH]; intros a H; cbn; auto. rewrite H by (left; auto). apply IH. intros; apply H; right; auto. Qed.
Lemma put_all : forall (f : option (list (option Z)) -> Z -> option (list (option Z))) from to n,
  length from = length to -> Z.of_nat (length to) = n ->
  (forall x e, 0 <= e < n -> f x e = step_put from x e) -> fold_left f (zrange n) (Some to) = Some from.
Proof.
  intros f from to n L E H. rewrite (fold_ext _ _ f (step_put from)) by (intros x e He; apply H; now apply zrange_in).
  unfold zrange. rewrite fold_put by lia. f_equal. rewrite firstn_all2, skipn_all2, app_nil_r by lia. auto.
Qed.
Lemma get_elt_nth : forall e l, 0 <= e < Z.of_nat (length l) -> get_elt e l = nth_error l (Z.to_nat e).
Proof. intros e l H. unfold get_elt. now rewrite (proj2 (Z.leb_le _ _)), (proj2 (Z.ltb_lt _ _)) by lia. Qed.
Lemma kcopy_eq : forall dims to from, nonneg dims -> Z.of_nat (length to) = zprod dims -> length from = length to ->
  kcopy dims (row_major_strides dims) to (row_major_strides dims) from (zprod dims) = Some from.
Proof.
  intros dims to from Hn Ht Hf. unfold kcopy. apply put_all; auto. intros x e He. cbv beta zeta. unfold step_put. destruct x as [l|]; auto.
  rewrite rm_code, get_elt_nth by (auto; lia). reflexivity.
Qed.
Lemma span_eq : forall dims, dims <> [] -> span dims (row_major_strides dims) = zprod dims.
Proof. intros [|d r] H; [congruence|]. unfold span. rewrite rms_cons. cbn. lia. Qed.
Lemma kfill_eq : forall dims to v, dims <> [] -> nonneg dims -> Z.of_nat (length to) = zprod dims ->
  kfill dims (row_major_strides dims) to v = Some (map (fun _ => Some v) to).
Proof.
  intros dims to v Hd Hn Ht. unfold kfill. fold (span dims (row_major_strides dims)). rewrite span_eq by auto.
  apply put_all; auto; [now rewrite map_length|]. intros x e He. cbv beta zeta. unfold step_put. destruct x as [l|]; auto.
  rewrite rm_code by auto. rewrite nth_error_map. destruct (nth_error to (Z.to_nat e)) eqn:E; auto. apply nth_error_None in E. lia.
Qed.

(** ** The invariant *)
Definition kind_of (m : hmode) : bkind := match m with MMapped => KNew true | MPinned => KPinned | _ => KDev end.
Definition opt {A} (o : option A) : list A := match o with Some a => [a] | None => [] end.
Definition own (t : dten) : list nat := opt (t_data t) ++ opt (t_gpu t).
Definition owno (t : option dten) : list nat := match t with Some t => own t | None => [] end.
Definition good (dims : list Z) : Prop := dims <> [] /\ Forall (fun d => 0 < d) dims.
Definition repr (bl : list (nat * block)) (x : aten) (t : dten) : Prop :=
  match x with
  | AVal m d v => m <> MUnknown /\ good d /\ Z.of_nat (length v) = zprod d /\
      exists p g, t = mkTen m d (row_major_strides d) (Some p) (Some g) /\
        assoc p bl = Some (BData (kind_of m) v) /\ assoc g bl = Some (BDims d (row_major_strides d))
  | ADefault => t_mode t = MUnknown /\ t_data t = None /\ t_gpu t = None
  | AMoved m => m <> MUnknown /\ t_mode t = m /\ t_data t = None /\ t_gpu t = None
  end.
Definition oprepr bl (x : option aten) (t : option dten) : Prop :=
  match x, t with None, None => True | Some x, Some t => repr bl x t | _, _ => False end.
Record inv (a : astate) (s : dstate) (lost : list nat) : Prop := {
  i_nd : NoDup (map fst (s_blk s));
  i_lt : forall k b, assoc k (s_blk s) = Some b -> (k < s_next s)%nat;
  i_rep : forall id, oprepr (s_blk s) (a id) (assoc id (s_ten s));
  i_own : forall k b, assoc k (s_blk s) = Some b -> In k lost \/ exists id, In k (owno (assoc id (s_ten s)));
  i_dis : forall id id' k, In k (owno (assoc id (s_ten s))) -> In k (owno (assoc id' (s_ten s))) -> id = id';
  i_lost : forall k, In k lost -> (exists d st, assoc k (s_blk s) = Some (BDims d st)) /\ forall id, ~ In k (owno (assoc id (s_ten s)));
  i_ndl : NoDup lost }.

(** What a tensor owns is there. *)
Lemma repr_own : forall bl x t k, repr bl x t -> In k (own t) -> exists b, assoc k bl = Some b.
Proof.
  intros bl [m d v| |m] t k R H; cbn in R.
  - destruct R as (_ & _ & _ & p & g & -> & R1 & R2). cbn in H. destruct H as [<-|[<-|[]]]; eauto.
  - destruct R as (_ & R1 & R2). unfold own in H. rewrite R1, R2 in H. destruct H.
  - destruct R as (_ & _ & R1 & R2). unfold own in H. rewrite R1, R2 in H. destruct H.
Qed.
Lemma repr_frame : forall bl bl' x t, (forall k, In k (own t) -> assoc k bl' = assoc k bl) -> repr bl x t -> repr bl' x t.
Proof.
  intros bl bl' [m d v| |m] t F R; cbn in *; auto. destruct R as (A & B & C & p & g & -> & R1 & R2).
  split; [|split; [|split]]; auto. exists p, g. split; [reflexivity|]. split; rewrite F; auto; cbn; auto.
Qed.
Lemma inv_own : forall a s lost id k, inv a s lost -> In k (owno (assoc id (s_ten s))) -> exists b, assoc k (s_blk s) = Some b.
Proof.
  intros a s lost id k I H. pose proof (i_rep _ _ _ I id) as R. destruct (assoc id (s_ten s)) as [t|]; [|destruct H].
  destruct (a id) as [x|]; [|destruct R]. exact (repr_own _ _ _ _ R H).
Qed.

(** One tensor changes, together with the blocks it owns. *)
Lemma inv_update : forall a s lost id x t' s', inv a s lost ->
  (forall id', assoc id' (s_ten s') = if Nat.eqb id' id then t' else assoc id' (s_ten s)) ->
  (forall k, ~ In k (owno (assoc id (s_ten s))) -> ~ In k (owno t') -> assoc k (s_blk s') = assoc k (s_blk s)) ->
  (forall k, In k (owno t') -> In k (owno (assoc id (s_ten s))) \/ (s_next s <= k)%nat) ->
  (forall k, In k (owno t') -> (k < s_next s')%nat) ->
  (forall k, In k (owno (assoc id (s_ten s))) -> ~ In k (owno t') -> assoc k (s_blk s') = None) ->
  (s_next s <= s_next s')%nat -> NoDup (map fst (s_blk s')) -> oprepr (s_blk s') x t' -> inv (aput id x a) s' lost.
Proof.
  intros a s lost id x t' s' I HT HF HN HL HD Hle Hnd HR.
  assert (Fresh : forall k, (s_next s <= k)%nat -> assoc k (s_blk s) = None).
  { intros k Hk. destruct (assoc k (s_blk s)) eqn:E; auto. apply (i_lt _ _ _ I) in E. lia. }
  assert (Oth : forall id' k, id' <> id -> In k (owno (assoc id' (s_ten s))) -> ~ In k (owno (assoc id (s_ten s))) /\ ~ In k (owno t')).
  { intros id' k Hid Hk. split.
    - intros H. apply Hid. exact (i_dis _ _ _ I _ _ _ Hk H).
    - intros H. destruct (HN _ H) as [H1|H1]; [apply Hid; exact (i_dis _ _ _ I _ _ _ Hk H1)|].
      destruct (inv_own _ _ _ _ _ I Hk) as (b & E). rewrite Fresh in E by auto. discriminate. }
  constructor; auto.
  - intros k b E. destruct (in_dec Nat.eq_dec k (owno t')) as [H|H]; auto.
    destruct (in_dec Nat.eq_dec k (owno (assoc id (s_ten s)))) as [H1|H1]; [rewrite HD in E by auto; discriminate|].
    rewrite HF in E by auto. apply (i_lt _ _ _ I) in E. lia.
  - intros id'. rewrite HT. unfold aput. destruct (Nat.eqb_spec id' id) as [->|Hid]; auto.
    pose proof (i_rep _ _ _ I id') as R. destruct (a id') as [y|] eqn:Ey; destruct (assoc id' (s_ten s)) as [t|] eqn:Et; cbn in *; auto.
    apply (repr_frame (s_blk s)); auto. intros k Hk. destruct (Oth id' k Hid) as (A & B); [rewrite Et; exact Hk|]. apply HF; auto.
  - intros k b E. destruct (in_dec Nat.eq_dec k (owno t')) as [H|H].
    + right. exists id. rewrite HT, Nat.eqb_refl. auto.
    + destruct (in_dec Nat.eq_dec k (owno (assoc id (s_ten s)))) as [H1|H1]; [rewrite HD in E by auto; discriminate|].
      rewrite HF in E by auto. destruct (i_own _ _ _ I _ _ E) as [H2|(id' & H2)]; auto. right. exists id'. rewrite HT.
      destruct (Nat.eqb_spec id' id) as [->|]; auto. contradiction.
  - intros i j k Hi Hj. rewrite HT in Hi, Hj. destruct (Nat.eqb_spec i id) as [->|Ni]; destruct (Nat.eqb_spec j id) as [->|Nj]; auto.
    + destruct (Oth _ _ Nj Hj). contradiction.
    + destruct (Oth _ _ Ni Hi). contradiction.
    + exact (i_dis _ _ _ I _ _ _ Hi Hj).
  - intros k Hk. destruct (i_lost _ _ _ I k Hk) as ((d & st & E) & N).
    assert (Nt : ~ In k (owno t')). { intros H. destruct (HN _ H) as [H1|H1]; [exact (N _ H1)|]. rewrite Fresh in E by auto. discriminate. }
    split; [exists d, st; rewrite HF; auto|]. intros id'. rewrite HT. destruct (Nat.eqb_spec id' id); auto.
  - exact (i_ndl _ _ _ I).
Qed.

(** ** States *)
Lemma assoc_put : forall id t s id', assoc id' (s_ten (put_ten id t s)) = if Nat.eqb id' id then Some t else assoc id' (s_ten s).
Proof.
  intros id t s id'. unfold put_ten. cbn [s_ten]. destruct (assoc id (s_ten s)) eqn:E; cbn [has].
  - rewrite assoc_set, E. cbn [has]. reflexivity.
  - rewrite assoc_app. cbn [assoc]. destruct (Nat.eqb_spec id' id) as [->|]; [now rewrite E|]. destruct (assoc id' (s_ten s)); auto.
Qed.
Lemma fst_new : forall (l : list (nat * block)) k b, NoDup (map fst l) -> assoc k l = None -> NoDup (map fst (l ++ [(k, b)])).
Proof.
  intros l k b N E. rewrite map_app. cbn. apply (Permutation_NoDup (l := k :: map fst l)); [apply Permutation_cons_append|].
  constructor; auto. now apply assoc_none.
Qed.
Lemma fst_without : forall (l : list (nat * block)) k, NoDup (map fst l) -> NoDup (map fst (without k l)).
Proof. intros l k N. rewrite without_fst. apply NoDup_filter. auto. Qed.
Lemma nd_len : forall d, proper_dims d = true <-> good d.
Proof.
  intros d. unfold proper_dims, good. rewrite andb_true_iff, negb_true_iff, Nat.eqb_neq, forallb_forall, Forall_forall. split; intros (A & B); split.
  - intros ->. now apply A.
  - intros x Hx. apply Z.ltb_lt; auto.
  - destruct d; cbn; auto.
  - intros x Hx. apply Z.ltb_lt; auto.
Qed.
Lemma good_pos : forall d, good d -> 0 < zprod d /\ nonneg d.
Proof.
  intros d (_ & H). split; [|apply Forall_impl with (2 := H); intros; lia]. induction H as [|x l Hx H IH]; [cbn; lia|].
  change (zprod (x :: l)) with (x * zprod l). apply Z.mul_pos_pos; auto.
Qed.
Lemma fresh_length : forall n, 0 <= n -> Z.of_nat (length (fresh n)) = n.
Proof. intros n H. unfold fresh. rewrite repeat_length. lia. Qed.
Lemma inv_val : forall a s lost id m d v, inv a s lost -> a id = Some (AVal m d v) ->
  m <> MUnknown /\ good d /\ Z.of_nat (length v) = zprod d /\
  exists p g, assoc id (s_ten s) = Some (mkTen m d (row_major_strides d) (Some p) (Some g)) /\
    assoc p (s_blk s) = Some (BData (kind_of m) v) /\ assoc g (s_blk s) = Some (BDims d (row_major_strides d)) /\
    p <> g /\ (p < s_next s)%nat /\ (g < s_next s)%nat.
Proof.
  intros a s lost id m d v I E. pose proof (i_rep _ _ _ I id) as R. rewrite E in R. destruct (assoc id (s_ten s)) as [t|] eqn:Et; [|destruct R].
  cbn in R. destruct R as (A & B & C & p & g & -> & R1 & R2). split; [|split; [|split]]; auto. exists p, g. split; [reflexivity|].
  split; [|split; [|split; [|split]]]; auto.
  - intros ->. rewrite R1 in R2. discriminate.
  - exact (i_lt _ _ _ I _ _ R1).
  - exact (i_lt _ _ _ I _ _ R2).
Qed.
Lemma inv_empty : forall a s lost id, inv a s lost -> (a id = None \/ a id = Some ADefault \/ exists m, a id = Some (AMoved m)) ->
  owno (assoc id (s_ten s)) = [].
Proof.
  intros a s lost id I E. pose proof (i_rep _ _ _ I id) as R. destruct (assoc id (s_ten s)) as [t|]; auto. destruct E as [E|[E|(m & E)]]; rewrite E in R; cbn in *.
  - destruct R.
  - destruct R as (_ & R1 & R2). unfold own. now rewrite R1, R2.
  - destruct R as (_ & _ & R1 & R2). unfold own. now rewrite R1, R2.
Qed.

(** The elements of a tensor change. *)
Lemma inv_contents : forall a s lost id m d v v' p g, inv a s lost -> a id = Some (AVal m d v) ->
  assoc id (s_ten s) = Some (mkTen m d (row_major_strides d) (Some p) (Some g)) -> length v' = length v ->
  inv (aput id (Some (AVal m d v')) a) (set_block p (BData (kind_of m) v') s) lost.
Proof.
  intros a s lost id m d v v' p g I E Et L. destruct (inv_val _ _ _ _ _ _ _ I E) as (A & B & C & p' & g' & Et' & R1 & R2 & D & P1 & P2).
  rewrite Et in Et'. injection Et' as <- <-.
  apply (inv_update a s lost id _ (Some (mkTen m d (row_major_strides d) (Some p) (Some g)))); auto; rewrite ?Et; cbn.
  - intros id'. destruct (Nat.eqb_spec id' id) as [->|]; auto.
  - intros k H _. rewrite assoc_set. destruct (Nat.eqb_spec k p); auto. subst. tauto.
  - tauto.
  - intros k [<-|[<-|[]]]; auto.
  - tauto.
  - rewrite setassoc_fst. exact (i_nd _ _ _ I).
  - split; [|split; [|split]]; auto; [rewrite L; auto|]. exists p, g. split; [reflexivity|]. rewrite !assoc_set, R1. cbn [has].
    rewrite Nat.eqb_refl, (proj2 (Nat.eqb_neq g p)); auto.
Qed.
(** A tensor that owned nothing gets its memory. *)
Lemma inv_new : forall a s lost id m d v s', inv a s lost -> owno (assoc id (s_ten s)) = [] -> m <> MUnknown -> good d -> Z.of_nat (length v) = zprod d ->
  (forall id', assoc id' (s_ten s') = if Nat.eqb id' id then Some (mkTen m d (row_major_strides d) (Some (s_next s)) (Some (S (s_next s)))) else assoc id' (s_ten s)) ->
  (forall k, assoc k (s_blk s') = if Nat.eqb k (s_next s) then Some (BData (kind_of m) v) else if Nat.eqb k (S (s_next s)) then Some (BDims d (row_major_strides d)) else assoc k (s_blk s)) ->
  s_next s' = S (S (s_next s)) -> NoDup (map fst (s_blk s')) ->
  inv (aput id (Some (AVal m d v)) a) s' lost.
Proof.
  intros a s lost id m d v s' I E M G L HT HB HN ND. eapply (inv_update a s lost id); eauto; rewrite ?E; cbn.
  - intros k _ H. rewrite HB. destruct (Nat.eqb_spec k (s_next s)); [subst; tauto|]. destruct (Nat.eqb_spec k (S (s_next s))); [subst; tauto|]. auto.
  - intros k [<-|[<-|[]]]; right; lia.
  - intros k [<-|[<-|[]]]; lia.
  - tauto.
  - lia.
  - split; [|split; [|split]]; auto. exists (s_next s), (S (s_next s)). split; [reflexivity|]. rewrite !HB, !Nat.eqb_refl.
    rewrite (proj2 (Nat.eqb_neq (S (s_next s)) (s_next s))) by lia. auto.
Qed.
(** A tensor gives its elements back and gets others. *)
Lemma inv_realloc : forall a s lost id m d v p g d' v' s', inv a s lost -> a id = Some (AVal m d v) ->
  assoc id (s_ten s) = Some (mkTen m d (row_major_strides d) (Some p) (Some g)) -> good d' -> Z.of_nat (length v') = zprod d' ->
  (forall id', assoc id' (s_ten s') = if Nat.eqb id' id then Some (mkTen m d' (row_major_strides d') (Some (s_next s)) (Some g)) else assoc id' (s_ten s)) ->
  (forall k, assoc k (s_blk s') = if Nat.eqb k p then None else if Nat.eqb k (s_next s) then Some (BData (kind_of m) v') else if Nat.eqb k g then Some (BDims d' (row_major_strides d')) else assoc k (s_blk s)) ->
  s_next s' = S (s_next s) -> NoDup (map fst (s_blk s')) ->
  inv (aput id (Some (AVal m d' v')) a) s' lost.
Proof.
  intros a s lost id m d v p g d' v' s' I E Et G L HT HB HN ND.
  destruct (inv_val _ _ _ _ _ _ _ I E) as (A & B & C & p' & g' & Et' & R1 & R2 & D & P1 & P2).
  rewrite Et in Et'. injection Et' as <- <-. eapply (inv_update a s lost id); eauto; rewrite ?Et; cbn.
  - intros k H1 H2. rewrite HB. destruct (Nat.eqb_spec k p); [subst; tauto|]. destruct (Nat.eqb_spec k (s_next s)); [subst; tauto|].
    destruct (Nat.eqb_spec k g); [subst; tauto|auto].
  - intros k [<-|[<-|[]]]; auto.
  - intros k [<-|[<-|[]]]; lia.
  - intros k [<-|[<-|[]]] H; [|tauto]. rewrite HB, Nat.eqb_refl. auto.
  - lia.
  - split; [|split; [|split]]; auto. exists (s_next s), g. split; [reflexivity|]. rewrite !HB, !Nat.eqb_refl.
    rewrite (proj2 (Nat.eqb_neq (s_next s) p)), (proj2 (Nat.eqb_neq g p)), (proj2 (Nat.eqb_neq g (s_next s))) by (auto; lia). auto.
Qed.
(** A tensor of another rank takes the elements; the copy of the extents is lost. *)
Lemma inv_move : forall a s lost id src m d v p g d' s', inv a s lost -> a src = Some (AVal m d v) -> a id = None ->
  assoc src (s_ten s) = Some (mkTen m d (row_major_strides d) (Some p) (Some g)) -> good d' -> zprod d' = zprod d ->
  (forall id', assoc id' (s_ten s') = if Nat.eqb id' id then Some (mkTen m d' (row_major_strides d') (Some p) (Some (s_next s)))
     else if Nat.eqb id' src then Some (mkTen m d (row_major_strides d) None None) else assoc id' (s_ten s)) ->
  (forall k, assoc k (s_blk s') = if Nat.eqb k (s_next s) then Some (BDims d' (row_major_strides d')) else assoc k (s_blk s)) ->
  s_next s' = S (s_next s) -> NoDup (map fst (s_blk s')) ->
  inv (aput id (Some (AVal m d' v)) (aput src (Some (AMoved m)) a)) s' (g :: lost).
Proof.
  intros a s lost id src m d v p g d' s' I E Ei Et G L HT HB HN ND.
  destruct (inv_val _ _ _ _ _ _ _ I E) as (A & B & C & p' & g' & Et' & R1 & R2 & D & P1 & P2).
  rewrite Et in Et'. injection Et' as <- <-.
  assert (Hne : id <> src) by (intros ->; congruence).
  assert (Own : forall id' k, In k (owno (assoc id' (s_ten s'))) -> (id' = id /\ (k = p \/ k = s_next s)) \/ (id' <> id /\ id' <> src /\ In k (owno (assoc id' (s_ten s))) /\ (k < s_next s)%nat /\ k <> p /\ k <> g)).
  { intros id' k H. rewrite HT in H. destruct (Nat.eqb_spec id' id) as [->|N1]; [left; cbn in H; intuition|].
    destruct (Nat.eqb_spec id' src) as [->|N2]; [destruct H|]. right. split; [auto|]. split; [auto|]. split; [auto|]. split; [|split].
    - destruct (inv_own _ _ _ _ _ I H) as (b & Eb). exact (i_lt _ _ _ I _ _ Eb).
    - intros ->. apply N2. apply (i_dis _ _ _ I _ _ p H). rewrite Et. cbn. auto.
    - intros ->. apply N2. apply (i_dis _ _ _ I _ _ g H). rewrite Et. cbn. auto. }
  assert (Gl : ~ In g lost). { intros H. apply (proj2 (i_lost _ _ _ I g H) src). rewrite Et. cbn. auto. }
  constructor; auto.
  - intros k b H. rewrite HB in H. destruct (Nat.eqb_spec k (s_next s)); [lia|]. apply (i_lt _ _ _ I) in H. lia.
  - intros id'. rewrite HT. unfold aput. destruct (Nat.eqb_spec id' id) as [->|N1].
    + cbn. split; [|split; [|split]]; auto; [lia|]. exists p, (s_next s). split; [reflexivity|]. rewrite !HB, Nat.eqb_refl, (proj2 (Nat.eqb_neq p (s_next s))) by lia. auto.
    + destruct (Nat.eqb_spec id' src) as [->|N2]; [cbn; auto|]. pose proof (i_rep _ _ _ I id') as R.
      destruct (a id') as [y|] eqn:Ey; destruct (assoc id' (s_ten s)) as [t|] eqn:Et2; cbn in *; auto.
      apply (repr_frame (s_blk s)); auto. intros k Hk. rewrite HB. destruct (repr_own _ _ _ _ R Hk) as (b & Eb). apply (i_lt _ _ _ I) in Eb.
      rewrite (proj2 (Nat.eqb_neq k (s_next s))) by lia. auto.
  - intros k b H. rewrite HB in H. destruct (Nat.eqb_spec k (s_next s)) as [->|N].
    + right. exists id. rewrite HT, Nat.eqb_refl. cbn. auto.
    + destruct (i_own _ _ _ I _ _ H) as [H1|(id' & H1)]; [left; right; auto|]. destruct (Nat.eq_dec id' src) as [->|N2].
      * rewrite Et in H1. cbn in H1. destruct H1 as [<-|[<-|[]]]; [right; exists id; rewrite HT, Nat.eqb_refl; cbn; auto|left; left; auto].
      * right. exists id'. rewrite HT. rewrite (proj2 (Nat.eqb_neq id' src)) by auto. destruct (Nat.eqb_spec id' id) as [->|]; auto.
        rewrite (inv_empty a s lost) in H1; auto. destruct H1.
  - intros i j k Hi Hj. apply Own in Hi, Hj. destruct Hi as [(-> & Hi)|(Hi1 & Hi2 & Hi3 & Hi4 & Hi5 & Hi6)]; destruct Hj as [(-> & Hj)|(Hj1 & Hj2 & Hj3 & Hj4 & Hj5 & Hj6)]; auto; try (destruct Hi; lia); try (destruct Hj; lia).
    exact (i_dis _ _ _ I _ _ _ Hi3 Hj3).
  - intros k [<-|Hk].
    + split; [exists d, (row_major_strides d); rewrite HB, (proj2 (Nat.eqb_neq g (s_next s))) by lia; auto|].
      intros id' H. apply Own in H. lia.
    + destruct (i_lost _ _ _ I k Hk) as ((d0 & st & E0) & N). pose proof (i_lt _ _ _ I _ _ E0).
      split; [exists d0, st; rewrite HB, (proj2 (Nat.eqb_neq k (s_next s))) by lia; auto|].
      intros id' H1. apply Own in H1. destruct H1 as [(_ & [-> | ->])|(_ & _ & H1 & _)]; [|lia|exact (N _ H1)].
      apply (N src). rewrite Et. cbn. auto.
  - constructor; auto. exact (i_ndl _ _ _ I).
Qed.
(** A tensor is destroyed. *)
Lemma inv_drop : forall a s lost id s', inv a s lost ->
  (forall id', assoc id' (s_ten s') = if Nat.eqb id' id then None else assoc id' (s_ten s)) ->
  (forall k, assoc k (s_blk s') = if in_dec Nat.eq_dec k (owno (assoc id (s_ten s))) then None else assoc k (s_blk s)) ->
  s_next s' = s_next s -> NoDup (map fst (s_blk s')) -> inv (aput id None a) s' lost.
Proof.
  intros a s lost id s' I HT HB HN ND. eapply (inv_update a s lost id); eauto; cbn; try tauto; try lia.
  - intros k H _. rewrite HB. destruct (in_dec Nat.eq_dec k (owno (assoc id (s_ten s)))); tauto.
  - intros k H _. rewrite HB. destruct (in_dec Nat.eq_dec k (owno (assoc id (s_ten s)))); tauto.
Qed.

(** ** Steps *)
Lemma alloc_eq : forall m n s, m <> MUnknown -> 0 < n ->
  alloc_data m n s = (Some (s_next s), mkD (s_blk s ++ [(s_next s, BData (kind_of m) (fresh n))]) (s_ten s) (S (s_next s)), true).
Proof. intros m n s M H. unfold alloc_data. rewrite (proj2 (Z.leb_gt n 0)) by lia. destruct m; try congruence; reflexivity. Qed.
Lemma free_eq : forall m p v s, m <> MUnknown -> assoc p (s_blk s) = Some (BData (kind_of m) v) -> free_data m (Some p) s = ROk tt (drop_block p s).
Proof. intros m p v s M E. unfold free_data. rewrite E. destruct m; try congruence; reflexivity. Qed.
Lemma ten_eq : forall id s t, assoc id (s_ten s) = Some t -> ten id s = t.
Proof. intros id s t E. unfold ten, assoc_ten. now rewrite E. Qed.
Lemma inv_fresh : forall a s lost k, inv a s lost -> (s_next s <= k)%nat -> assoc k (s_blk s) = None.
Proof. intros a s lost k I H. destruct (assoc k (s_blk s)) eqn:E; auto. apply (i_lt _ _ _ I) in E. lia. Qed.
Lemma inv_known : forall a s lost id, inv a s lost -> has (assoc id (s_ten s)) = negb (is_new a id).
Proof.
  intros a s lost id I. pose proof (i_rep _ _ _ I id) as R. unfold is_new. destruct (a id), (assoc id (s_ten s)); cbn in *; auto; destruct R.
Qed.
Lemma real_ne : forall m, real m = true <-> m <> MUnknown.
Proof. intros []; cbn; split; congruence. Qed.

(** Blocks added at the end. *)
Lemma two_new : forall (bl : list (nat * block)) n b c, (forall k, (n <= k)%nat -> assoc k bl = None) -> NoDup (map fst bl) ->
  NoDup (map fst ((bl ++ [(n, b)]) ++ [(S n, c)])) /\
  forall k, assoc k ((bl ++ [(n, b)]) ++ [(S n, c)]) = if Nat.eqb k n then Some b else if Nat.eqb k (S n) then Some c else assoc k bl.
Proof.
  intros bl n b c F N. split.
  - apply fst_new; [apply fst_new; auto|]. rewrite assoc_app, F by lia. cbn [assoc]. now rewrite (proj2 (Nat.eqb_neq (S n) n)) by lia.
  - intros k. rewrite !assoc_app. cbn [assoc]. destruct (Nat.eqb_spec k n) as [->|].
    + now rewrite F by lia.
    + destruct (Nat.eqb_spec k (S n)) as [->|]; [now rewrite F by lia|]. destruct (assoc k bl); auto.
Qed.
Lemma set_last : forall (bl : list (nat * block)) n b c, assoc n bl = None -> setassoc n c (bl ++ [(n, b)]) = bl ++ [(n, c)].
Proof.
  intros bl n b c H. unfold setassoc. rewrite map_app. cbn. rewrite Nat.eqb_refl. f_equal.
  induction bl as [|(k, x) bl IH]; cbn in *; auto. destruct (Nat.eqb_spec n k); [discriminate|]. f_equal. auto.
Qed.

Lemma do_new : forall a s lost id m dims, inv a s lost -> a id = None -> m <> MUnknown -> good dims ->
  exists s', ctor_new id m dims s = ROk tt s' /\ inv (aput id (Some (AVal m dims (unset dims))) a) s' lost.
Proof.
  intros a s lost id m dims I E M G. destruct (good_pos _ G) as (P & NN). unfold ctor_new. rewrite span_eq by (apply G).
  rewrite alloc_eq by auto. cbn [gpu_dims_copy new_block s_next s_blk s_ten fst snd]. eexists. split; [reflexivity|].
  destruct (two_new (s_blk s) (s_next s) (BData (kind_of m) (fresh (zprod dims))) (BDims dims (row_major_strides dims)) (fun k => inv_fresh _ _ _ k I) (i_nd _ _ _ I)) as (N2 & B2).
  apply (inv_new a s lost); auto.
  - apply (inv_empty a s lost); auto.
  - apply fresh_length. lia.
  - intros id'. rewrite assoc_put. reflexivity.
Qed.
Lemma do_host : forall a s lost id m dims l, inv a s lost -> a id = None -> m <> MUnknown -> good dims -> Z.of_nat (length l) = zprod dims ->
  exists s', ctor_host id m dims l s = ROk tt s' /\ inv (aput id (Some (AVal m dims (map Some l))) a) s' lost.
Proof.
  intros a s lost id m dims l I E M G L. destruct (good_pos _ G) as (P & NN). unfold ctor_host, size_of. rewrite alloc_eq by auto.
  pose proof (inv_fresh _ _ _ (s_next s) I (le_n _)) as F.
  unfold store_list. cbn [s_blk]. rewrite assoc_app, F. cbn [assoc]. rewrite Nat.eqb_refl. unfold fresh at 1. rewrite repeat_length, map_length.
  rewrite (proj2 (Nat.ltb_ge _ _)) by lia. cbn [rbind]. unfold set_block at 1. cbn [s_blk s_ten s_next]. rewrite set_last by auto.
  cbn [gpu_dims_copy new_block s_next s_blk s_ten fst snd]. eexists. split; [reflexivity|].
  rewrite skipn_all2, app_nil_r by (unfold fresh; rewrite repeat_length; lia).
  destruct (two_new (s_blk s) (s_next s) (BData (kind_of m) (map Some l)) (BDims dims (row_major_strides dims)) (fun k => inv_fresh _ _ _ k I) (i_nd _ _ _ I)) as (N2 & B2).
  apply (inv_new a s lost); auto.
  - apply (inv_empty a s lost); auto.
  - now rewrite map_length.
  - intros id'. rewrite assoc_put. reflexivity.
Qed.
Lemma init_ok : forall a s lost keep id src m d v, inv a s lost -> owno (assoc id (s_ten s)) = [] -> a src = Some (AVal m d v) ->
  exists s', do_init keep id (ten src s) s = ROk tt s' /\ inv (aput id (Some (AVal m d v)) a) s' lost.
Proof.
  intros a s lost keep id src m d v I E Es. destruct (inv_val _ _ _ _ _ _ _ I Es) as (M & G & L & p & g & Et & R1 & R2 & D & P1 & P2).
  destruct (good_pos _ G) as (P & NN). rewrite (ten_eq _ _ _ Et). unfold do_init. cbn [t_mode t_dims t_strides t_data t_gpu]. rewrite span_eq by (apply G).
  rewrite alloc_eq by auto. pose proof (inv_fresh _ _ _ (s_next s) I (le_n _)) as F.
  unfold load_list, store_list. cbn [s_blk rbind]. rewrite !assoc_app, R1. unfold size_of. rewrite (proj2 (Z.ltb_ge _ _)) by lia. cbn [rbind s_blk].
  rewrite assoc_app, F. cbn [assoc]. rewrite Nat.eqb_refl. rewrite firstn_all2 by lia. unfold fresh at 1. rewrite repeat_length.
  rewrite (proj2 (Nat.ltb_ge _ _)) by lia. unfold set_block at 1. cbn [s_blk s_ten s_next]. rewrite set_last by auto.
  cbn [gpu_dims_copy new_block s_next s_blk s_ten fst snd]. eexists. split; [reflexivity|].
  rewrite skipn_all2, app_nil_r by (unfold fresh; rewrite repeat_length; lia).
  destruct (two_new (s_blk s) (s_next s) (BData (kind_of m) v) (BDims d (row_major_strides d)) (fun k => inv_fresh _ _ _ k I) (i_nd _ _ _ I)) as (N2 & B2).
  apply (inv_new a s lost); auto.
  intros id'. rewrite assoc_put. reflexivity.
Qed.
Lemma move_ok : forall a s lost id src m d v dims, inv a s lost -> a id = None -> a src = Some (AVal m d v) -> good dims -> zprod dims = zprod d ->
  exists s' g, ctor_move id src dims s = ROk tt s' /\ inv (aput id (Some (AVal m dims v)) (aput src (Some (AMoved m)) a)) s' (g :: lost).
Proof.
  intros a s lost id src m d v dims I E Es Gd Hz. destruct (inv_val _ _ _ _ _ _ _ I Es) as (M & G & L & p & g & Et & R1 & R2 & D & P1 & P2).
  unfold ctor_move. rewrite (ten_eq _ _ _ Et). cbn [t_mode t_dims t_strides t_data t_gpu]. rewrite span_eq by (apply Gd). unfold size_of.
  rewrite Hz, Z.eqb_refl. cbn [negb gpu_dims_copy new_block].
  assert (HI : inv (aput id (Some (AVal m dims v)) (aput src (Some (AMoved m)) a))
    (put_ten id (mkTen m dims (row_major_strides dims) (Some p) (Some (s_next s)))
      (mkD (s_blk s ++ [(s_next s, BDims dims (row_major_strides dims))]) (s_ten (put_ten src (mkTen m d (row_major_strides d) None None) s)) (S (s_next s)))) (g :: lost)).
  { apply (inv_move a s lost id src m d v p g dims); auto.
    - intros id'. rewrite assoc_put. cbn [s_ten]. rewrite assoc_put. reflexivity.
    - intros k. cbn [put_ten s_blk s_next]. rewrite assoc_app. cbn [assoc]. destruct (Nat.eqb_spec k (s_next s)) as [->|].
      + now rewrite (inv_fresh _ _ _ (s_next s) I (le_n _)).
      + destruct (assoc k (s_blk s)); auto.
    - cbn [put_ten s_blk s_next]. apply fst_new; [exact (i_nd _ _ _ I)|]. apply (inv_fresh _ _ _ _ I). auto. }
  eexists. exists g. split; [|exact HI]. destruct m; [congruence| | |]; reflexivity.
Qed.

(** Blocks after giving back [p], adding one and changing [g]. *)
Lemma re_blocks : forall (bl : list (nat * block)) n p g b c, (forall k, (n <= k)%nat -> assoc k bl = None) -> NoDup (map fst bl) -> (p < n)%nat -> (g < n)%nat -> p <> g -> has (assoc g bl) = true ->
  NoDup (map fst (setassoc g c (without p bl ++ [(n, b)]))) /\
  forall k, assoc k (setassoc g c (without p bl ++ [(n, b)])) = if Nat.eqb k p then None else if Nat.eqb k n then Some b else if Nat.eqb k g then Some c else assoc k bl.
Proof.
  intros bl n p g b c F N Hp Hg Hpg Hh. split.
  - rewrite setassoc_fst. apply fst_new; [apply fst_without; auto|]. rewrite assoc_without, F by lia. now destruct (Nat.eqb n p).
  - intros k. rewrite assoc_set, !assoc_app, !assoc_without. cbn [assoc]. rewrite (proj2 (Nat.eqb_neq g p)), (proj2 (Nat.eqb_neq g n)) by (auto; lia).
    destruct (Nat.eqb_spec k g) as [->|Hkg].
    + rewrite (proj2 (Nat.eqb_neq g p)), (proj2 (Nat.eqb_neq g n)) by (auto; lia). destruct (assoc g bl); cbn in *; auto; discriminate.
    + destruct (Nat.eqb_spec k p) as [->|]; [now rewrite (proj2 (Nat.eqb_neq p n)) by lia|].
      destruct (Nat.eqb_spec k n) as [->|]; [now rewrite F by lia|]. destruct (assoc k bl); auto.
Qed.
Lemma resize_ok : forall a s lost id m d v dims, inv a s lost -> a id = Some (AVal m d v) -> dims <> d -> good dims -> zprod dims <> zprod d ->
  exists s', resize id dims s = ROk tt s' /\ inv (aput id (Some (AVal m dims (unset dims))) a) s' lost.
Proof.
  intros a s lost id m d v dims I E Hd Gd Hz. destruct (inv_val _ _ _ _ _ _ _ I E) as (M & G & L & p & g & Et & R1 & R2 & D & P1 & P2).
  destruct (good_pos _ Gd) as (P & NN). unfold resize. rewrite (ten_eq _ _ _ Et). cbn [t_mode t_dims t_strides t_data t_gpu].
  destruct (list_eq_dec Z.eq_dec dims d) as [|_]; [contradiction|]. rewrite span_eq by (apply Gd). unfold size_of. rewrite (proj2 (Z.eqb_neq _ _)) by auto.
  rewrite (free_eq _ _ _ _ M R1), alloc_eq by auto. cbn [drop_block gpu_dims_copy set_block s_blk s_ten s_next]. eexists. split; [reflexivity|].
  destruct (re_blocks (s_blk s) (s_next s) p g (BData (kind_of m) (fresh (zprod dims))) (BDims dims (row_major_strides dims)) (fun k => inv_fresh _ _ _ k I) (i_nd _ _ _ I)) as (N2 & B2); auto.
  { now rewrite R2. }
  apply (inv_realloc a s lost id m d v p g dims); auto.
  - apply fresh_length. lia.
  - intros id'. rewrite assoc_put. reflexivity.
Qed.
Lemma differs_spec : forall d d', Forall (fun x => 0 < x) d -> length d = length d' -> differs d d' = false <-> d = d'.
Proof.
  intros d d' H. revert d'. induction H as [|x d Hx H IH]; intros [|y d'] L; cbn in *; try discriminate; [tauto|].
  unfold differs in *. cbn. rewrite (proj2 (Z.eqb_neq x 0)) by lia. cbn [orb]. rewrite orb_false_iff, negb_false_iff, Z.eqb_eq, IH by lia.
  split; [intros (-> & ->); auto|intros E; injection E; auto].
Qed.
Lemma inv_apart : forall a s lost id id' k k', inv a s lost -> id <> id' -> In k (owno (assoc id (s_ten s))) -> In k' (owno (assoc id' (s_ten s))) -> k <> k'.
Proof. intros a s lost id id' k k' I N H H' ->. apply N. exact (i_dis _ _ _ I _ _ _ H H'). Qed.
Lemma store_eq : forall l p s kd old, assoc p (s_blk s) = Some (BData kd old) -> (length l <= length old)%nat ->
  store_list l (Some p) s = ROk tt (set_block p (BData kd (l ++ skipn (length l) old)) s).
Proof. intros l p s kd old E H. unfold store_list. rewrite E, (proj2 (Nat.ltb_ge _ _)) by auto. reflexivity. Qed.

(** A new target block, then filled. *)
Lemma re_blocks_set : forall (bl : list (nat * block)) n p g b b' c, (forall k, (n <= k)%nat -> assoc k bl = None) -> NoDup (map fst bl) -> (p < n)%nat -> (g < n)%nat -> p <> g -> has (assoc g bl) = true ->
  NoDup (map fst (setassoc n b' (setassoc g c (without p bl ++ [(n, b)])))) /\
  forall k, assoc k (setassoc n b' (setassoc g c (without p bl ++ [(n, b)]))) = if Nat.eqb k p then None else if Nat.eqb k n then Some b' else if Nat.eqb k g then Some c else assoc k bl.
Proof.
  intros bl n p g b b' c F N Hp Hg Hpg Hh. destruct (re_blocks bl n p g b c F N Hp Hg Hpg Hh) as (N2 & B2). split; [now rewrite setassoc_fst|].
  intros k. rewrite assoc_set, !B2. rewrite Nat.eqb_refl, (proj2 (Nat.eqb_neq n p)) by lia. cbn [has].
  destruct (Nat.eqb_spec k n) as [->|]; auto. now rewrite (proj2 (Nat.eqb_neq n p)) by lia.
Qed.

Lemma assign_ok : forall a s lost id src m d v0 ms d' v, inv a s lost -> a id = Some (AVal m d v0) -> a src = Some (AVal ms d' v) -> length d = length d' ->
  exists s', assign_dev id src s = ROk tt s' /\ inv (aput id (Some (AVal m d' v)) a) s' lost.
Proof.
  intros a s lost id src m d v0 ms d' v I E Es L.
  destruct (inv_val _ _ _ _ _ _ _ I E) as (M & G & L1 & p & g & Et & R1 & R2 & D & P1 & P2).
  destruct (inv_val _ _ _ _ _ _ _ I Es) as (M' & G' & L1' & q & g' & Et' & R1' & R2' & D' & P1' & P2').
  destruct (good_pos _ G') as (P & NN). unfold assign_dev. rewrite (ten_eq _ _ _ Et), (ten_eq _ _ _ Et'). cbn [t_mode t_dims t_strides t_data t_gpu has negb orb].
  destruct (differs d d') eqn:Ed.
  - assert (Hne : id <> src). { intros ->. rewrite E in Es. injection Es as -> -> ->. rewrite (proj2 (differs_spec d' d' (proj2 G') eq_refl)) in Ed by auto. discriminate. }
    rewrite (free_eq _ _ _ _ M R1), span_eq, alloc_eq by (auto; apply G'). cbn [drop_block gpu_dims_copy set_block s_blk s_ten s_next].
    assert (Hown : forall k k', In k [p; g] -> In k' [q; g'] -> k <> k').
    { intros k k' Hk Hk'. apply (inv_apart a s lost id src); auto; [rewrite Et|rewrite Et']; auto. }
    pose proof (re_blocks (s_blk s) (s_next s) p g (BData (kind_of m) (fresh (zprod d'))) (BDims d' (row_major_strides d')) (fun k => inv_fresh _ _ _ k I) (i_nd _ _ _ I) P1 P2 D) as (N2 & B2).
    { now rewrite R2. }
    pose proof (re_blocks_set (s_blk s) (s_next s) p g (BData (kind_of m) (fresh (zprod d'))) (BData (kind_of m) v) (BDims d' (row_major_strides d')) (fun k => inv_fresh _ _ _ k I) (i_nd _ _ _ I) P1 P2 D) as (N3 & B3).
    { now rewrite R2. }
    unfold launch_copy. cbn [t_data t_gpu put_ten s_blk]. rewrite !B2, !Nat.eqb_refl.
    assert (Hs : forall x y, x <> y -> Nat.eqb x y = false) by (intros; now apply Nat.eqb_neq).
    rewrite (Hs (s_next s) p), (Hs g p), (Hs g (s_next s)), (Hs q p), (Hs q (s_next s)), (Hs q g), (Hs g' p), (Hs g' (s_next s)), (Hs g' g), R1', R2'
      by (try lia; auto; apply not_eq_sym, Hown; cbn; auto).
    rewrite kcopy_eq by (first [assumption | apply fresh_length; lia | unfold fresh; rewrite repeat_length; lia]).
    eexists. split; [reflexivity|]. apply (inv_realloc a s lost id m d v0 p g d'); auto.
    intros id'. cbn [set_block put_ten s_ten]. exact (assoc_put id (mkTen m d' (row_major_strides d') (Some (s_next s)) (Some g)) s id').
  - apply differs_spec in Ed; auto; [|apply G]. subst d'. rewrite span_eq by (apply G). unfold launch_copy. cbn [t_data t_gpu]. rewrite R1, R2, R1', R2'.
    rewrite kcopy_eq by (auto; lia). eexists. split; [reflexivity|]. apply (inv_contents a s lost id m d v0 v p g); auto. lia.
Qed.
Lemma assign_moved_ok : forall a s lost id src m ms d' v, inv a s lost -> a id = Some (AMoved m) -> mapped m = false -> a src = Some (AVal ms d' v) ->
  exists s', assign_dev id src s = ROk tt s' /\ inv (aput id (Some (AVal m d' v)) a) s' lost.
Proof.
  intros a s lost id src m ms d' v I E Hm Es.
  pose proof (i_rep _ _ _ I id) as R. rewrite E in R. destruct (assoc id (s_ten s)) as [t|] eqn:Et; [|destruct R]. cbn in R. destruct R as (M & R0 & R1 & R2).
  destruct (inv_val _ _ _ _ _ _ _ I Es) as (M' & G' & L1' & q & g' & Et' & R1' & R2' & D' & P1' & P2').
  destruct (good_pos _ G') as (P & NN). unfold assign_dev. rewrite (ten_eq _ _ _ Et), (ten_eq _ _ _ Et'). rewrite R0, R1, R2. cbn [t_dims t_gpu t_data has negb orb].
  assert (Fr : free_data m None s = ROk tt s) by (destruct m; cbn in *; congruence). rewrite Fr, span_eq, alloc_eq by (auto; apply G').
  cbn [gpu_dims_copy new_block s_blk s_ten s_next].
  pose proof (fun k => inv_fresh _ _ _ k I) as F.
  destruct (two_new (s_blk s) (s_next s) (BData (kind_of m) (fresh (zprod d'))) (BDims d' (row_major_strides d')) F (i_nd _ _ _ I)) as (N2 & B2).
  unfold launch_copy. cbn [t_data t_gpu put_ten s_blk]. rewrite !B2, !Nat.eqb_refl.
  assert (Hs : forall x y, x <> y -> Nat.eqb x y = false) by (intros; now apply Nat.eqb_neq).
  rewrite (Hs (S (s_next s)) (s_next s)), (Hs q (s_next s)), (Hs q (S (s_next s))), (Hs g' (s_next s)), (Hs g' (S (s_next s))), R1', R2' by lia.
  rewrite kcopy_eq by (first [assumption | apply fresh_length; lia | unfold fresh; rewrite repeat_length; lia]).
  eexists. split; [reflexivity|]. apply (inv_new a s lost); auto.
  - apply (inv_empty a s lost); eauto.
  - intros id'. cbn [set_block put_ten s_ten]. exact (assoc_put id (mkTen m d' (row_major_strides d') (Some (s_next s)) (Some (S (s_next s)))) s id').
  - intros k. cbn [set_block put_ten s_blk]. rewrite assoc_set, !B2, Nat.eqb_refl. cbn [has]. destruct (Nat.eqb k (s_next s)); auto.
  - cbn [set_block put_ten s_blk]. now rewrite setassoc_fst.
Qed.
Lemma assign_host_ok : forall a s lost id m d v0 dims l, inv a s lost -> a id = Some (AVal m d v0) -> good dims -> length d = length dims -> Z.of_nat (length l) = zprod dims ->
  exists s', assign_host id dims l s = ROk tt s' /\ inv (aput id (Some (AVal m dims (map Some l))) a) s' lost.
Proof.
  intros a s lost id m d v0 dims l I E G' L Ll.
  destruct (inv_val _ _ _ _ _ _ _ I E) as (M & G & L1 & p & g & Et & R1 & R2 & D & P1 & P2).
  destruct (good_pos _ G') as (P & NN). unfold assign_host. rewrite (ten_eq _ _ _ Et). cbn [t_mode t_dims t_strides t_data t_gpu].
  destruct (differs d dims) eqn:Ed.
  - rewrite (free_eq _ _ _ _ M R1), span_eq, alloc_eq by (auto; apply G'). cbn [drop_block gpu_dims_copy set_block s_blk s_ten s_next snd].
    pose proof (re_blocks (s_blk s) (s_next s) p g (BData (kind_of m) (fresh (zprod dims))) (BDims dims (row_major_strides dims)) (fun k => inv_fresh _ _ _ k I) (i_nd _ _ _ I) P1 P2 D) as (N2 & B2).
    { now rewrite R2. }
    pose proof (re_blocks_set (s_blk s) (s_next s) p g (BData (kind_of m) (fresh (zprod dims))) (BData (kind_of m) (map Some l)) (BDims dims (row_major_strides dims)) (fun k => inv_fresh _ _ _ k I) (i_nd _ _ _ I) P1 P2 D) as (N3 & B3).
    { now rewrite R2. }
    rewrite (store_eq _ _ _ (kind_of m) (fresh (zprod dims))).
    + eexists. split; [reflexivity|]. rewrite skipn_all2, app_nil_r by (unfold fresh; rewrite repeat_length, map_length; lia).
      apply (inv_realloc a s lost id m d v0 p g dims); auto.
      * now rewrite map_length.
      * intros id'. cbn [set_block put_ten s_ten]. exact (assoc_put id (mkTen m dims (row_major_strides dims) (Some (s_next s)) (Some g)) s id').
    + cbn [put_ten s_blk]. now rewrite B2, Nat.eqb_refl, (proj2 (Nat.eqb_neq (s_next s) p)) by lia.
    + unfold fresh. rewrite repeat_length, map_length. lia.
  - apply differs_spec in Ed; auto; [|apply G]. subst dims.
    rewrite (store_eq _ _ _ (kind_of m) v0) by (auto; rewrite map_length; lia).
    rewrite skipn_all2, app_nil_r by (rewrite map_length; lia).
    eexists. split; [|apply (inv_contents a s lost id m d v0 (map Some l) p g); auto; rewrite map_length; lia].
    destruct m; [congruence| | |]; reflexivity.
Qed.
Lemma fill_ok : forall a s lost id m d v x, inv a s lost -> a id = Some (AVal m d v) ->
  exists s', fill id x s = ROk tt s' /\ inv (aput id (Some (AVal m d (map (fun _ => Some x) v))) a) s' lost.
Proof.
  intros a s lost id m d v x I E. destruct (inv_val _ _ _ _ _ _ _ I E) as (M & G & L1 & p & g & Et & R1 & R2 & D & P1 & P2).
  destruct (good_pos _ G) as (P & NN). unfold fill. rewrite (ten_eq _ _ _ Et). cbn [t_data t_gpu]. rewrite R1, R2, kfill_eq by (auto; apply G).
  eexists. split; [reflexivity|]. apply (inv_contents a s lost id m d v _ p g); auto. now rewrite map_length.
Qed.
Lemma read_ok : forall a s lost id m d v l, inv a s lost -> a id = Some (AVal m d v) -> Z.of_nat (length l) <= zprod d ->
  exists s', read_list id l s = ROk tt s' /\ inv (aput id (Some (AVal m d (map Some l ++ skipn (length l) v))) a) s' lost.
Proof.
  intros a s lost id m d v l I E Ll. destruct (inv_val _ _ _ _ _ _ _ I E) as (M & G & L1 & p & g & Et & R1 & R2 & D & P1 & P2).
  unfold read_list. rewrite (ten_eq _ _ _ Et). cbn [t_data t_mode]. rewrite (store_eq _ _ _ (kind_of m) v) by (auto; rewrite map_length; lia). rewrite map_length.
  eexists. split; [|apply (inv_contents a s lost id m d v _ p g); auto; rewrite app_length, map_length, skipn_length; lia].
  destruct m; [congruence| | |]; reflexivity.
Qed.
Lemma set_ok : forall a s lost id m d v ix k x, inv a s lost -> a id = Some (AVal m d v) -> position 0 d ix = Some k ->
  exists s', set id ix x s = ROk tt s' /\ inv (aput id (Some (AVal m d (firstn (Z.to_nat k) v ++ Some x :: skipn (Z.to_nat (k + 1)) v))) a) s' lost.
Proof.
  intros a s lost id m d v ix k x I E Hk. destruct (inv_val _ _ _ _ _ _ _ I E) as (M & G & L1 & p & g & Et & R1 & R2 & D & P1 & P2).
  apply position_range in Hk as (Hr & Hk). unfold set. rewrite (ten_eq _ _ _ Et). cbn [t_data t_mode t_dims t_strides]. rewrite <- Hk. unfold size_of.
  rewrite (proj2 (Z.ltb_ge k 0)), (proj2 (Z.ltb_ge (zprod d) k)) by lia. cbn [orb]. rewrite R1. unfold put_elt.
  rewrite (proj2 (Z.leb_le _ _)), (proj2 (Z.ltb_lt _ _)) by lia. cbn [andb]. rewrite set_nth_eq by lia.
  replace (Z.to_nat (k + 1)) with (S (Z.to_nat k)) by lia.
  eexists. split; [|apply (inv_contents a s lost id m d v _ p g); auto]; [destruct m; [congruence| | |]; reflexivity|].
  rewrite app_length. cbn [length]. rewrite firstn_length, skipn_length. lia.
Qed.
Lemma del_ok : forall a s lost id x, inv a s lost -> a id = Some x -> exists s', dtor id s = ROk tt s' /\ inv (aput id None a) s' lost.
Proof.
  intros a s lost id x I E. pose proof (i_rep _ _ _ I id) as R. rewrite E in R. destruct (assoc id (s_ten s)) as [t|] eqn:Et; [|destruct R]. cbn in R.
  assert (Empty : t_data t = None -> t_gpu t = None -> dtor id s = ROk tt (mkD (s_blk s) (without id (s_ten s)) (s_next s))).
  { intros E1 E2. unfold dtor. rewrite (ten_eq _ _ _ Et), E1, E2. destruct (t_mode t); reflexivity. }
  assert (Gone : own t = [] -> inv (aput id None a) (mkD (s_blk s) (without id (s_ten s)) (s_next s)) lost).
  { intros E0. apply (inv_drop a s lost id); auto; cbn [s_ten s_blk].
    - intros id'. apply assoc_without.
    - intros k. rewrite Et. cbn [owno]. rewrite E0. reflexivity.
    - exact (i_nd _ _ _ I). }
  destruct x as [m d v| |m].
  - destruct R as (M & G & L & p & g & -> & R1 & R2). assert (D : p <> g) by congruence.
    exists (mkD (without g (without p (s_blk s))) (without id (s_ten s)) (s_next s)). split.
    { unfold dtor. rewrite (ten_eq _ _ _ Et). cbn [t_mode t_data t_gpu]. pose proof (free_eq _ _ _ _ M R1) as Fr.
      destruct m; [congruence| | |]; rewrite Fr; cbn [drop_block s_blk s_ten s_next]; rewrite assoc_without, (proj2 (Nat.eqb_neq g p)), R2 by auto; reflexivity. }
    apply (inv_drop a s lost id); auto; cbn [s_ten s_blk].
    + intros id'. apply assoc_without.
    + intros k. rewrite !assoc_without, Et. cbn [owno own t_data t_gpu opt app]. destruct (in_dec Nat.eq_dec k [p; g]) as [H|H].
      * destruct H as [<-|[<-|[]]]; rewrite Nat.eqb_refl; auto. destruct (Nat.eqb p g); auto.
      * destruct (Nat.eqb_spec k g); [subst; cbn in H; tauto|]. destruct (Nat.eqb_spec k p); [subst; cbn in H; tauto|auto].
    + apply fst_without, fst_without. exact (i_nd _ _ _ I).
  - destruct R as (R0 & R1 & R2). eexists. split; [apply Empty; auto|]. apply Gone. unfold own. now rewrite R1, R2.
  - destruct R as (_ & R0 & R1 & R2). eexists. split; [apply Empty; auto|]. apply Gone. unfold own. now rewrite R1, R2.
Qed.

(** ** Histories *)
Lemma step_inv : forall o a a' s lost, inv a s lost -> astep o a = Some a' ->
  exists s' lost', dstep o s = ROk tt s' /\ inv a' s' lost' /\ (length lost' = length lost + (if is_move o then 1 else 0))%nat.
Proof.
  intros o a a' s lost I H.
  assert (New : forall id, is_new a id = true -> a id = None) by (intros id; unfold is_new; destruct (a id); [discriminate|auto]).
  assert (Old : forall id x, a id = Some x -> is_new a id = false) by (intros id x E; unfold is_new; now rewrite E).
  assert (Fin : forall r, (exists s', r = ROk tt s' /\ inv a' s' lost) ->
    exists s' lost', r = ROk tt s' /\ inv a' s' lost' /\ (length lost' = length lost + 0)%nat).
  { intros r (s' & E1 & E2). exists s', lost. split; [|split]; auto. }
  destruct o; cbn [astep dstep is_move] in *; unfold given in H; rewrite ?(inv_known _ _ _ _ I).
  - destruct (is_new a id) eqn:E1; [|discriminate]. destruct (real m) eqn:E2; [|discriminate]. destruct (proper_dims dims) eqn:E3; [|discriminate].
    cbn in H. injection H as <-. apply Fin. cbn [negb]. apply do_new; auto; [now apply real_ne|now apply nd_len].
  - destruct (is_new a id) eqn:E1; [|discriminate]. injection H as <-. apply Fin. cbn [negb]. eexists. split; [reflexivity|].
    assert (E0 : owno (assoc id (s_ten s)) = []) by (apply (inv_empty a s lost); auto).
    apply (inv_update a s lost id _ (Some (mkTen MUnknown junk junk None None))); auto; rewrite ?E0; cbn [put_ten s_blk s_next]; auto.
    + intros id'. apply assoc_put.
    + intros k [].
    + intros k [].
    + exact (i_nd _ _ _ I).
    + cbn. auto.
  - destruct (a src) as [[m d v| |]|] eqn:Es; try discriminate. destruct (is_new a id) eqn:E1; [|discriminate]. injection H as <-.
    rewrite (Old _ _ Es). cbn [negb andb]. apply Fin. apply init_ok; auto. apply (inv_empty a s lost); auto.
  - destruct (is_new a id) eqn:E1; [|discriminate]. destruct (real m) eqn:E2; [|discriminate]. destruct (proper_dims dims) eqn:E3; [|discriminate].
    destruct (fits dims l) eqn:E4; [|discriminate]. cbn in H. injection H as <-. apply Fin. cbn [negb].
    apply do_host; auto; [now apply real_ne|now apply nd_len|now apply Z.eqb_eq].
  - destruct (a src) as [[m d v| |]|] eqn:Es; try discriminate. destruct (is_new a id) eqn:E1; [|discriminate]. destruct (proper_dims dims) eqn:E3; [|discriminate].
    destruct (Z.eqb_spec (zprod dims) (zprod d)) as [E4|]; [|discriminate]. cbn in H. injection H as <-. rewrite (Old _ _ Es). cbn [negb andb].
    destruct (move_ok a s lost id src m d v dims I (New _ E1) Es (proj1 (nd_len _) E3) E4) as (s' & g & A & B). exists s', (g :: lost).
    split; [auto|]. split; [auto|]. cbn. lia.
  - destruct (a id) as [[m d v| |]|] eqn:Es; try discriminate. rewrite (Old _ _ Es). cbn [negb]. apply Fin.
    destruct (list_eq_dec Z.eq_dec dims d) as [->|Hd].
    + injection H as <-. destruct (inv_val _ _ _ _ _ _ _ I Es) as (_ & _ & _ & p & g & Et & _). exists s. split; auto.
      unfold resize. rewrite (ten_eq _ _ _ Et). cbn [t_dims]. destruct (list_eq_dec Z.eq_dec d d); [auto|congruence].
    + destruct (proper_dims dims) eqn:E3; [|discriminate]. destruct (same_rank dims d); [|discriminate].
      destruct (Z.eqb_spec (zprod dims) (zprod d)) as [|E4]; [discriminate|]. cbn in H. injection H as <-.
      apply (resize_ok a s lost id m d v); auto. now apply nd_len.
  - destruct (a id) as [x|] eqn:Ei; [|discriminate]. destruct (a src) as [[ms d' v| |]|] eqn:Es; try (destruct x; discriminate).
    rewrite (Old _ _ Ei), (Old _ _ Es). cbn [negb andb]. apply Fin. unfold op_assign.
    pose proof (i_rep _ _ _ I id) as R. rewrite Ei in R. destruct (assoc id (s_ten s)) as [t|] eqn:Et; [|destruct R]. rewrite (ten_eq _ _ _ Et). cbn in R.
    destruct x as [m d v0| |m].
    + unfold same_rank in H. destruct (Nat.eqb_spec (length d) (length d')) as [E4|]; [|discriminate]. injection H as <-.
      assert (M : t_mode t <> MUnknown) by (destruct R as (M & _ & _ & p & g & -> & _); auto).
      destruct (assign_ok a s lost id src m d v0 ms d' v I Ei Es E4) as (s' & A & B). exists s'. split; auto. destruct (t_mode t); congruence.
    + injection H as <-. destruct R as (-> & _). apply init_ok; auto. apply (inv_empty a s lost); auto.
    + destruct (mapped m) eqn:Em; [discriminate|]. injection H as <-. destruct R as (M & E0 & _).
      destruct (assign_moved_ok a s lost id src m ms d' v I Ei Em Es) as (s' & A & B). exists s'. split; auto. destruct (t_mode t); congruence.
  - destruct (a id) as [[m d v| |]|] eqn:Es; try discriminate. rewrite (Old _ _ Es). cbn [negb]. apply Fin.
    destruct (proper_dims dims) eqn:E3; [|discriminate]. unfold same_rank in H. destruct (Nat.eqb_spec (length d) (length dims)) as [E4|]; [|discriminate].
    destruct (fits dims l) eqn:E5; [|discriminate]. cbn in H. injection H as <-.
    apply (assign_host_ok a s lost id m d v); auto; [now apply nd_len|now apply Z.eqb_eq].
  - destruct (a id) as [[m d v0| |]|] eqn:Es; try discriminate. rewrite (Old _ _ Es). cbn [negb]. apply Fin. injection H as <-. apply fill_ok; auto.
  - destruct (a id) as [[m d v0| |]|] eqn:Es; try discriminate. rewrite (Old _ _ Es). cbn [negb]. apply Fin.
    destruct (Z.leb_spec (Z.of_nat (length l)) (zprod d)); [|discriminate]. injection H as <-. apply read_ok; auto.
  - destruct (a id) as [[m d v0| |]|] eqn:Es; try discriminate. rewrite (Old _ _ Es). cbn [negb]. apply Fin.
    destruct (position 0 d ix) as [k|] eqn:Ek; [|discriminate]. injection H as <-. apply (set_ok a s lost id m d v0 ix k v); auto.
  - destruct (a id) as [x|] eqn:Es; unfold is_new in *; rewrite Es in *; [|discriminate]. cbn [negb] in *. apply Fin. injection H as <-. apply (del_ok a s lost id x); auto.
Qed.
Lemma run_inv : forall os a a' s lost, inv a s lost -> arun os a = Some a' ->
  exists s' lost', drun os s = ROk tt s' /\ inv a' s' lost' /\ (length lost' = length lost + moves os)%nat.
Proof.
  induction os as [|o os IH]; intros a a' s lost I H; cbn [arun drun] in *.
  - injection H as <-. exists s, lost. split; [|split]; auto.
  - destruct (astep o a) as [a1|] eqn:E; [|discriminate]. destruct (step_inv _ _ _ _ _ I E) as (s1 & l1 & E1 & I1 & L1).
    destruct (IH _ _ _ _ I1 H) as (s2 & l2 & E2 & I2 & L2). exists s2, l2. rewrite E1. cbn [rbind]. split; [|split]; auto.
    unfold moves in *. cbn [filter]. destruct (is_move o); cbn [length]; lia.
Qed.
Lemma init_inv : inv nothing d_init [].
Proof. constructor; cbn; try tauto; try constructor; intros; discriminate. Qed.
Lemma inv_shows : forall a s lost id, inv a s lost -> shows s id (a id).
Proof.
  intros a s lost id I. pose proof (i_rep _ _ _ I id) as R. unfold shows, assoc_ten. destruct (a id) as [[m d v| |m]|] eqn:E.
  - destruct (inv_val _ _ _ _ _ _ _ I E) as (M & G & L1 & p & g & Et & R1 & R2 & D & P1 & P2). split; [|split].
    + rewrite Et. eexists. split; [reflexivity|]. auto.
    + assert (H : load_list (zprod d) (Some p) s = ROk v s). { unfold load_list. rewrite R1, (proj2 (Z.ltb_ge _ _)), firstn_all2 by lia. auto. }
      unfold write_list, size_of. rewrite (ten_eq _ _ _ Et). cbn [t_mode t_data t_dims]. destruct m; [congruence| | |]; auto.
    + intros ix k Hk. apply position_range in Hk as (Hr & Hk). destruct (nth_error v (Z.to_nat k)) as [e|] eqn:Ee; [|apply nth_error_None in Ee; lia].
      exists e. split; auto. unfold get. rewrite (ten_eq _ _ _ Et). cbn [t_mode t_data t_dims t_strides]. rewrite R1, <- Hk, get_elt_nth, Ee by lia.
      destruct m; [congruence| | |]; auto.
  - destruct (assoc id (s_ten s)); [eauto|destruct R].
  - destruct (assoc id (s_ten s)); [eauto|destruct R].
  - destruct (assoc id (s_ten s)); [destruct R|auto].
Qed.
