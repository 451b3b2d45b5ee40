(** * L_Einsum: lemmas about the index analysis and the generic contraction. *)
From Coq Require Import List ZArith Lia Bool Permutation Ring.
From Verif Require Import Base Heap Conc M_Addr S_Addr L_Addr L_Elt M_Einsum S_Einsum.
Import ListNotations.
Open Scope Z_scope.

(** ** Label lists *)
Lemma has_type_In : forall l L, has_type l L = true <-> In l L.
Proof.
  intros. unfold has_type. rewrite existsb_exists. split.
  - intros (x & Hx & E). apply Nat.eqb_eq in E. now subst.
  - intros H. exists l. split; auto. apply Nat.eqb_refl.
Qed.

Lemma has_type_false : forall l L, has_type l L = false <-> ~ In l L.
Proof. intros. rewrite <- has_type_In. destruct (has_type l L); split; congruence. Qed.

Lemma in_intersect : forall l S1 S2, In l (intersect S1 S2) <-> In l S1 /\ In l S2.
Proof. intros. unfold intersect. rewrite filter_In, has_type_In. tauto. Qed.

Lemma in_difference : forall l S1 S2, In l (difference S1 S2) <-> In l S1 /\ ~ In l S2.
Proof. intros. unfold difference. rewrite filter_In, negb_true_iff, has_type_false. tauto. Qed.

Lemma NoDup_snoc : forall A (l : list A) x, NoDup l -> ~ In x l -> NoDup (l ++ [x]).
Proof.
  intros A l x Hl Hx. apply Permutation_NoDup with (x :: l).
  - apply Permutation_cons_append.
  - now constructor.
Qed.

Lemma filter_unique_spec : forall inp out, NoDup out ->
  NoDup (filter_unique out inp) /\ forall l, In l (filter_unique out inp) <-> In l out \/ In l inp.
Proof.
  induction inp as [|x r IH]; intros out Ho; simpl.
  - split; auto. intros. tauto.
  - destruct (has_type x out) eqn:E.
    + apply has_type_In in E. destruct (IH out Ho) as (H1 & H2). split; auto.
      intros l. rewrite H2. split; [tauto|]. intros [H|[->|H]]; auto.
    + apply has_type_false in E. destruct (IH (out ++ [x])) as (H1 & H2).
      { now apply NoDup_snoc. }
      split; auto. intros l. rewrite H2, in_app_iff. simpl. tauto.
Qed.

Lemma unique_NoDup : forall L, NoDup (unique L).
Proof. intros. apply filter_unique_spec. constructor. Qed.
Lemma in_unique : forall l L, In l (unique L) <-> In l L.
Proof.
  intros. unfold unique. rewrite (proj2 (filter_unique_spec L [] (NoDup_nil _))). simpl. tauto.
Qed.

Lemma filter_unique_id : forall inp out, NoDup (out ++ inp) -> filter_unique out inp = out ++ inp.
Proof.
  induction inp as [|x r IH]; intros out H; simpl; [now rewrite app_nil_r|].
  destruct (has_type x out) eqn:E.
  - apply has_type_In in E. apply NoDup_remove in H as (_ & H). exfalso. apply H, in_or_app; auto.
  - rewrite IH; rewrite <- app_assoc; auto.
Qed.
Lemma unique_id : forall L, NoDup L -> unique L = L.
Proof. intros. unfold unique. now rewrite filter_unique_id. Qed.

Lemma filter_unique_le : forall inp out, (length (filter_unique out inp) <= length out + length inp)%nat.
Proof.
  induction inp as [|x r IH]; intros out; simpl; [lia|]. destruct (has_type x out).
  - specialize (IH out). lia.
  - specialize (IH (out ++ [x])). rewrite app_length in IH. simpl in IH. lia.
Qed.
Lemma filter_unique_full : forall inp out, NoDup out ->
  length (filter_unique out inp) = (length out + length inp)%nat -> NoDup (out ++ inp).
Proof.
  induction inp as [|x r IH]; intros out Ho H; simpl in *; [now rewrite app_nil_r|].
  destruct (has_type x out) eqn:E.
  - pose proof (filter_unique_le r out). lia.
  - apply has_type_false in E. replace (out ++ x :: r) with ((out ++ [x]) ++ r) by now rewrite <- app_assoc.
    apply IH; [now apply NoDup_snoc|]. rewrite app_length. simpl. lia.
Qed.
Lemma hadamard_NoDup : forall L, Nat.eqb (length L) (length (unique L)) = true <-> NoDup L.
Proof.
  intros. rewrite Nat.eqb_eq. split.
  - intros H. apply (filter_unique_full L []); [constructor|]. simpl. unfold unique in H. lia.
  - intros H. now rewrite unique_id.
Qed.

Lemma find_position_Some : forall l L p, find_position l L = Some p -> nth_error L p = Some l.
Proof.
  induction L as [|h r IH]; intros p H; simpl in *; [discriminate|].
  destruct (Nat.eqb_spec h l).
  - injection H as <-. simpl. congruence.
  - destruct (find_position l r); [|discriminate]. injection H as <-. simpl. auto.
Qed.
Lemma find_position_None : forall l L, find_position l L = None <-> ~ In l L.
Proof.
  induction L as [|h r IH]; simpl; [tauto|]. destruct (Nat.eqb_spec h l).
  - split; [discriminate|]. intros H. exfalso. apply H. auto.
  - destruct (find_position l r); destruct IH as (I1 & I2); split; try discriminate; auto.
    + intros H. assert (Hn : ~ In l r) by tauto. discriminate (I2 Hn).
    + intros _. specialize (I1 eq_refl). tauto.
Qed.
Lemma find_position_In : forall l L, In l L -> exists p, find_position l L = Some p.
Proof.
  intros. destruct (find_position l L) eqn:E; eauto. now apply find_position_None in E.
Qed.

Lemma nth_of_error : forall A (l : list A) n x d, nth_error l n = Some x -> nth n l d = x.
Proof. intros. now apply nth_error_nth. Qed.

Lemma nth_map_error : forall A B (f : A -> B) l p x d, nth_error l p = Some x -> nth p (map f l) d = f x.
Proof. intros. apply nth_of_error. rewrite nth_error_map, H. reflexivity. Qed.

(** Value of a label in a combination built from an environment. *)
Lemma construct_index_env : forall U V env l, In l U \/ In l V ->
  construct_index U (map env U) V (map env V) l = env l.
Proof.
  intros U V env l H. unfold construct_index. destruct (find_position l U) as [p0|] eqn:E.
  - apply find_position_Some in E. now apply nth_map_error.
  - apply find_position_None in E. destruct H as [H|H]; [contradiction|].
    apply find_position_In in H as (p & Hp). rewrite Hp. apply find_position_Some in Hp.
    now apply nth_map_error.
Qed.

Lemma construct_index_env_l : forall U V env lc l, In l U ->
  construct_index U (map env U) V lc l = env l.
Proof.
  intros U V env lc l H. unfold construct_index. destruct (find_position_In _ _ H) as (p & Hp).
  rewrite Hp. apply find_position_Some in Hp. now apply nth_map_error.
Qed.

(** Every combination of a duplicate-free label list comes from an environment. *)
Lemma env_of_comb : forall U comb, NoDup U -> length comb = length U ->
  map (construct_index U comb [] []) U = comb.
Proof.
  intros U comb HN HL. apply nth_ext with (d := -1) (d' := -1).
  - now rewrite map_length.
  - intros n Hn. rewrite map_length in Hn. destruct (nth_error U n) as [n0|] eqn:E.
    + rewrite (nth_map_error _ _ _ _ _ n0) by auto. unfold construct_index.
      destruct (find_position_In n0 U) as (p & Hp); [eapply nth_error_In; eauto|].
      rewrite Hp. apply find_position_Some in Hp. f_equal.
      apply (proj1 (NoDup_nth_error U) HN); [apply nth_error_Some; congruence|congruence].
    + apply nth_error_None in E. lia.
Qed.

(** ** Positions *)
Lemma find_type_pos_spec : forall t L k x p, In (x, p) (find_type_pos t k L) ->
  x = t /\ (k <= p)%nat /\ nth_error L (p - k) = Some t.
Proof.
  induction L as [|h r IH]; intros k x p H; simpl in H; [contradiction|].
  destruct (Nat.eqb_spec h t).
  - destruct H as [H|H].
    + injection H as <- <-. rewrite Nat.sub_diag. simpl. subst. auto.
    + apply IH in H as (-> & Hk & Hn). repeat split; [lia|].
      replace (p - k)%nat with (S (p - S k)) by lia. auto.
  - apply IH in H as (-> & Hk & Hn). repeat split; [lia|].
    replace (p - k)%nat with (S (p - S k)) by lia. auto.
Qed.
Lemma find_type_pos_length : forall t L k, length (find_type_pos t k L) = count_occ Nat.eq_dec L t.
Proof.
  induction L as [|h r IH]; intros k; simpl; auto. destruct (Nat.eqb_spec h t).
  - destruct (Nat.eq_dec h t); [|contradiction]. simpl. auto.
  - destruct (Nat.eq_dec h t); [contradiction|]. auto.
Qed.

Lemma int_extent : forall d, 0 <= d < 2 ^ 31 -> to_int32 d = d.
Proof. intros. apply to_int32_id. lia. Qed.

Lemma tdim_pos : forall (ext : nat -> Z) L d p l, ddims d = map ext L -> nth_error L p = Some l -> tdim d p = ext l.
Proof. intros. unfold tdim. rewrite H. now apply nth_map_error. Qed.

Lemma target_dims_eq : forall (ext : nat -> Z) L d U, ddims d = map ext L ->
  (forall l, In l L -> 0 <= ext l < 2 ^ 31) -> (forall l, In l U -> In l L) ->
  get_dim_ranges_for d (unique_find_type_with_position U L) = map ext U.
Proof.
  intros ext L d U Hd Hx. induction U as [|u U IH]; intros HU; [reflexivity|].
  unfold get_dim_ranges_for, unique_find_type_with_position in *. cbn [flat_map map]. rewrite map_app.
  rewrite IH by (intros; apply HU; simpl; auto).
  assert (Hu : In u L) by (apply HU; simpl; auto).
  destruct (find_type_pos u 0 L) as [|[x p] r] eqn:E.
  - exfalso. assert (HL := find_type_pos_length u L 0). rewrite E in HL. simpl in HL.
    apply (count_occ_In Nat.eq_dec) in Hu. lia.
  - assert (Hin : In (x, p) (find_type_pos u 0 L)) by (rewrite E; simpl; auto).
    apply find_type_pos_spec in Hin as (-> & _ & Hn). rewrite Nat.sub_0_r in Hn. simpl.
    rewrite (tdim_pos ext L d p u) by auto. rewrite int_extent by auto. reflexivity.
Qed.

Lemma link_dims_eq : forall (ext : nat -> Z) L d U, ddims d = map ext L ->
  (forall l, In l L -> 0 <= ext l < 2 ^ 31) -> (forall l, In l U -> count_occ Nat.eq_dec L l = 1%nat) ->
  get_dim_ranges_for d (find_type_with_position U L) = map ext U.
Proof.
  intros ext L d U Hd Hx. induction U as [|u U IH]; intros HU; [reflexivity|].
  unfold get_dim_ranges_for, find_type_with_position in *. cbn [flat_map map]. rewrite map_app.
  rewrite IH by (intros; apply HU; simpl; auto).
  assert (Hu : count_occ Nat.eq_dec L u = 1%nat) by (apply HU; simpl; auto).
  rewrite <- (find_type_pos_length u L 0) in Hu.
  destruct (find_type_pos u 0 L) as [|[x p] [|q r]] eqn:E; try discriminate.
  assert (Hin : In (x, p) (find_type_pos u 0 L)) by (rewrite E; simpl; auto).
  apply find_type_pos_spec in Hin as (-> & _ & Hn). rewrite Nat.sub_0_r in Hn. simpl.
  rewrite (tdim_pos ext L d p u) by auto. rewrite int_extent; auto. apply Hx.
  eapply nth_error_In; eauto.
Qed.

(** ** Sums over label environments *)
Fixpoint upds (U : list nat) (ix : list Z) (env : nat -> Z) : nat -> Z :=
  match U, ix with
  | l :: r, v :: s => upds r s (upde env l v)
  | _, _ => env
  end.

Definition env_proper {X} (f : (nat -> Z) -> X) : Prop :=
  forall e1 e2, (forall l, e1 l = e2 l) -> f e1 = f e2.

Section SumOver.
  Context {O : Ops} (HR : is_ring O).
  Add Ring ORing : (ir_rt O HR).

  Lemma Sum_over_indices : forall U ext env (f : (nat -> Z) -> car O),
    Sum_over U ext env f = lsum (indices (map ext U)) (fun ix => f (upds U ix env)).
  Proof.
    induction U as [|l U IH]; intros ext env f.
    - simpl. unfold lsum. simpl. ring.
    - simpl map. rewrite (lsum_indices_cons O HR). simpl. apply zsum_ext. intros v Hv. apply IH.
  Qed.

  Lemma Sum_over_ext : forall U ext env env' (f g : (nat -> Z) -> car O),
    env_proper f -> (forall l, env l = env' l) -> (forall x, f x = g x) ->
    Sum_over U ext env f = Sum_over U ext env' g.
  Proof.
    induction U as [|l U IH]; intros ext env env' f g Hf He Hg; simpl.
    - rewrite <- Hg. now apply Hf.
    - apply zsum_ext. intros v Hv. apply IH; auto. intros x. unfold upde. destruct (Nat.eqb x l); auto.
  Qed.

  Lemma Sum_over_perm : forall U V ext (f : (nat -> Z) -> car O), env_proper f ->
    Permutation U V -> NoDup U -> forall env, Sum_over U ext env f = Sum_over V ext env f.
  Proof.
    intros U V ext f Hf HP. induction HP; intros HN env; simpl; auto.
    - inversion HN; subst. apply zsum_ext. intros. now apply IHHP.
    - unfold zsum. rewrite (lsum_swap O HR). apply lsum_ext. intros v Hv. apply lsum_ext. intros w Hw.
      apply Sum_over_ext; auto. intros z. unfold upde.
      inversion HN as [|? ? Hn _]; subst. simpl in Hn.
      destruct (Nat.eqb_spec z x), (Nat.eqb_spec z y); subst; auto. exfalso. apply Hn; auto.
    - rewrite IHHP1 by auto. apply IHHP2. eapply Permutation_NoDup; eauto.
  Qed.

  Lemma Sum_over_mul_l : forall U ext env c (f : (nat -> Z) -> car O),
    Sum_over U ext env (fun x => omul c (f x)) = omul c (Sum_over U ext env f).
  Proof.
    induction U as [|l U IH]; intros; simpl; auto. unfold zsum. rewrite <- (lsum_mul_l O HR).
    apply lsum_ext. intros. apply IH.
  Qed.
End SumOver.

Lemma upds_other : forall U ix env l, ~ In l U -> upds U ix env l = env l.
Proof.
  induction U as [|u U IH]; intros ix env l H; simpl; auto. destruct ix; auto.
  rewrite IH by (simpl in H; tauto). unfold upde. destruct (Nat.eqb_spec l u); auto.
  subst. exfalso. apply H. simpl. auto.
Qed.

Lemma upds_map : forall U ix env, NoDup U -> length ix = length U -> map (upds U ix env) U = ix.
Proof.
  induction U as [|u U IH]; intros ix env HN HL; destruct ix as [|v ix]; try discriminate; auto.
  inversion HN; subst. simpl. f_equal.
  - rewrite upds_other by auto. unfold upde. now rewrite Nat.eqb_refl.
  - apply IH; auto.
Qed.

Lemma upds_ok : forall U ix env ext L, NoDup U -> inb ix (map ext U) ->
  (forall l, In l L -> ~ In l U -> 0 <= env l < ext l) ->
  env_ok ext (upds U ix env) L.
Proof.
  intros U ix env ext L HN Hi He l Hl. destruct (in_dec Nat.eq_dec l U) as [HU|HU].
  - assert (HL := inb_length _ _ Hi). rewrite map_length in HL.
    rewrite <- (upds_map U ix env HN HL) in Hi.
    clear - Hi HU. induction U as [|u U IH]; [contradiction|]. unfold inb in Hi.
    cbv beta in Hi.
    assert (G : forall V, Forall2 (fun i d => 0 <= i < d) (map (upds (u :: U) ix env) V) (map ext V) ->
      forall x, In x V -> 0 <= upds (u :: U) ix env x < ext x).
    { induction V as [|w V IHV]; intros HF x Hx; [contradiction|]. simpl in HF. inversion HF; subst.
      destruct Hx as [<-|Hx]; auto. }
    now apply (G (u :: U)).
  - rewrite upds_other by auto. auto.
Qed.

(** A sum loop made of reads only. *)
Lemma pfold_pure : forall T X S own sh (l : list X) (f : S -> X -> prog T S) (g : S -> X -> S) h,
  (forall s x, In x l -> psafe own sh (f s x) h /\ run (f s x) h = Ok (g s x, h)) ->
  forall s, psafe own sh (pfold l f s) h /\ run (pfold l f s) h = Ok (fold_left g l s, h).
Proof.
  induction l as [|x l IH]; intros f g h H s; simpl; auto.
  destruct (H s x (or_introl eq_refl)) as (H1 & H2).
  destruct (IH f g h (fun s x Hx => H s x (or_intror Hx)) (g s x)) as (H3 & H4).
  split.
  - apply psafe_bind. split; auto. intros y h' E. rewrite H2 in E. injection E as <- <-. auto.
  - rewrite run_bind, H2. auto.
Qed.

(** The label condition checked at compile time, as a proposition. *)
Definition labels_ok (e : ein) : Prop :=
  forall l, In l (eA e) \/ In l (eB e) -> In l (eC e) \/ (In l (eA e) /\ In l (eB e)).

Lemma in_links : forall e l, In l (links e) <-> In l (eA e) /\ In l (eB e) /\ ~ In l (eC e).
Proof. intros. unfold links, linksAB. rewrite in_difference, in_intersect. tauto. Qed.

Lemma compiles_ok : forall e, compiles e = true <-> labels_ok e.
Proof.
  intros e. unfold compiles, labels_ok. rewrite forallb_forall. split.
  - intros H l Hl. assert (Hin : In l (eA e ++ eB e)) by (apply in_or_app; auto). apply H in Hin.
    apply orb_true_iff in Hin as [Hin|Hin]; apply has_type_In in Hin; unfold C_unique, link_unique in Hin;
      rewrite in_unique in Hin; auto. apply in_links in Hin. tauto.
  - intros H l Hl. apply in_app_or in Hl. apply orb_true_iff. rewrite !has_type_In.
    unfold C_unique, link_unique. rewrite !in_unique, in_links.
    destruct (in_dec Nat.eq_dec l (eC e)); auto. destruct (H l Hl); tauto.
Qed.

Lemma inb_map_env : forall ext env L, env_ok ext env L -> inb (map env L) (map ext L).
Proof.
  intros ext env L H. induction L as [|l L IH]; simpl; [constructor|].
  constructor; [apply H; simpl; auto|]. apply IH. intros x Hx. apply H. simpl; auto.
Qed.

Lemma env_ok_map : forall ext env L, inb (map env L) (map ext L) -> env_ok ext env L.
Proof.
  induction L as [|l L IH]; intros H x Hx; [contradiction|]. simpl in H. apply inb_cons in H as (H1 & H2).
  destruct Hx as [<-|Hx]; auto. now apply IH.
Qed.

(** ** The generic contraction, without assuming any law of arithmetic *)
Section GenericRun.
  Context {O : Ops}.
  Notation T := (car O).
  Variables (e : ein) (cp ab : T) (C A B : desc) (ext : nat -> Z) (h : heap T).
  Variables (a b c : list Z -> T).
  Hypothesis Hlab : labels_ok e.
  Hypothesis Hone : forall l, In l (links e) -> count_occ Nat.eq_dec (eA e) l = 1%nat.
  Hypothesis Hext : forall l, In l (eC e ++ eA e ++ eB e) -> 0 <= ext l < 2 ^ 31.
  Hypothesis HdA : ddims A = map ext (eA e).
  Hypothesis HdB : ddims B = map ext (eB e).
  Hypothesis HdC : ddims C = map ext (eC e).
  Hypothesis HA : holds h A a.
  Hypothesis HB : holds h B b.
  Hypothesis HC : holds h C c.
  Hypothesis HinjC : inj C.
  Hypothesis HdisA : disj C A.
  Hypothesis HdisB : disj C B.

  (** Target element, and its value in the order the code computes it. *)
  Definition tgt (t : list Z) : list Z := map (construct_index (C_unique e) t [] []) (eC e).
  Definition gsum (t : list Z) : T :=
    let prod lc := omul (omul ab (a (ord e (eA e) t lc))) (b (ord e (eB e) t lc)) in
    match link_unique e with
    | [] => prod []
    | _ => fold_left (fun s lc => oadd s (prod lc)) (indices (map ext (link_unique e))) o0
    end.
  Definition gval (t : list Z) : T :=
    oadd (omul (if oeqb cp o0 then o0 else c (tgt t)) cp) (gsum t).

  Lemma Gtargets : generic_targets e C = indices (map ext (C_unique e)).
  Proof.
    unfold generic_targets, unique_target_dims. f_equal. apply target_dims_eq; auto.
    - intros l Hl. apply Hext. apply in_or_app; auto.
    - intros l Hl. unfold C_unique in Hl. now rewrite in_unique in Hl.
  Qed.

  Lemma Glinks : unique_link_dims e A = map ext (link_unique e).
  Proof.
    unfold unique_link_dims, link_position_in_A. apply link_dims_eq; auto.
    - intros l Hl. apply Hext. apply in_or_app; right. apply in_or_app; auto.
    - intros l Hl. apply Hone. unfold link_unique in Hl. now rewrite in_unique in Hl.
  Qed.

  Lemma ord_env : forall t lc, In t (generic_targets e C) -> inb lc (map ext (link_unique e)) ->
    exists env, t = map env (C_unique e) /\ lc = map env (link_unique e) /\
      env_ok ext env (eC e ++ links e) /\
      ord e (eA e) t lc = map env (eA e) /\ ord e (eB e) t lc = map env (eB e) /\ tgt t = map env (eC e).
  Proof.
    intros t lc Ht Hlc. rewrite Gtargets in Ht. apply in_indices in Ht.
    assert (HLt := inb_length _ _ Ht). assert (HLl := inb_length _ _ Hlc). rewrite map_length in HLt, HLl.
    assert (NC := unique_NoDup (eC e)). assert (NL := unique_NoDup (links e)).
    fold (C_unique e) in NC. fold (link_unique e) in NL.
    exists (construct_index (C_unique e) t (link_unique e) lc).
    assert (E1 : map (construct_index (C_unique e) t (link_unique e) lc) (C_unique e) = t).
    { rewrite <- (env_of_comb _ t NC HLt) at 2. apply map_ext_in. intros l Hl. unfold construct_index.
      destruct (find_position_In l _ Hl) as (p & ->). reflexivity. }
    assert (E2 : map (construct_index (C_unique e) t (link_unique e) lc) (link_unique e) = lc).
    { rewrite <- (env_of_comb _ lc NL HLl) at 2. apply map_ext_in. intros l Hl.
      assert (Hl' := Hl). unfold link_unique in Hl'. rewrite in_unique, in_links in Hl'.
      unfold construct_index.
      replace (find_position l (C_unique e)) with (@None nat).
      2:{ symmetry. apply find_position_None. unfold C_unique. rewrite in_unique. tauto. }
      destruct (find_position_In l _ Hl) as (p & ->). reflexivity. }
    split; auto. split; auto. split; [|split; [|split]]; auto.
    - intros l Hl. apply in_app_or in Hl as [Hl|Hl].
      + apply (env_ok_map ext (construct_index (C_unique e) t (link_unique e) lc) (C_unique e)); [now rewrite E1|]. unfold C_unique. now rewrite in_unique.
      + apply (env_ok_map ext (construct_index (C_unique e) t (link_unique e) lc) (link_unique e)); [now rewrite E2|]. unfold link_unique. now rewrite in_unique.
    - unfold tgt. apply map_ext_in. intros l Hl. unfold construct_index.
      destruct (find_position_In l (C_unique e)) as (p & ->); auto. unfold C_unique. now rewrite in_unique.
  Qed.

  Lemma env_AB : forall env, env_ok ext env (eC e ++ links e) -> env_ok ext env (eA e ++ eB e).
  Proof.
    intros env He l Hl. apply in_app_or in Hl. apply He. apply in_or_app.
    destruct (in_dec Nat.eq_dec l (eC e)); auto. right. apply in_links. destruct (Hlab l Hl); tauto.
  Qed.

  Lemma tgt_ord : forall t, In t (generic_targets e C) -> ord e (eC e) t [] = tgt t.
  Proof.
    intros t Ht. unfold ord, tgt. apply map_ext_in. intros l Hl. unfold construct_index.
    destruct (find_position_In l (C_unique e)) as (p & ->); auto. unfold C_unique. now rewrite in_unique.
  Qed.

  Lemma default_lc : forall t, In t (generic_targets e C) ->
    (forall l, In l (C_unique e) -> 0 < ext l).
  Proof.
    intros t Ht l Hl. rewrite Gtargets in Ht. apply in_indices in Ht.
    apply inb_pos in Ht. rewrite Forall_map, Forall_forall in Ht. now apply Ht.
  Qed.

  Lemma tgt_inb : forall t, In t (generic_targets e C) -> inb (tgt t) (ddims C).
  Proof.
    intros t Ht. rewrite Gtargets in Ht. apply in_indices in Ht.
    assert (HLt := inb_length _ _ Ht). rewrite map_length in HLt.
    assert (E1 := env_of_comb _ t (unique_NoDup (eC e)) HLt).
    unfold tgt. rewrite HdC. apply inb_map_env. intros l Hl.
    apply (env_ok_map ext (construct_index (C_unique e) t [] []) (C_unique e)).
    - fold (C_unique e) in E1. rewrite E1. exact Ht.
    - unfold C_unique. now rewrite in_unique.
  Qed.

  Lemma tgt_inj : forall t t', In t (generic_targets e C) -> In t' (generic_targets e C) ->
    tgt t = tgt t' -> t = t'.
  Proof.
    intros t t' Ht Ht' E. rewrite Gtargets in Ht, Ht'. apply in_indices in Ht. apply in_indices in Ht'.
    assert (HLt := inb_length _ _ Ht). assert (HLt' := inb_length _ _ Ht'). rewrite map_length in HLt, HLt'.
    rewrite <- (env_of_comb _ t (unique_NoDup (eC e)) HLt), <- (env_of_comb _ t' (unique_NoDup (eC e)) HLt').
    apply map_ext_in. intros l Hl. apply (ext_in_map E). unfold C_unique in Hl. now rewrite in_unique in Hl.
  Qed.

  Definition gad (t : list Z) : Z := addr C (tgt t).

  Lemma gad_NoDup : NoDup (map gad (generic_targets e C)).
  Proof.
    assert (HN : NoDup (generic_targets e C)) by apply indices_NoDup.
    assert (G : forall l, (forall x, In x l -> In x (generic_targets e C)) -> NoDup l -> NoDup (map gad l)).
    { induction l as [|x l IH]; intros Hs Hl; simpl; constructor; inversion Hl; subst.
      - intros Hin. apply in_map_iff in Hin as (y & Ey & Hy). apply H1.
        replace x with y; auto. apply tgt_inj; auto; try (apply Hs; simpl; auto).
        apply HinjC; try (apply tgt_inb; apply Hs; simpl; auto). exact Ey.
      - apply IH; auto. intros. apply Hs. simpl; auto. }
    now apply G.
  Qed.

  Lemma gad_cell : forall z, owned (generic_targets e C) gad z -> cell C z.
  Proof.
    intros z Hz. apply in_map_iff in Hz as (t & <- & Ht). exists (tgt t). split; auto. now apply tgt_inb.
  Qed.

  Lemma subA : forall t lc, In t (generic_targets e C) -> inb lc (map ext (link_unique e)) ->
    inb (ord e (eA e) t lc) (ddims A) /\ inb (ord e (eB e) t lc) (ddims B).
  Proof.
    intros t lc Ht Hlc. destruct (ord_env t lc Ht Hlc) as (env & _ & _ & He & -> & -> & _).
    apply env_AB in He. rewrite HdA, HdB. split; apply inb_map_env; intros l Hl; apply He, in_or_app; auto.
  Qed.

  Lemma generic_task_ok :
    task_ok (generic_targets e C) gad (fun t => Some (gval t)) (generic_body e cp ab C A B) h.
  Proof.
    intros t h1 Ht Hag.
    assert (HrA : forall lc, inb lc (map ext (link_unique e)) ->
      h1 (subscript A (ord e (eA e) t lc)) = Some (a (ord e (eA e) t lc)) /\
      ~ owned (generic_targets e C) gad (subscript A (ord e (eA e) t lc))).
    { intros lc Hlc. destruct (subA t lc Ht Hlc) as (H1 & _). rewrite subscript_inb by auto.
      assert (Hn : ~ owned (generic_targets e C) gad (addr A (ord e (eA e) t lc))).
      { intros Ho. apply gad_cell in Ho as (j & Hj & Ej). symmetry in Ej. now apply HdisA in Ej. }
      split; auto. rewrite Hag by auto. now apply HA. }
    assert (HrB : forall lc, inb lc (map ext (link_unique e)) ->
      h1 (subscript B (ord e (eB e) t lc)) = Some (b (ord e (eB e) t lc)) /\
      ~ owned (generic_targets e C) gad (subscript B (ord e (eB e) t lc))).
    { intros lc Hlc. destruct (subA t lc Ht Hlc) as (_ & H1). rewrite subscript_inb by auto.
      assert (Hn : ~ owned (generic_targets e C) gad (addr B (ord e (eB e) t lc))).
      { intros Ho. apply gad_cell in Ho as (j & Hj & Ej). symmetry in Ej. now apply HdisB in Ej. }
      split; auto. rewrite Hag by auto. now apply HB. }
    assert (HS : psafe (eq (gad t)) (fun z => ~ owned (generic_targets e C) gad z) (generic_sum e ab A B t) h1
                 /\ run (generic_sum e ab A B t) h1 = Ok (gsum t, h1)).
    { unfold generic_sum, gsum. rewrite Glinks. destruct (link_unique e) as [|u U] eqn:EU.
      - destruct (HrA []) as (RA & NA); [constructor|]. destruct (HrB []) as (RB & NB); [constructor|].
        simpl. rewrite RA, RB. split; auto. split; auto. eexists; split; eauto.
      - cbn [map]. change (ext u :: map ext U) with (map ext (u :: U)). rewrite <- EU in *.
        apply pfold_pure. intros s lc Hlc. apply in_indices in Hlc.
        destruct (HrA lc Hlc) as (RA & NA). destruct (HrB lc Hlc) as (RB & NB).
        unfold generic_step. simpl. rewrite RA, RB. split; auto.
        split; auto. eexists. split; [reflexivity|]. split; auto. eexists. split; [reflexivity|exact I]. }
    destruct HS as (HS1 & HS2).
    unfold generic_body. rewrite tgt_ord by auto. rewrite subscript_inb by now apply tgt_inb.
    fold (gad t).
    assert (Hc : h1 (gad t) = Some (c (tgt t))).
    { rewrite Hag by auto. apply HC. now apply tgt_inb. }
    split.
    - apply psafe_bind. split; auto. intros s h2 E2. rewrite HS2 in E2. injection E2 as <- <-.
      unfold generic_store. destruct (oeqb cp o0); simpl.
      + repeat split; eauto. exists o0. rewrite upd_same. repeat split; eauto. exists (omul o0 cp).
        rewrite upd_same. repeat split; eauto.
      + split; auto. exists (c (tgt t)). repeat split; eauto. exists (omul (c (tgt t)) cp).
        rewrite upd_same. repeat split; eauto.
    - rewrite run_bind, HS2. unfold generic_store, gval. destruct (oeqb cp o0); simpl.
      + rewrite Hc, !upd_same.
        eexists. split; [reflexivity|]. apply upd_same.
      + rewrite Hc, !upd_same. eexists. split; [reflexivity|]. apply upd_same.
  Qed.

  Theorem generic_par : forall threads, Permutation (concat threads) (generic_targets e C) ->
    par_spec (omp_for (generic_body e cp ab C A B) threads) h (fun h' =>
      (forall t, In t (generic_targets e C) -> h' (gad t) = Some (gval t)) /\
      (forall z, ~ owned (generic_targets e C) gad z -> h' z = h z)).
  Proof.
    intros threads HP. unfold omp_for.
    apply (par_cells (list Z) T (generic_targets e C) threads gad (fun t => Some (gval t))); auto.
    - apply gad_NoDup.
    - apply generic_task_ok.
  Qed.

  (** Targets and environments. *)
  Lemma target_of_env : forall env, env_ok ext env (eC e) ->
    In (map env (C_unique e)) (generic_targets e C) /\ tgt (map env (C_unique e)) = map env (eC e).
  Proof.
    intros env He. split.
    - rewrite Gtargets. apply in_indices, inb_map_env. intros l Hl. apply He. unfold C_unique in Hl.
      now rewrite in_unique in Hl.
    - unfold tgt. apply map_ext_in. intros l Hl. apply construct_index_env_l. unfold C_unique. now rewrite in_unique.
  Qed.
End GenericRun.

(** ** The computed sum is the Einstein sum *)
Section GenericSum.
  Context {O : Ops} (HR : is_ring O).
  Notation T := (car O).
  Add Ring ORing2 : (ir_rt O HR).
  Variables (e : ein) (ab : T) (ext : nat -> Z) (a b : list Z -> T).
  Hypothesis Hlab : labels_ok e.

  Lemma einstein_proper : forall Ai Bi (f g : list Z -> T), env_proper (fun env : nat -> Z => omul (f (map env Ai)) (g (map env Bi))).
  Proof.
    intros Ai Bi f g e1 e2 H. f_equal; f_equal; apply map_ext; auto.
  Qed.

  Lemma contracted_perm : forall L, contracted L (eC e) (eA e) (eB e) -> Permutation L (link_unique e).
  Proof.
    intros L (HN & HL). apply NoDup_Permutation; auto; [apply unique_NoDup|].
    intros l. rewrite HL. unfold link_unique. rewrite in_unique, in_links. split; [|tauto].
    intros (H1 & H2). destruct (Hlab l H1); tauto.
  Qed.

  Lemma gsum_einstein : forall env L, contracted L (eC e) (eA e) (eB e) ->
    gsum e ab ext a b (map env (C_unique e)) = omul ab (einstein L (eA e) (eB e) ext a b env).
  Proof.
    intros env L HL. assert (HP := contracted_perm L HL). destruct HL as (HN & _).
    unfold einstein.
    rewrite (Sum_over_perm HR L (link_unique e)); auto; [|apply einstein_proper].
    assert (NL := unique_NoDup (links e)). fold (link_unique e) in NL.
    rewrite <- (Sum_over_mul_l HR).
    assert (Hord : forall Li lc, length lc = length (link_unique e) ->
       (forall l, In l Li -> In l (eA e) \/ In l (eB e)) ->
       ord e Li (map env (C_unique e)) lc = map (upds (link_unique e) lc env) Li).
    { intros Li lc HLc HLi. unfold ord. apply map_ext_in. intros l Hl.
      destruct (in_dec Nat.eq_dec l (eC e)) as [Hc|Hc].
      - rewrite construct_index_env_l by (unfold C_unique; now rewrite in_unique).
        symmetry. apply upds_other. unfold link_unique. rewrite in_unique, in_links. tauto.
      - assert (Hlk : In l (link_unique e)).
        { unfold link_unique. rewrite in_unique, in_links. destruct (Hlab l (HLi l Hl)); tauto. }
        unfold construct_index. replace (find_position l (C_unique e)) with (@None nat).
        2:{ symmetry. apply find_position_None. unfold C_unique. now rewrite in_unique. }
        destruct (find_position_In l _ Hlk) as (p & Hp). rewrite Hp. apply find_position_Some in Hp.
        rewrite <- (upds_map (link_unique e) lc env NL HLc) at 1. now apply nth_map_error. }
    unfold gsum. destruct (link_unique e) as [|u U] eqn:EU.
    - simpl. rewrite (Hord (eA e) []), (Hord (eB e) []); auto. simpl. ring.
    - rewrite <- EU in *.
      rewrite (fold_left_lsum O HR), (Sum_over_indices HR).
      transitivity (lsum (indices (map ext (link_unique e)))
        (fun lc => omul (omul ab (a (ord e (eA e) (map env (C_unique e)) lc)))
                        (b (ord e (eB e) (map env (C_unique e)) lc)))).
      { ring. }
      apply lsum_ext. intros lc Hlc. apply in_indices in Hlc. apply inb_length in Hlc.
      rewrite map_length in Hlc. rewrite !Hord; auto. ring.
  Qed.
End GenericSum.

Section Ring0.
  Context {O : Ops} (HR : is_ring O).
  Add Ring ORing3 : (ir_rt O HR).
  Lemma omul_0_r : forall x : car O, omul x o0 = o0. Proof. intros. ring. Qed.
  Lemma omul_0_l : forall x : car O, omul o0 x = o0. Proof. intros. ring. Qed.
  Lemma omul_comm : forall x y : car O, omul x y = omul y x. Proof. intros. ring. Qed.
End Ring0.
