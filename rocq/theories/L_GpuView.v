(** * L_GpuView: lemmas about GPU views of Python buffers. *)
From Coq Require Import List ZArith Lia Bool Permutation.
From Verif Require Import Base Heap M_Addr L_Addr M_GpuView S_GpuView.
Import ListNotations.
Open Scope Z_scope.

(** ** Association lists *)
Section Assoc.
  Context {A : Type}.
  Implicit Types l : list (nat * A).
  Lemma assoc_in : forall l k v, assoc k l = Some v -> In (k, v) l.
  Proof. induction l as [|(a, b) l IH]; intros k v E; cbn in *; [discriminate|]. destruct (Nat.eqb_spec k a); [left; congruence|auto]. Qed.
  Lemma in_assoc : forall l k v, NoDup (map fst l) -> In (k, v) l -> assoc k l = Some v.
  Proof.
    induction l as [|(a, b) l IH]; intros k v N H; cbn in *; [tauto|]. inversion N as [|x y N1 N2]; subst. destruct H as [H|H].
    - injection H as -> ->. now rewrite Nat.eqb_refl.
    - destruct (Nat.eqb_spec k a) as [->|]; auto. destruct N1. apply in_map_iff. now exists (a, v).
  Qed.
  Lemma assoc_none : forall l k, assoc k l = None <-> ~ In k (map fst l).
  Proof.
    induction l as [|(a, b) l IH]; intros k; cbn; [tauto|]. destruct (Nat.eqb_spec k a) as [->|Hn]; [split; [discriminate|tauto]|].
    rewrite IH. split; [intros H [E|E]; [congruence|auto]|tauto].
  Qed.
  Lemma assoc_app : forall l l' k, assoc k (l ++ l') = match assoc k l with Some v => Some v | None => assoc k l' end.
  Proof. induction l as [|(a, b) l IH]; intros l' k; cbn; auto. destruct (Nat.eqb k a); auto. Qed.
  Lemma assoc_without : forall l k k', assoc k (without k' l) = if Nat.eqb k k' then None else assoc k l.
  Proof.
    induction l as [|(a, b) l IH]; intros k k'; cbn.
    - destruct (Nat.eqb k k'); auto.
    - unfold without in *. cbn. destruct (Nat.eqb_spec k' a) as [->|Hn]; cbn; rewrite IH.
      + destruct (Nat.eqb_spec k a); auto.
      + destruct (Nat.eqb_spec k a) as [->|]; auto. destruct (Nat.eqb_spec a k'); auto; congruence.
  Qed.
  Lemma without_fst : forall l k, map fst (without k l) = filter (fun a => negb (Nat.eqb k a)) (map fst l).
  Proof. unfold without. induction l as [|(a, b) l IH]; intros k; cbn; auto. destruct (Nat.eqb k a); cbn; now rewrite IH. Qed.
  Lemma in_without : forall l k a, In a (map fst (without k l)) <-> In a (map fst l) /\ a <> k.
  Proof.
    intros l k a. rewrite without_fst, filter_In. split; intros (H1 & H2); split; auto.
    - intros ->. now rewrite Nat.eqb_refl in H2.
    - apply negb_true_iff, Nat.eqb_neq. auto.
  Qed.
  Lemma setassoc_fst : forall l k v, map fst (setassoc k v l) = map fst l.
  Proof.
    intros l k v. unfold setassoc. rewrite map_map. apply map_ext. intros (a, b). cbn. destruct (Nat.eqb_spec k a); auto.
  Qed.
  Lemma assoc_set : forall l k v k', assoc k' (setassoc k v l) = if Nat.eqb k' k then (if has (assoc k l) then Some v else None) else assoc k' l.
  Proof.
    unfold setassoc. induction l as [|(a, b) l IH]; intros k v k'; cbn.
    - destruct (Nat.eqb k' k); auto.
    - destruct (Nat.eqb_spec k a) as [->|Hn]; cbn.
      + destruct (Nat.eqb_spec k' a); cbn; auto. rewrite IH. now rewrite (proj2 (Nat.eqb_neq k' a)).
      + destruct (Nat.eqb_spec k' a) as [->|]; rewrite ?IH; auto. rewrite (proj2 (Nat.eqb_neq a k)); auto.
  Qed.
End Assoc.

(** ** The registry *)
Definition rng (m : mapping) : Z * Z := (m_base m, m_size m).
(** Ranges are not empty and do not meet. *)
Definition apart (ms : list mapping) : Prop :=
  Forall (fun m => 0 < m_size m) ms /\
  ForallOrdPairs (fun m m' => m_base m + m_size m <= m_base m' \/ m_base m' + m_size m' <= m_base m) ms.

Lemma apart_NoDup : forall ms, apart ms -> NoDup (map m_base ms).
Proof.
  intros ms (H1 & H2). induction H2 as [|m ms H2 H3 IH]; cbn; constructor.
  - intros Hin. apply in_map_iff in Hin as (m' & E & Hm). rewrite Forall_forall in H1, H2. specialize (H2 m' Hm).
    assert (0 < m_size m) by (apply H1; left; auto). assert (0 < m_size m') by (apply H1; right; auto). lia.
  - apply IH. now inversion H1.
Qed.
Lemma apart_filter : forall f ms, apart ms -> apart (filter f ms).
Proof.
  intros f ms (H1 & H2). split.
  - apply Forall_forall. intros m Hm. apply filter_In in Hm as (Hm & _). rewrite Forall_forall in H1. auto.
  - clear H1. induction H2 as [|m ms H2 H3 IH]; cbn; [constructor|]. destruct (f m); auto. constructor; auto.
    apply Forall_forall. intros m' Hm. apply filter_In in Hm as (Hm & _). rewrite Forall_forall in H2. auto.
Qed.
Lemma apart_map : forall g ms, (forall m, rng (g m) = rng m) -> apart ms -> apart (map g ms).
Proof.
  intros g ms Hg (H1 & H2). assert (Hb : forall m, m_base (g m) = m_base m /\ m_size (g m) = m_size m).
  { intros m. specialize (Hg m). unfold rng in Hg. injection Hg. auto. }
  split.
  - apply Forall_forall. intros m Hm. apply in_map_iff in Hm as (m' & <- & Hm). rewrite (proj2 (Hb m')). rewrite Forall_forall in H1. auto.
  - clear H1. induction H2 as [|m ms H2 H3 IH]; cbn; constructor; auto. apply Forall_forall. intros m' Hm.
    apply in_map_iff in Hm as (m'' & <- & Hm). rewrite Forall_forall in H2. specialize (H2 m'' Hm).
    destruct (Hb m) as (-> & ->). destruct (Hb m'') as (-> & ->). auto.
Qed.
Lemma apart_snoc : forall ms p n obs, apart ms -> 0 < n -> existsb (fun r => meets p n (fst r) (snd r)) (map rng ms) = false ->
  apart (ms ++ [mkMap p n obs]).
Proof.
  intros ms p n obs (H1 & H2) Hn HE. split.
  - apply Forall_app. split; auto.
  - clear H1. induction H2 as [|m ms H2 H3 IH]; cbn in *.
    + repeat constructor.
    + apply orb_false_iff in HE as (E1 & E2). constructor; auto. apply Forall_app. split; auto. constructor; auto. cbn.
      unfold meets in E1. apply andb_false_iff in E1 as [E1|E1]; apply Z.ltb_ge in E1; lia.
Qed.

Lemma filter_base : forall pre m (r : list mapping), NoDup (map fst (pre ++ rng m :: map rng r)) ->
  filter (fun x : Z * Z => negb (fst x =? m_base m)) (pre ++ rng m :: map rng r) = pre ++ map rng r.
Proof.
  intros pre m r N. rewrite filter_app. cbn. rewrite Z.eqb_refl. cbn.
  rewrite map_app in N. cbn in N. apply NoDup_remove in N as (_ & N).
  assert (F : forall l, (forall x : Z * Z, In x l -> fst x <> m_base m) -> filter (fun x => negb (fst x =? m_base m)) l = l).
  { induction l as [|x l IH]; intros H; cbn; auto. rewrite (proj2 (Z.eqb_neq (fst x) (m_base m))) by (apply H; left; auto). cbn. f_equal. apply IH. intros; apply H; right; auto. }
  f_equal; apply F; intros x Hx E; apply N; apply in_or_app; [left|right]; rewrite <- E; apply in_map; auto.
Qed.
Lemma notify_gen : forall ms pre, NoDup (map fst (pre ++ map rng ms)) ->
  notify ms (pre ++ map rng ms) = Ok (filter has_refs ms, pre ++ map rng (filter has_refs ms)).
Proof.
  induction ms as [|m ms IH]; intros pre N; cbn [notify filter map] in *; auto. destruct (has_refs m) eqn:E.
  - replace (pre ++ rng m :: map rng ms) with ((pre ++ [rng m]) ++ map rng ms) in * by (rewrite <- app_assoc; reflexivity).
    rewrite IH by auto. cbn. rewrite <- app_assoc. reflexivity.
  - unfold hip_unregister. replace (existsb _ _) with true.
    2:{ symmetry. apply existsb_exists. exists (rng m). split; [apply in_or_app; right; left; auto|apply Z.eqb_refl]. }
    cbn [bind]. rewrite filter_base by auto. apply IH. rewrite map_app in *. cbn in N. now apply NoDup_remove in N.
Qed.
Lemma notify_ok : forall ms, apart ms -> notify ms (map rng ms) = Ok (filter has_refs ms, map rng (filter has_refs ms)).
Proof.
  intros ms H. apply (notify_gen ms []). cbn. rewrite map_map. now apply apart_NoDup.
Qed.

(** A mapping that covers the range. *)
Definition covers (m : mapping) (p n : Z) : Prop := m_base m <= p < m_base m + m_size m /\ p + n <= m_base m + m_size m.
Lemma find_attach_some : forall id p n ms ms', find_attach id p n ms = Some ms' ->
  exists m1 m m2, ms = m1 ++ m :: m2 /\ ms' = m1 ++ mkMap (m_base m) (m_size m) (m_obs m ++ [id]) :: m2 /\ covers m p n.
Proof.
  intros id p n. induction ms as [|m ms IH]; intros ms' E; cbn in E; [discriminate|].
  destruct ((0 <=? p - m_base m) && (p - m_base m <? m_size m) && (p - m_base m + n <=? m_size m)) eqn:C.
  - injection E as <-. exists [], m, ms. split; auto. split; auto. unfold covers.
    apply andb_true_iff in C as (C & C3). apply andb_true_iff in C as (C1 & C2). lia.
  - destruct (find_attach id p n ms) as [r|] eqn:F; [|discriminate]. injection E as <-.
    destruct (IH r eq_refl) as (m1 & m' & m2 & -> & -> & HC). exists (m :: m1), m', m2. auto.
Qed.
Lemma find_attach_none : forall id p n ms, find_attach id p n ms = None -> forall m, In m ms -> ~ covers m p n.
Proof.
  intros id p n. induction ms as [|m ms IH]; intros E m' H; cbn in *; [tauto|].
  destruct ((0 <=? p - m_base m) && (p - m_base m <? m_size m) && (p - m_base m + n <=? m_size m)) eqn:C; [discriminate|].
  destruct (find_attach id p n ms) as [r|] eqn:F; [discriminate|]. destruct H as [<-|H]; auto.
  intros (H1 & H2). rewrite !andb_false_iff in C. destruct C as [[C|C]|C]; lia.
Qed.

(** ** The invariant *)
Definition dblk (v : gview) : list nat := match v_dev v with DBlk k => [k] | _ => [] end.
Definition owned (e : nat * gview) : list nat := dblk (snd e) ++ [v_gdims (snd e); v_gstrides (snd e)].
Definition copy_ok (s : gstate) (v : gview) : Prop :=
  match v_dev v with
  | DBlk k => exists c, assoc k (g_dev s) = Some (DBytes (v_alloc v) c) /\ (forall i, c i <> None <-> 0 <= i < v_alloc v)
  | DNull => v_alloc v = 0
  | DHostPtr _ => False
  end.
Definition view_ok (s : gstate) (id : nat) (v : gview) : Prop :=
  0 <= v_alloc v /\
  assoc (v_gdims v) (g_dev s) = Some (DWords (v_dims v)) /\ assoc (v_gstrides v) (g_dev s) = Some (DWords (v_strides v)) /\
  match v_mode v with
  | VCopy => copy_ok s v
  | VMap => v_dev v = DHostPtr (v_host v) /\ exists m, In m (g_maps s) /\ In id (m_obs m) /\ covers m (v_host v) (v_alloc v)
  end.
Record ginv (s : gstate) : Prop := mkInv {
  i_views : NoDup (map fst (g_views s));
  i_vnext : forall k, In k (map fst (g_views s)) -> (k < g_next s)%nat;
  i_dnext : forall k, In k (map fst (g_dev s)) -> (k < g_next s)%nat;
  i_reg : g_reg s = map rng (g_maps s);
  i_apart : apart (g_maps s);
  i_obs : forall m, In m (g_maps s) -> m_obs m <> [] /\ (forall o, In o (m_obs m) ->
            exists v, assoc o (g_views s) = Some v /\ v_mode v = VMap /\ covers m (v_host v) (v_alloc v));
  i_ok : forall id v, assoc id (g_views s) = Some v -> view_ok s id v;
  i_own : NoDup (flat_map owned (g_views s));
  i_dev : forall k, In k (map fst (g_dev s)) <-> In k (flat_map owned (g_views s))
}.

Lemma has_some : forall A (x : option A), has x = true <-> x <> None.
Proof. intros A [a|]; cbn; split; congruence. Qed.
Lemma host_bytes_ok : forall h a n, present h a n -> exists c, host_bytes h a n = Ok c /\
  (forall i, 0 <= i < n -> c i = h (a + i)) /\ (forall i, c i <> None <-> 0 <= i < n).
Proof.
  intros h a n H. unfold host_bytes. replace (forallb _ _) with true.
  - eexists. split; [reflexivity|]. split.
    + intros i Hi. replace ((0 <=? i) && (i <? n)) with true; auto. symmetry. apply andb_true_iff. lia.
    + intros i. destruct ((0 <=? i) && (i <? n)) eqn:E.
      * apply andb_true_iff in E. split; [lia|]. intros Hi. apply H. auto.
      * apply andb_false_iff in E. split; [tauto|lia].
  - symmetry. apply forallb_forall. intros i Hi. apply zrange_in in Hi. apply has_some, H. auto.
Qed.
Lemma host_bytes_inv : forall h a n c, host_bytes h a n = Ok c -> present h a n.
Proof.
  intros h a n c E. unfold host_bytes in E. destruct (forallb _ _) eqn:F; [|discriminate].
  rewrite forallb_forall in F. intros i Hi. apply has_some, F, zrange_in. auto.
Qed.
Lemma host_bytes_throw : forall h a n, host_bytes h a n <> Throw.
Proof. intros h a n. unfold host_bytes. destruct (forallb _ _); discriminate. Qed.

Lemma owned_in : forall vs id v k, In (id, v) vs -> In k (owned (id, v)) -> In k (flat_map owned vs).
Proof. intros vs id v k H1 H2. apply in_flat_map. eauto. Qed.
Lemma owned_unique : forall vs id v id' v' k, NoDup (flat_map owned vs) -> NoDup (map fst vs) -> In (id, v) vs -> In (id', v') vs ->
  In k (owned (id, v)) -> In k (owned (id', v')) -> id = id' /\ v = v'.
Proof.
  induction vs as [|(a, b) vs IH]; intros id v id' v' k N M H1 H2 K1 K2; cbn [flat_map map fst In] in *; [tauto|].
  inversion M as [|x y M1 M2]; subst.
  assert (D : forall z, In z (owned (a, b)) -> In z (flat_map owned vs) -> False).
  { clear - N. induction (owned (a, b)) as [|q l IHl]; cbn in *; [tauto|]. inversion N as [|x y N1 N2]; subst. intros z [<-|H] H'.
    - apply N1, in_or_app. auto.
    - exact (IHl N2 z H H'). }
  assert (N2 : NoDup (flat_map owned vs)). { clear - N. induction (owned (a, b)); cbn in *; auto. inversion N; auto. }
  destruct H1 as [H1|H1], H2 as [H2|H2].
  - injection H1 as <- <-. injection H2 as <- <-. auto.
  - injection H1 as <- <-. exfalso. apply (D k); auto. eapply owned_in; eauto.
  - injection H2 as <- <-. exfalso. apply (D k); auto. eapply owned_in; eauto.
  - eapply IH; eauto.
Qed.

Lemma inv_init : forall h, ginv (g_init h).
Proof.
  intros h. constructor; cbn; try (constructor; fail); try tauto; try discriminate; auto.
  split; constructor.
Qed.
Lemma inv_host : forall s h, ginv s -> ginv (mkG h (g_reg s) (g_maps s) (g_dev s) (g_views s) (g_next s)).
Proof. intros s h [H1 H2 H3 H4 H5 H6 H7 H8 H9]. constructor; cbn; auto. Qed.

Lemma copy_blk : forall s id v k, ginv s -> assoc id (g_views s) = Some v -> v_dev v = DBlk k ->
  v_mode v = VCopy /\ exists c, assoc k (g_dev s) = Some (DBytes (v_alloc v) c) /\ (forall i, c i <> None <-> 0 <= i < v_alloc v).
Proof.
  intros s id v k I L E. destruct (i_ok s I id v L) as (_ & _ & _ & H). destruct (v_mode v).
  - split; auto. unfold copy_ok in H. rewrite E in H. auto.
  - destruct H as (H & _). rewrite E in H. discriminate.
Qed.
Lemma blk_sep : forall s id v k id' v', ginv s -> assoc id (g_views s) = Some v -> v_dev v = DBlk k -> assoc id' (g_views s) = Some v' ->
  v_gdims v' <> k /\ v_gstrides v' <> k /\ (v_dev v' = DBlk k -> id' = id /\ v' = v).
Proof.
  intros s id v k id' v' I L E L'. destruct (copy_blk s id v k I L E) as (_ & c & A & _).
  destruct (i_ok s I id' v' L') as (_ & G1 & G2 & _). split; [|split].
  - intros <-. congruence.
  - intros <-. congruence.
  - intros E'. destruct (owned_unique (g_views s) id' v' id v k (i_own s I) (i_views s I)); auto; try (apply assoc_in; auto).
    + unfold owned, dblk. cbn. rewrite E'. left; auto.
    + unfold owned, dblk. cbn. rewrite E. left; auto.
Qed.
Lemma inv_set : forall s id v k c, ginv s -> assoc id (g_views s) = Some v -> v_dev v = DBlk k ->
  (forall i, c i <> None <-> 0 <= i < v_alloc v) ->
  ginv (mkG (g_host s) (g_reg s) (g_maps s) (setassoc k (DBytes (v_alloc v) c) (g_dev s)) (g_views s) (g_next s)).
Proof.
  intros s id v k c I L E Hc. destruct (copy_blk s id v k I L E) as (_ & c0 & A & _).
  pose proof I as I0. destruct I0 as [H1 H2 H3 H4 H5 H6 H7 H8 H9]. constructor; cbn; auto.
  - intros k' Hk. rewrite setassoc_fst in Hk. auto.
  - intros id' v' L'. destruct (blk_sep s id v k id' v' I L E L') as (S1 & S2 & S3). destruct (H7 id' v' L') as (G0 & G1 & G2 & G3).
    split; auto. cbn. rewrite !assoc_set. rewrite (proj2 (Nat.eqb_neq (v_gdims v') k)), (proj2 (Nat.eqb_neq (v_gstrides v') k)) by auto.
    split; auto. split; auto. destruct (v_mode v'); auto. unfold copy_ok in *. cbn. destruct (v_dev v') as [|k'|a] eqn:E'; auto.
    rewrite assoc_set. destruct (Nat.eqb_spec k' k) as [->|]; auto. destruct (S3 eq_refl) as (-> & ->). rewrite A. cbn. eauto.
  - intros k'. rewrite setassoc_fst. auto.
Qed.

Lemma flat_owned_app : forall vs e, flat_map owned (vs ++ [e]) = flat_map owned vs ++ owned e.
Proof. intros vs e. rewrite flat_map_app. cbn. now rewrite app_nil_r. Qed.
Lemma NoDup_app2 : forall A (l l' : list A), NoDup l -> NoDup l' -> (forall x, In x l -> ~ In x l') -> NoDup (l ++ l').
Proof.
  induction l as [|a l IH]; intros l' N N' D; cbn; auto. inversion N; subst. constructor.
  - intros Hin. apply in_app_or in Hin as [Hin|Hin]; auto. apply (D a); [left|]; auto.
  - apply IH; auto. intros x Hx. apply D. right; auto.
Qed.

(** Adding a view whose blocks are new. *)
Lemma inv_add : forall s reg maps extra nx id v, ginv s ->
  id = g_next s -> (id < nx)%nat ->
  (forall k, In k (owned (id, v)) -> (g_next s <= k < nx)%nat) -> NoDup (owned (id, v)) ->
  (forall k, In k (map fst extra) <-> In k (owned (id, v))) ->
  let s' := mkG (g_host s) reg maps (g_dev s ++ extra) (g_views s ++ [(id, v)]) nx in
  reg = map rng maps -> apart maps ->
  (forall m, In m maps -> m_obs m <> [] /\ (forall o, In o (m_obs m) ->
            exists w, assoc o (g_views s') = Some w /\ v_mode w = VMap /\ covers m (v_host w) (v_alloc w))) ->
  (forall m, In m (g_maps s) -> exists m', In m' maps /\ rng m' = rng m /\ incl (m_obs m) (m_obs m')) ->
  view_ok s' id v -> ginv s'.
Proof.
  intros s reg maps extra nx id v I Hid Hnx Hown Hnd Hex s' Hreg Hap Hobs Hold Hv.
  pose proof I as I0. destruct I0 as [H1 H2 H3 H4 H5 H6 H7 H8 H9].
  assert (Hfresh : assoc id (g_views s) = None). { apply assoc_none. intros Hin. specialize (H2 _ Hin). lia. }
  assert (Hdev : forall k, In k (map fst (g_dev s)) -> ~ In k (owned (id, v))). { intros k K1 K2. specialize (H3 k K1). specialize (Hown k K2). lia. }
  constructor; unfold s'; cbn [g_host g_reg g_maps g_dev g_views g_next]; auto.
  - rewrite map_app. cbn. apply NoDup_app2; auto.
    + constructor; auto. constructor.
    + intros x Hx [<-|[]]. specialize (H2 _ Hx). lia.
  - intros k Hk. rewrite map_app in Hk. apply in_app_or in Hk as [Hk|[Hk|[]]].
    + specialize (H2 _ Hk). lia.
    + cbn in Hk. lia.
  - intros k Hk. rewrite map_app in Hk. apply in_app_or in Hk as [Hk|Hk].
    + specialize (H3 _ Hk). lia.
    + apply Hex, Hown in Hk. lia.
  - intros id' v' L'. rewrite assoc_app in L'. cbn in L'. destruct (assoc id' (g_views s)) as [w|] eqn:A.
    + injection L' as ->. destruct (H7 id' v' A) as (G0 & G1 & G2 & G3). split; auto. cbn. rewrite !assoc_app, G1, G2. split; auto. split; auto.
      destruct (v_mode v').
      * unfold copy_ok in *. cbn. destruct (v_dev v') as [|k|a]; auto. 
        destruct G3 as (c' & G3a & G3b). rewrite assoc_app, G3a. eauto.
      * destruct G3 as (G3 & m & M1 & M2 & M3). split; auto. destruct (Hold m M1) as (m' & M4 & M5 & M6). exists m'. split; auto.
        split; auto. unfold rng in M5. injection M5 as E1 E2. unfold covers in *. rewrite E1, E2. auto.
    + destruct (Nat.eqb_spec id' id) as [->|]; [|discriminate]. injection L' as <-. auto.
  - rewrite flat_owned_app. apply NoDup_app2; auto. intros x Hx. apply Hdev. apply H9. auto.
  - intros k. rewrite map_app, flat_owned_app, !in_app_iff. rewrite H9, Hex. tauto.
Qed.

Lemma all_refs : forall ms, (forall m, In m ms -> m_obs m <> []) -> filter has_refs ms = ms.
Proof.
  induction ms as [|m ms IH]; intros H; cbn; auto. unfold has_refs at 1. destruct (m_obs m) eqn:E.
  - destruct (H m); [left|]; auto.
  - cbn. f_equal. apply IH. intros m' Hm. apply H. right; auto.
Qed.
Lemma attach_some : forall s id p n ms', ginv s -> find_attach id p n (g_maps s) = Some ms' ->
  ml_attach id p n (g_maps s) (g_reg s) = Ok (ms', map rng ms', DHostPtr p) /\ apart ms'.
Proof.
  intros s id p n ms' I F. unfold ml_attach. rewrite F. destruct (find_attach_some _ _ _ _ _ F) as (m1 & m & m2 & E1 & E2 & HC).
  assert (ER : map rng ms' = map rng (g_maps s)). { rewrite E1, E2, !map_app. reflexivity. }
  assert (HA : apart ms').
  { destruct (i_apart s I) as (A1 & A2). rewrite E1 in *. rewrite E2. clear - A1 A2. split.
    - apply Forall_app in A1 as (A1 & A3). inversion A3; subst. apply Forall_app. split; auto.
    - clear A1. induction m1 as [|x m1 IH]; cbn in *.
      + inversion A2; subst. constructor; auto.
      + inversion A2 as [|y l Y1 Y2]; subst. constructor; auto. apply Forall_app in Y1 as (Y1 & Y3). inversion Y3; subst.
        apply Forall_app. split; auto. }
  rewrite (i_reg s I), <- ER. rewrite notify_ok by auto. rewrite all_refs; auto.
  intros x Hx. rewrite E2 in Hx. apply in_app_or in Hx as [Hx|[Hx|Hx]].
  - apply (i_obs s I). rewrite E1. apply in_or_app; auto.
  - subst x. cbn. destruct (m_obs m); discriminate.
  - apply (i_obs s I). rewrite E1. apply in_or_app; right; right; auto.
Qed.
Lemma attach_none : forall s id p n, ginv s -> find_attach id p n (g_maps s) = None ->
  (0 < n /\ existsb (fun r => meets p n (fst r) (snd r)) (g_reg s) = false /\
   ml_attach id p n (g_maps s) (g_reg s) = Ok (g_maps s ++ [mkMap p n [id]], map rng (g_maps s ++ [mkMap p n [id]]), DHostPtr p) /\
   apart (g_maps s ++ [mkMap p n [id]])) \/
  ((n <= 0 \/ existsb (fun r => meets p n (fst r) (snd r)) (g_reg s) = true) /\ ml_attach id p n (g_maps s) (g_reg s) = Throw).
Proof.
  intros s id p n I F. unfold ml_attach. rewrite F. unfold hip_register.
  destruct (Z.leb_spec n 0).
  - right. split; auto.
  - destruct (existsb (fun r => meets p n (fst r) (snd r)) (g_reg s)) eqn:E; cbn [orb].
    + right. split; auto.
    + left. rewrite (i_reg s I) in E. pose proof (apart_snoc (g_maps s) p n [id] (i_apart s I) ltac:(lia) E) as HA. split; [lia|]. split; auto. split; auto. cbn [bind].
      rewrite (i_reg s I). replace (map rng (g_maps s) ++ [(p, n)]) with (map rng (g_maps s ++ [mkMap p n [id]])) by (rewrite map_app; reflexivity).
      rewrite notify_ok by auto. rewrite all_refs; auto.
      intros x Hx. apply in_app_or in Hx as [Hx|[Hx|[]]]; [apply (i_obs s I); auto|subst x; discriminate].
Qed.

(** ** Making a view *)
Ltac eqbs := repeat match goal with |- context [Nat.eqb ?a ?b] => destruct (Nat.eqb_spec a b); try lia end.
Lemma new_copy_inv : forall s b id s', ginv s -> new_view b VCopy s = Ok (id, s') ->
  exists v, ginv s' /\ g_host s' = g_host s /\ g_reg s' = g_reg s /\ g_views s' = g_views s ++ [(id, v)] /\ id = g_next s /\
    v_mode v = VCopy /\ v_host v = pb_ptr b /\ v_alloc v = nth 0 (pb_strides b) 0 * nth 0 (pb_shape b) 0 /\
    v_dims v = pb_shape b /\ v_strides v = pb_strides b /\
    (forall i, 0 <= i < v_alloc v -> dev_byte v i s' = g_host s (v_host v + i)) /\
    (forall k x, assoc k (g_dev s) = Some x -> assoc k (g_dev s') = Some x).
Proof.
  intros s b id s' I E. unfold new_view in E. destruct (pb_strides b) as [|st0 sts] eqn:Est; [discriminate|].
  destruct (pb_shape b) as [|sh0 shs] eqn:Esh; [discriminate|]. cbn [nth]. destruct (Z.ltb_spec (st0 * sh0) 0) as [|Hn]; [discriminate|].
  destruct (Z.eqb_spec (st0 * sh0) 0) as [Hz|Hz].
  - cbn in E. injection E as <- <-. eexists. rewrite <- app_assoc. split; [|cbn; repeat split; auto].
    + apply (inv_add s (g_reg s) (g_maps s) [(S (g_next s), DWords (sh0 :: shs)); (S (S (g_next s)), DWords (st0 :: sts))] _ (g_next s)); auto; cbn; try lia.
      * repeat constructor; cbn; lia.
      * apply (i_reg s I).
      * apply (i_apart s I).
      * intros m Hm. destruct (i_obs s I m Hm) as (O1 & O2). split; auto. intros o Ho. destruct (O2 o Ho) as (w & W1 & W2). exists w. rewrite assoc_app, W1. auto.
      * intros m Hm. exists m. split; auto. split; auto. apply incl_refl.
      * assert (F1 : assoc (S (g_next s)) (g_dev s) = None). { apply assoc_none. intros Hin. apply (i_dnext s I) in Hin. lia. }
        assert (F2 : assoc (S (S (g_next s))) (g_dev s) = None). { apply assoc_none. intros Hin. apply (i_dnext s I) in Hin. lia. }
        unfold view_ok, copy_ok. cbn -[Nat.eqb]. rewrite !assoc_app, F1, F2. cbn -[Nat.eqb]. eqbs. repeat split; auto.
    + intros i Hi. cbn in Hi. lia.
    + intros k x Hk. now rewrite assoc_app, Hk.
  - destruct (host_bytes (g_host s) (pb_ptr b) (st0 * sh0)) as [c| |] eqn:HB; try discriminate. cbn in E. injection E as <- <-.
    destruct (host_bytes_ok _ _ _ (host_bytes_inv _ _ _ _ HB)) as (c' & HB' & C1 & C2). rewrite HB in HB'. injection HB' as <-.
    assert (F0 : assoc (S (g_next s)) (g_dev s) = None). { apply assoc_none. intros Hin. apply (i_dnext s I) in Hin. lia. }
    assert (F1 : assoc (S (S (g_next s))) (g_dev s) = None). { apply assoc_none. intros Hin. apply (i_dnext s I) in Hin. lia. }
    assert (F2 : assoc (S (S (S (g_next s)))) (g_dev s) = None). { apply assoc_none. intros Hin. apply (i_dnext s I) in Hin. lia. }
    eexists. rewrite <- !app_assoc. split; [|cbn; repeat split; auto].
    + apply (inv_add s (g_reg s) (g_maps s) [(S (g_next s), DBytes (st0 * sh0) c); (S (S (g_next s)), DWords (sh0 :: shs)); (S (S (S (g_next s))), DWords (st0 :: sts))] _ (g_next s)); auto; cbn; try lia.
      * repeat constructor; cbn; lia.
      * apply (i_reg s I).
      * apply (i_apart s I).
      * intros m Hm. destruct (i_obs s I m Hm) as (O1 & O2). split; auto. intros o Ho. destruct (O2 o Ho) as (w & W1 & W2). exists w. rewrite assoc_app, W1. auto.
      * intros m Hm. exists m. split; auto. split; auto. apply incl_refl.
      * unfold view_ok, copy_ok. cbn -[Nat.eqb]. rewrite !assoc_app, F0, F1, F2. cbn -[Nat.eqb]. eqbs.
        repeat split; auto. exists c. split; auto.
    + intros i Hi. unfold dev_byte. cbn. rewrite assoc_app, F0. cbn. rewrite Nat.eqb_refl. apply C1. auto.
    + intros k x Hk. now rewrite assoc_app, Hk.
Qed.

Lemma new_map_out : forall s b, ginv s -> pb_strides b <> [] -> pb_shape b <> [] ->
  let n := nth 0 (pb_strides b) 0 * nth 0 (pb_shape b) 0 in
  (exists id s' v, new_view b VMap s = Ok (id, s') /\ ginv s' /\ g_host s' = g_host s /\ g_views s' = g_views s ++ [(id, v)] /\ id = g_next s /\
    v_mode v = VMap /\ v_host v = pb_ptr b /\ v_alloc v = n /\ v_dims v = pb_shape b /\ v_strides v = pb_strides b /\
    0 <= n /\ ((exists r, In r (g_reg s) /\ fst r <= pb_ptr b < fst r + snd r /\ pb_ptr b + n <= fst r + snd r) \/
               (0 < n /\ forall r, In r (g_reg s) -> meets (pb_ptr b) n (fst r) (snd r) = false)) /\
    (forall k x, assoc k (g_dev s) = Some x -> assoc k (g_dev s') = Some x)) \/
  (new_view b VMap s = Throw /\
   (n <= 0 \/ exists r, In r (g_reg s) /\ meets (pb_ptr b) n (fst r) (snd r) = true) /\
   (0 <= n -> forall r, In r (g_reg s) -> ~ (fst r <= pb_ptr b < fst r + snd r /\ pb_ptr b + n <= fst r + snd r))).
Proof.
  intros s b I Hst Hsh n. destruct (pb_strides b) as [|st0 sts] eqn:Est; [congruence|]. destruct (pb_shape b) as [|sh0 shs] eqn:Esh; [congruence|].
  cbn [nth] in n. unfold new_view. rewrite Est, Esh. fold n. destruct (Z.ltb_spec n 0) as [|Hn].
  { right. split; [reflexivity|]. split; [left; lia|]. lia. }
  assert (F1 : assoc (S (g_next s)) (g_dev s) = None). { apply assoc_none. intros Hin. apply (i_dnext s I) in Hin. lia. }
  assert (F2 : assoc (S (S (g_next s))) (g_dev s) = None). { apply assoc_none. intros Hin. apply (i_dnext s I) in Hin. lia. }
  assert (FV : assoc (g_next s) (g_views s) = None). { apply assoc_none. intros Hin. apply (i_vnext s I) in Hin. lia. }
  set (v := mkView VMap (pb_ptr b) (DHostPtr (pb_ptr b)) (sh0 :: shs) (st0 :: sts) (pb_item b) n (zprod (sh0 :: shs)) (S (g_next s)) (S (S (g_next s)))).
  assert (ADD : forall maps, apart maps ->
     (forall m, In m maps -> m_obs m <> [] /\ (forall o, In o (m_obs m) ->
            exists w, assoc o (g_views s ++ [(g_next s, v)]) = Some w /\ v_mode w = VMap /\ covers m (v_host w) (v_alloc w))) ->
     (forall m, In m (g_maps s) -> exists m', In m' maps /\ rng m' = rng m /\ incl (m_obs m) (m_obs m')) ->
     (exists m, In m maps /\ In (g_next s) (m_obs m) /\ covers m (pb_ptr b) n) ->
     ginv (mkG (g_host s) (map rng maps) maps ((g_dev s ++ [(S (g_next s), DWords (sh0 :: shs))]) ++ [(S (S (g_next s)), DWords (st0 :: sts))])
               (g_views s ++ [(g_next s, v)]) (S (S (S (g_next s)))))).
  { intros maps HA HO HM HC. rewrite <- app_assoc. apply (inv_add s (map rng maps) maps); auto; cbn; try lia.
    - repeat constructor; cbn; lia.
    - unfold view_ok. cbn -[Nat.eqb]. rewrite !assoc_app, F1, F2. cbn -[Nat.eqb]. eqbs. repeat split; auto. }
  destruct (find_attach (g_next s) (pb_ptr b) n (g_maps s)) as [ms'|] eqn:F.
  - left. destruct (attach_some s _ _ _ _ I F) as (-> & HA). cbn [bind fst snd hip_malloc g_host g_reg g_maps g_dev g_views g_next].
    destruct (find_attach_some _ _ _ _ _ F) as (m1 & m & m2 & E1 & E2 & HC).
    exists (g_next s). eexists. exists v. split; [reflexivity|]. cbn. split; [|repeat split; auto].
    + apply ADD; auto.
      * intros x Hx. assert (HX : (In x (g_maps s)) \/ x = mkMap (m_base m) (m_size m) (m_obs m ++ [g_next s])).
        { rewrite E2 in Hx. rewrite E1. apply in_app_or in Hx as [Hx|[Hx|Hx]]; [left; apply in_or_app; auto|right; auto|left; apply in_or_app; right; right; auto]. }
        assert (OLD : forall y o, In y (g_maps s) -> In o (m_obs y) -> exists w, assoc o (g_views s ++ [(g_next s, v)]) = Some w /\ v_mode w = VMap /\ covers y (v_host w) (v_alloc w)).
        { intros y o Hy Ho. destruct (i_obs s I y Hy) as (_ & O2). destruct (O2 o Ho) as (w & W1 & W2). exists w. rewrite assoc_app, W1. auto. }
        destruct HX as [HX| ->].
        -- split; [apply (i_obs s I); auto|]. intros o Ho. apply OLD; auto.
        -- cbn. split; [destruct (m_obs m); discriminate|]. intros o Ho. apply in_app_or in Ho as [Ho|[<-|[]]].
           ++ apply (OLD m o); auto. rewrite E1. apply in_or_app; right; left; auto.
           ++ exists v. rewrite assoc_app, FV. cbn. rewrite Nat.eqb_refl. auto.
      * intros x Hx. rewrite E1 in Hx. rewrite E2. apply in_app_or in Hx as [Hx|[Hx|Hx]].
        -- exists x. split; [apply in_or_app; auto|]. split; auto. apply incl_refl.
        -- subst x. eexists. split; [apply in_or_app; right; left; reflexivity|]. split; auto. cbn. apply incl_appl, incl_refl.
        -- exists x. split; [apply in_or_app; right; right; auto|]. split; auto. apply incl_refl.
      * exists (mkMap (m_base m) (m_size m) (m_obs m ++ [g_next s])). split; [rewrite E2; apply in_or_app; right; left; auto|]. split; [cbn; apply in_or_app; right; left; auto|]. exact HC.
    + left. exists (rng m). rewrite (i_reg s I), E1, map_app. split; [apply in_or_app; right; left; auto|]. exact HC.
    + intros k x Hk. rewrite !assoc_app, Hk. auto.
  - destruct (attach_none s (g_next s) (pb_ptr b) n I F) as [(Hn' & HE & -> & HA)|(HE & ->)].
    + left. cbn [bind fst snd hip_malloc g_host g_reg g_maps g_dev g_views g_next].
      exists (g_next s). eexists. exists v. split; [reflexivity|]. cbn. split; [|repeat split; auto].
      * apply ADD; auto.
        -- intros x Hx. apply in_app_or in Hx as [Hx|[<-|[]]].
           ++ destruct (i_obs s I x Hx) as (O1 & O2). split; auto. intros o Ho. destruct (O2 o Ho) as (w & W1 & W2). exists w. rewrite assoc_app, W1. auto.
           ++ cbn. split; [discriminate|]. intros o [<-|[]]. exists v. rewrite assoc_app, FV. cbn. rewrite Nat.eqb_refl. repeat split; auto; cbn; lia.
        -- intros x Hx. exists x. split; [apply in_or_app; auto|]. split; auto. apply incl_refl.
        -- eexists. split; [apply in_or_app; right; left; reflexivity|]. split; [left; auto|]. unfold covers. cbn. lia.
      * right. split; auto. intros r Hr. destruct (meets (pb_ptr b) n (fst r) (snd r)) eqn:EM; auto.
        rewrite <- HE. symmetry. apply existsb_exists. eauto.
      * intros k x Hk. rewrite !assoc_app, Hk. auto.
    + right. split; [reflexivity|]. split.
      * destruct HE as [HE|HE]; auto. apply existsb_exists in HE. auto.
      * intros _ r Hr HC. rewrite (i_reg s I) in Hr. apply in_map_iff in Hr as (m & <- & Hm). apply (find_attach_none _ _ _ _ F m Hm). exact HC.
Qed.

(** ** Dropping a view *)
Lemma in_fst_assoc : forall A (l : list (nat * A)) k, In k (map fst l) <-> assoc k l <> None.
Proof.
  intros A l k. destruct (assoc k l) eqn:E.
  - split; [discriminate|]. intros _. apply assoc_in in E. apply in_map_iff. now exists (k, a).
  - apply assoc_none in E. split; [tauto|congruence].
Qed.
Lemma NoDup_without : forall vs id, NoDup (flat_map owned vs) -> NoDup (flat_map owned (without id vs)).
Proof.
  unfold without. induction vs as [|e vs IH]; intros id N; cbn [flat_map filter] in *; auto.
  assert (N2 : NoDup (flat_map owned vs)). { clear - N. induction (owned e); cbn in *; auto. inversion N; auto. }
  destruct (negb (id =? fst e)%nat); auto. cbn [flat_map]. clear N2.
  assert (HI : incl (flat_map owned (filter (fun e => negb (id =? fst e)%nat) vs)) (flat_map owned vs)).
  { intros k Hk. apply in_flat_map in Hk as (x & X1 & X2). apply filter_In in X1 as (X1 & _). apply in_flat_map. eauto. }
  revert N. specialize (IH id). revert IH HI. generalize (flat_map owned (filter (fun e => negb (id =? fst e)%nat) vs)). generalize (flat_map owned vs).
  generalize (owned e). intros l l1 l2 IH HI. induction l as [|a l IHl]; cbn; intros N; auto. inversion N as [|x y N1 N2]; subst. constructor; auto.
  intros Hin. apply N1. apply in_app_or in Hin as [Hin|Hin]; apply in_or_app; auto.
Qed.
Lemma owned_without : forall vs id v k, NoDup (flat_map owned vs) -> NoDup (map fst vs) -> assoc id vs = Some v ->
  (In k (flat_map owned (without id vs)) <-> In k (flat_map owned vs) /\ ~ In k (owned (id, v))).
Proof.
  intros vs id v k N M L. split.
  - intros Hk. apply in_flat_map in Hk as ((a, b) & X1 & X2). unfold without in X1. apply filter_In in X1 as (X1 & X3). split; [eapply owned_in; eauto|].
    intros Hk. destruct (owned_unique vs a b id v k N M X1 (assoc_in _ _ _ L) X2 Hk) as (-> & _). cbn in X3. now rewrite Nat.eqb_refl in X3.
  - intros (Hk & Hn). apply in_flat_map in Hk as ((a, b) & X1 & X2). apply in_flat_map. exists (a, b). split; auto. unfold without. apply filter_In. split; auto.
    cbn. destruct (Nat.eqb_spec id a) as [->|]; auto. exfalso. apply Hn. rewrite (in_assoc vs a b M X1) in L. injection L as <-. auto.
Qed.
Lemma inv_remove : forall s reg maps dev id v, ginv s -> assoc id (g_views s) = Some v ->
  (forall k, ~ In k (owned (id, v)) -> assoc k dev = assoc k (g_dev s)) -> (forall k, In k (owned (id, v)) -> assoc k dev = None) ->
  reg = map rng maps -> apart maps ->
  (forall m, In m maps -> m_obs m <> [] /\ (forall o, In o (m_obs m) -> o <> id /\ exists m', In m' (g_maps s) /\ rng m' = rng m /\ In o (m_obs m'))) ->
  (forall m o, In m (g_maps s) -> In o (m_obs m) -> o <> id -> exists m', In m' maps /\ rng m' = rng m /\ In o (m_obs m')) ->
  ginv (mkG (g_host s) reg maps dev (without id (g_views s)) (g_next s)).
Proof.
  intros s reg maps dev id v I L D1 D2 Hr HA HO HM. pose proof I as I0. destruct I0 as [H1 H2 H3 H4 H5 H6 H7 H8 H9].
  assert (DV : forall k, In k (map fst dev) <-> In k (map fst (g_dev s)) /\ ~ In k (owned (id, v))).
  { intros k. rewrite !in_fst_assoc. destruct (in_dec Nat.eq_dec k (owned (id, v))) as [Hk|Hk].
    - rewrite (D2 k Hk). tauto.
    - rewrite (D1 k Hk). tauto. }
  constructor; cbn [g_host g_reg g_maps g_dev g_views g_next]; auto.
  - rewrite without_fst. now apply NoDup_filter.
  - intros k Hk. apply in_without in Hk as (Hk & _). auto.
  - intros k Hk. apply DV in Hk as (Hk & _). auto.
  - intros m Hm. destruct (HO m Hm) as (O1 & O2). split; auto. intros o Ho. destruct (O2 o Ho) as (No & m' & M1 & M2 & M3).
    destruct (H6 m' M1) as (_ & W). destruct (W o M3) as (w & W1 & W2 & W3). exists w. rewrite assoc_without.
    rewrite (proj2 (Nat.eqb_neq o id)) by auto. split; auto. split; auto. unfold covers in *. unfold rng in M2. injection M2 as E1 E2. rewrite E1, E2 in W3. auto.
  - intros id' v' L'. rewrite assoc_without in L'. destruct (Nat.eqb_spec id' id) as [|Hne]; [discriminate|].
    destruct (H7 id' v' L') as (G0 & G1 & G2 & G3).
    assert (SEP : forall k, In k (owned (id', v')) -> ~ In k (owned (id, v))).
    { intros k K1 K2. destruct (owned_unique (g_views s) id' v' id v k H8 H1 (assoc_in _ _ _ L') (assoc_in _ _ _ L) K1 K2). auto. }
    split; auto. cbn. rewrite !D1; try (apply SEP; unfold owned; cbn; apply in_or_app; right; cbn; auto; fail). split; auto. split; auto.
    destruct (v_mode v').
    + unfold copy_ok in *. cbn. destruct (v_dev v') as [|k|a] eqn:E; auto. rewrite D1; auto. apply SEP. unfold owned, dblk. cbn. rewrite E. left; auto.
    + destruct G3 as (G3 & m & M1 & M2 & M3). split; auto. destruct (HM m id' M1 M2 Hne) as (m' & M4 & M5 & M6). exists m'. split; auto. split; auto.
      unfold covers in *. unfold rng in M5. injection M5 as E1 E2. rewrite E1, E2. auto.
  - now apply NoDup_without.
  - intros k. rewrite DV, (owned_without (g_views s) id v k H8 H1 L), H9. tauto.
Qed.
Lemma own_nodup : forall s id v, ginv s -> assoc id (g_views s) = Some v -> NoDup (owned (id, v)).
Proof.
  intros s id v I L. apply assoc_in in L. pose proof (i_own s I) as N. revert L N. induction (g_views s) as [|e vs IH]; intros L N; [destruct L|].
  cbn [flat_map] in N. destruct L as [->|L].
  - clear - N. induction (owned (id, v)); cbn in *; [constructor|]. inversion N as [|x y N1 N2]; subst. constructor; auto. intros Hin. apply N1, in_or_app. auto.
  - apply IH; auto. clear - N. induction (owned e); cbn in *; auto. inversion N; auto.
Qed.
Lemma free_blk : forall s k, assoc k (g_dev s) <> None ->
  hip_free (DBlk k) s = Ok (mkG (g_host s) (g_reg s) (g_maps s) (without k (g_dev s)) (g_views s) (g_next s)).
Proof. intros s k H. unfold hip_free. rewrite (proj2 (has_some _ _) H). reflexivity. Qed.

Definition strip (id : nat) (m : mapping) : mapping := mkMap (m_base m) (m_size m) (filter (fun o => negb (Nat.eqb id o)) (m_obs m)).
Lemma del_ok : forall s id v, ginv s -> assoc id (g_views s) = Some v ->
  exists s', del_view id v s = Ok s' /\ ginv s' /\ g_host s' = g_host s /\ g_views s' = without id (g_views s) /\
    (forall k, ~ In k (owned (id, v)) -> assoc k (g_dev s') = assoc k (g_dev s)).
Proof.
  intros s id v I L. pose proof (i_ok s I id v L) as (G0 & G1 & G2 & G3). pose proof (own_nodup s id v I L) as ND.
  unfold del_view. destruct (v_mode v) eqn:EM.
  - (* copy *)
    assert (HF : exists dev1, hip_free (v_dev v) s = Ok (mkG (g_host s) (g_reg s) (g_maps s) dev1 (g_views s) (g_next s)) /\
              (forall k, In k (dblk v) -> assoc k dev1 = None) /\ (forall k, ~ In k (dblk v) -> assoc k dev1 = assoc k (g_dev s))).
    { unfold copy_ok in G3. unfold dblk. destruct (v_dev v) as [|k|a].
      - exists (g_dev s). destruct s. cbn. split; auto. split; [intros k []|auto].
      - destruct G3 as (c & A & _). exists (without k (g_dev s)). rewrite free_blk by congruence. split; auto. split.
        + intros k' [<-|[]]. rewrite assoc_without, Nat.eqb_refl. auto.
        + intros k' Hk. rewrite assoc_without. destruct (Nat.eqb_spec k' k) as [->|]; auto. destruct Hk. left; auto.
      - destruct G3. }
    destruct HF as (dev1 & -> & D1 & D2). cbn [bind].
    unfold owned in ND. cbn [snd] in ND.
    assert (N1 : ~ In (v_gdims v) (dblk v)). { intros Hin. revert ND. unfold dblk in *. destruct (v_dev v); [destruct Hin| |destruct Hin]. destruct Hin as [->|[]]. intros ND. inversion ND as [|x y X1 X2]; subst. apply X1. left; auto. }
    assert (N2 : ~ In (v_gstrides v) (dblk v)). { intros Hin. revert ND. unfold dblk in *. destruct (v_dev v); [destruct Hin| |destruct Hin]. destruct Hin as [->|[]]. intros ND. inversion ND as [|x y X1 X2]; subst. apply X1. right; left; auto. }
    assert (N3 : v_gdims v <> v_gstrides v). { intros E. apply NoDup_remove_2 with (l := dblk v) in ND. apply ND. apply in_or_app. right. left. auto. }
    rewrite free_blk by (cbn; rewrite D2 by auto; congruence). cbn [bind g_host g_reg g_maps g_dev g_views g_next].
    rewrite free_blk by (cbn; rewrite assoc_without, (proj2 (Nat.eqb_neq _ _)) by auto; rewrite D2 by auto; congruence). cbn [bind g_host g_reg g_maps g_dev g_views g_next].
    eexists. split; [reflexivity|]. cbn [g_host g_reg g_maps g_dev g_views g_next].
    assert (K1 : forall k, ~ In k (owned (id, v)) -> assoc k (without (v_gstrides v) (without (v_gdims v) dev1)) = assoc k (g_dev s)).
    { intros k Hk. unfold owned in Hk. cbn [snd] in Hk. rewrite in_app_iff in Hk. cbn in Hk. rewrite !assoc_without.
      rewrite !(proj2 (Nat.eqb_neq _ _)) by (intros ->; tauto). apply D2. tauto. }
    split; [|auto]. apply inv_remove with (v := v); auto.
    + intros k Hk. unfold owned in Hk. cbn [snd] in Hk. rewrite !assoc_without. destruct (Nat.eqb_spec k (v_gstrides v)); auto. destruct (Nat.eqb_spec k (v_gdims v)); auto.
      apply D1. apply in_app_or in Hk as [Hk|[Hk|[Hk|[]]]]; auto; congruence.
    + apply (i_reg s I).
    + apply (i_apart s I).
    + intros m Hm. destruct (i_obs s I m Hm) as (O1 & O2). split; auto. intros o Ho. split.
      * intros ->. destruct (O2 id Ho) as (w & W1 & W2 & _). congruence.
      * exists m. auto.
    + intros m o Hm Ho _. exists m. auto.
  - (* map *)
    unfold ml_detach. fold (strip id). assert (ER : map rng (map (strip id) (g_maps s)) = g_reg s). { rewrite (i_reg s I), map_map. reflexivity. }
    assert (HA : apart (map (strip id) (g_maps s))). { apply apart_map; [reflexivity|apply (i_apart s I)]. }
    rewrite <- ER, notify_ok by auto. cbn [bind fst snd]. destruct G3 as (G3 & m0 & _).
    assert (DB : dblk v = []) by (unfold dblk; now rewrite G3).
    unfold owned in ND. cbn [snd] in ND. rewrite DB in ND. cbn in ND.
    assert (N3 : v_gdims v <> v_gstrides v). { intros E. inversion ND as [|x y X1 X2]; subst. apply X1. left; auto. }
    rewrite free_blk by (cbn; congruence). cbn [bind g_host g_reg g_maps g_dev g_views g_next].
    rewrite free_blk by (cbn; rewrite assoc_without, (proj2 (Nat.eqb_neq _ _)) by auto; congruence). cbn [bind g_host g_reg g_maps g_dev g_views g_next].
    eexists. split; [reflexivity|]. cbn [g_host g_reg g_maps g_dev g_views g_next].
    assert (K1 : forall k, ~ In k (owned (id, v)) -> assoc k (without (v_gstrides v) (without (v_gdims v) (g_dev s))) = assoc k (g_dev s)).
    { intros k Hk. unfold owned in Hk. cbn [snd] in Hk. rewrite DB in Hk. cbn in Hk. rewrite !assoc_without.
      rewrite !(proj2 (Nat.eqb_neq _ _)) by (intros ->; tauto). auto. }
    split; [|auto]. apply inv_remove with (v := v); auto.
    + intros k Hk. unfold owned in Hk. cbn [snd] in Hk. rewrite DB in Hk. rewrite !assoc_without. destruct (Nat.eqb_spec k (v_gstrides v)); auto. destruct (Nat.eqb_spec k (v_gdims v)); auto.
      destruct Hk as [Hk|[Hk|[]]]; congruence.
    + now apply apart_filter.
    + intros m Hm. apply filter_In in Hm as (Hm & Hr). apply in_map_iff in Hm as (m' & <- & Hm). split.
      * unfold has_refs in Hr. cbn in *. destruct (filter _ (m_obs m')); discriminate.
      * cbn. intros o Ho. apply filter_In in Ho as (Ho & Hi). split; [|exists m'; auto]. intros ->. now rewrite Nat.eqb_refl in Hi.
    + intros m o Hm Ho Hne. exists (strip id m). assert (Hi : In o (m_obs (strip id m))). { cbn. apply filter_In. split; auto. apply negb_true_iff, Nat.eqb_neq. auto. }
      split; [|split; auto]. apply filter_In. split; [apply in_map; auto|]. unfold has_refs. destruct (m_obs (strip id m)); [destruct Hi|reflexivity].
Qed.

(** ** Every step keeps the invariant *)
Lemma mid_blk : forall s id v, ginv s -> assoc id (g_views s) = Some v -> v_mode v = VCopy ->
  (v_dev v = DNull /\ v_alloc v = 0) \/
  exists k c, v_dev v = DBlk k /\ assoc k (g_dev s) = Some (DBytes (v_alloc v) c) /\ (forall i, c i <> None <-> 0 <= i < v_alloc v).
Proof.
  intros s id v I L EM. destruct (i_ok s I id v L) as (_ & _ & _ & H). rewrite EM in H. unfold copy_ok in H. destruct (v_dev v) as [|k|a].
  - left; auto.
  - right. destruct H as (c & H1 & H2). eauto.
  - destruct H.
Qed.
Lemma map_reg : forall s id v off, ginv s -> assoc id (g_views s) = Some v -> v_mode v = VMap -> 0 <= off < v_alloc v ->
  v_dev v = DHostPtr (v_host v) /\ dev_byte v off s = g_host s (v_host v + off).
Proof.
  intros s id v off I L EM Ho. destruct (i_ok s I id v L) as (_ & _ & _ & H). rewrite EM in H. destruct H as (E & m & M1 & M2 & M3). split; auto.
  unfold dev_byte. rewrite E. replace (existsb _ _) with true; auto. symmetry. apply existsb_exists. exists (rng m). split.
  - rewrite (i_reg s I). now apply in_map.
  - unfold covers in M3. cbn. apply andb_true_iff. split; [apply Z.leb_le|apply Z.ltb_lt]; lia.
Qed.
Lemma h2d_cases : forall s id v, ginv s -> assoc id (g_views s) = Some v -> v_mode v = VCopy ->
  (present (g_host s) (v_host v) (v_alloc v) -> exists s', view_h2d v s = Ok s') /\
  (forall s', view_h2d v s = Ok s' -> ginv s' /\ g_host s' = g_host s /\ g_views s' = g_views s /\ g_reg s' = g_reg s /\
     (forall i, 0 <= i < v_alloc v -> dev_byte v i s' = g_host s (v_host v + i)) /\
     (forall k, v_dev v <> DBlk k -> assoc k (g_dev s') = assoc k (g_dev s))) /\
  view_h2d v s <> Throw.
Proof.
  intros s id v I L EM. unfold view_h2d. rewrite EM. destruct (mid_blk s id v I L EM) as [(-> & E0)|(k & c & E & A & Hc)].
  - rewrite E0. cbn. split; [eauto|]. split; [|discriminate]. intros s' [= <-]. split; auto. split; auto. split; auto. split; auto. split; auto. intros i Hi. lia.
  - rewrite E, A. destruct (Z.ltb_spec (v_alloc v) (v_alloc v)); [lia|]. destruct (host_bytes (g_host s) (v_host v) (v_alloc v)) as [c'| |] eqn:HB; cbn [bind].
    + split; [eauto|]. split; [|discriminate]. intros s' [= <-]. destruct (host_bytes_ok _ _ _ (host_bytes_inv _ _ _ _ HB)) as (c2 & HB' & C1 & C2). rewrite HB in HB'. injection HB' as <-.
      split; [eapply inv_set; eauto|]. cbn. split; auto. split; auto. split; auto. split.
      * intros i Hi. unfold dev_byte. rewrite E. cbn. rewrite assoc_set, Nat.eqb_refl, A. cbn. auto.
      * intros k' Hk. rewrite assoc_set. destruct (Nat.eqb_spec k' k) as [->|]; auto. congruence.
    + exfalso. exact (host_bytes_throw _ _ _ HB).
    + split; [|split; [discriminate|discriminate]]. intros P. destruct (host_bytes_ok _ _ _ P) as (c2 & HB' & _). congruence.
Qed.
Lemma d2h_cases : forall s id v, ginv s -> assoc id (g_views s) = Some v -> v_mode v = VCopy ->
  (present (g_host s) (v_host v) (v_alloc v) -> exists s', view_d2h v s = Ok s') /\
  (forall s', view_d2h v s = Ok s' -> ginv s' /\ g_dev s' = g_dev s /\ g_views s' = g_views s /\ g_reg s' = g_reg s /\
     (forall z, g_host s' z = if (v_host v <=? z) && (z <? v_host v + v_alloc v) then dev_byte v (z - v_host v) s else g_host s z)) /\
  view_d2h v s <> Throw.
Proof.
  intros s id v I L EM. unfold view_d2h. rewrite EM. destruct (mid_blk s id v I L EM) as [(-> & E0)|(k & c & E & A & Hc)].
  - rewrite E0. cbn. split; [eauto|]. split; [|discriminate]. intros s' [= <-]. split; auto. split; auto. split; auto. split; auto.
    intros z. destruct (Z.leb_spec (v_host v) z); cbn; auto. destruct (Z.ltb_spec z (v_host v + 0)); auto. lia.
  - rewrite E, A. destruct (Z.ltb_spec (v_alloc v) (v_alloc v)); [lia|]. destruct (host_bytes (g_host s) (v_host v) (v_alloc v)) as [c'| |] eqn:HB; cbn [bind].
    + split; [eauto|]. split; [|discriminate]. intros s' [= <-]. split; [now apply inv_host|]. cbn. split; auto. split; auto. split; auto.
      intros z. unfold dev_byte. rewrite E, A. auto.
    + exfalso. exact (host_bytes_throw _ _ _ HB).
    + split; [|split; [discriminate|discriminate]]. intros P. destruct (host_bytes_ok _ _ _ P) as (c2 & HB' & _). congruence.
Qed.
Lemma store_cases : forall s id v off x, ginv s -> assoc id (g_views s) = Some v ->
  (0 <= off < v_alloc v -> (v_mode v = VMap -> g_host s (v_host v + off) <> None) -> exists s', dev_store v off x s = Ok s') /\
  (forall s', dev_store v off x s = Ok s' -> ginv s' /\ g_views s' = g_views s /\ g_reg s' = g_reg s /\
     match v_mode v with
     | VCopy => 0 <= off < v_alloc v /\ g_host s' = g_host s /\ dev_byte v off s' = Some x /\ (forall i, i <> off -> dev_byte v i s' = dev_byte v i s) /\
                (forall k, v_dev v <> DBlk k -> assoc k (g_dev s') = assoc k (g_dev s))
     | VMap => g_dev s' = g_dev s /\ g_host s' = upd (g_host s) (v_host v + off) x
     end) /\
  dev_store v off x s <> Throw.
Proof.
  intros s id v off x I L. unfold dev_store. destruct (v_mode v) eqn:EM.
  - destruct (mid_blk s id v I L EM) as [(E & E0)|(k & c & E & A & Hc)].
    + unfold dev_byte. rewrite E. cbn. split; [intros; lia|]. split; [discriminate|discriminate].
    + unfold dev_byte. rewrite E, A. destruct (has (c off)) eqn:Eh.
      * apply has_some in Eh. apply Hc in Eh. split; [eauto|]. split; [|discriminate]. intros s' [= <-]. split.
        { eapply inv_set; eauto. intros i. destruct (Z.eqb_spec i off) as [->|]; auto. split; [auto|discriminate]. }
        cbn. split; auto. split; auto. split; auto. split; auto. rewrite assoc_set, Nat.eqb_refl, A. cbn [has]. rewrite Z.eqb_refl. split; auto. split.
        { intros i Hi. now rewrite (proj2 (Z.eqb_neq i off)). }
        intros k' Hk. rewrite assoc_set. destruct (Nat.eqb_spec k' k) as [->|]; auto. congruence.
      * split; [|split; discriminate]. intros Ho. apply Hc in Ho. apply has_some in Ho. congruence.
  - destruct (i_ok s I id v L) as (_ & _ & _ & H). rewrite EM in H. destruct H as (E & _). rewrite E.
    split.
    + intros Ho P. rewrite (proj2 (map_reg s id v off I L EM Ho)). rewrite (proj2 (has_some _ _) (P eq_refl)). eauto.
    + destruct (has (dev_byte v off s)); split; try discriminate. intros s' [= <-]. split; [now apply inv_host|]. cbn. auto.
Qed.
Lemma step_inv : forall o s s', ginv s -> gstep o s = Ok s' -> ginv s'.
Proof.
  intros o s s' I E. destruct o as [b m|id|id|id|id off x|a x|a n x]; cbn in E.
  - destruct (new_view b m s) as [(id, s1)| |] eqn:EN; try discriminate. cbn in E. injection E as <-. destruct m.
    + destruct (new_copy_inv s b id s1 I EN) as (v & Hv & _). auto.
    + assert (H1 : pb_strides b <> []) by (intros H; unfold new_view in EN; now rewrite H in EN).
      assert (H2 : pb_shape b <> []) by (intros H; unfold new_view in EN; rewrite H in EN; destruct (pb_strides b); discriminate).
      destruct (new_map_out s b I H1 H2) as [(id' & s'' & v & E' & Hv & _)|(E' & _)]; congruence.
  - destruct (assoc id (g_views s)) as [v|] eqn:L; [|discriminate]. destruct (del_ok s id v I L) as (s1 & E1 & H & _). congruence.
  - destruct (assoc id (g_views s)) as [v|] eqn:L; [|discriminate]. destruct (v_mode v) eqn:EM.
    + apply (h2d_cases s id v I L EM); auto.
    + unfold view_h2d in E. rewrite EM in E. congruence.
  - destruct (assoc id (g_views s)) as [v|] eqn:L; [|discriminate]. destruct (v_mode v) eqn:EM.
    + apply (d2h_cases s id v I L EM); auto.
    + unfold view_d2h in E. rewrite EM in E. congruence.
  - destruct (assoc id (g_views s)) as [v|] eqn:L; [|discriminate]. now apply (store_cases s id v off x I L).
  - destruct (wr (g_host s) a x) as [h| |]; try discriminate. injection E as <-. now apply inv_host.
  - injection E as <-. now apply inv_host.
Qed.
Lemma run_inv : forall os s s', ginv s -> grun os s = Ok s' -> ginv s'.
Proof.
  induction os as [|o os IH]; intros s s' I E; cbn in E; [congruence|]. destruct (gstep o s) as [s1| |] eqn:ES; try discriminate; eauto.
  apply (IH s1); auto. eapply step_inv; eauto.
Qed.
Lemma reach_inv : forall s, reach s -> ginv s.
Proof. intros s (h & os & E). eapply run_inv; eauto. apply inv_init. Qed.
