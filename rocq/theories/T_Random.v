(** * T_Random: random contents (C93) and the domain of a set of points (C95). *)
From Coq Require Import List ZArith Lia Bool Permutation.
From Verif Require Import Base Heap Conc M_Addr S_Addr L_Addr M_Elt L_Elt M_Einsum S_Einsum S_Red S_Blas M_Lapack
  T_Lapack M_Trunc M_Create T_Elem.
Import ListNotations.
Open Scope Z_scope.

(** ** C93 *)

(** The state of the engine after [k] calls. *)
Fixpoint state {S} (next : S -> S) (seed : S) (k : nat) : S :=
  match k with 0%nat => seed | Datatypes.S k' => next (state next seed k') end.

Lemma pseq_app : forall T X (l m : list X) (f : X -> prog T unit) h,
  run (pseq (l ++ m) f) h = match run (pseq l f) h with Ok (_, h') => run (pseq m f) h' | Throw => Throw | UB => UB end.
Proof.
  intros T X l m f. induction l as [|x l IH]; intros h; cbn [app pseq]; [reflexivity|].
  rewrite !run_bind. destruct (run (f x) h) as [[u h']| |]; auto.
Qed.

Section Values.
  Context {S T : Type}.
  Variables (next : S -> S) (out : list S -> T) (calls : nat) (re base n : Z) (seed : S).
  (** States of the engine. *)
  Definition orbit (s : S) : Prop := exists k, s = state next seed k.
  Variable P : T -> Prop.
  Hypothesis HP : forall l, length l = calls -> Forall orbit l -> P (out l).
  Hypothesis Hre : ~ (base <= re < base + n).

  Fixpoint okp (p : prog (S + T) unit) : Prop :=
    match p with
    | PRet _ => True
    | PRd a k => a = re /\ forall s, orbit s -> okp (k (inl s))
    | PWr a v k => ((a = re /\ exists s, v = inl s /\ orbit s) \/
                    (base <= a < base + n /\ exists t, v = inr t /\ P t)) /\ okp k
    end.
  Fixpoint will (z : Z) (p : prog (S + T) unit) : Prop :=
    match p with
    | PRet _ => False
    | PRd a k => forall s, orbit s -> will z (k (inl s))
    | PWr a v k => a = z \/ will z k
    end.

  Lemma okp_bind : forall (p : prog (S + T) unit) f, okp p -> okp (f tt) -> okp (pbind p f).
  Proof.
    induction p as [[]|a k IH|a v k IH]; intros f Hp Hf; cbn [pbind okp] in *; auto.
    - destruct Hp as (E & Hp). split; auto.
    - destruct Hp as (E & Hp). split; auto.
  Qed.
  Lemma will_bind_l : forall z (p : prog (S + T) unit) f, will z p -> will z (pbind p f).
  Proof.
    induction p as [[]|a k IH|a v k IH]; intros f Hp; cbn [pbind will] in *; auto; [contradiction|].
    destruct Hp; auto.
  Qed.
  Lemma will_bind_r : forall z (p : prog (S + T) unit) f, will z (f tt) -> will z (pbind p f).
  Proof. induction p as [[]|a k IH|a v k IH]; intros f Hp; cbn [pbind will] in *; auto. Qed.

  Lemma draw_ok : forall c seen a, base <= a < base + n -> (length seen + c)%nat = calls -> Forall orbit seen ->
    okp (draw next out re c seen a) /\ will a (draw next out re c seen a).
  Proof.
    induction c as [|c IH]; intros seen a Ha HL HS; cbn [draw okp will].
    - split; auto. split; auto. right. split; auto. eexists. split; [reflexivity|]. apply HP.
      + rewrite rev_length. lia.
      + apply Forall_rev. auto.
    - assert (N : forall s, orbit s -> orbit (next s)).
      { intros s (k & ->). exists (Datatypes.S k). reflexivity. }
      split.
      + split; auto. intros s Hs. cbn [okp]. split.
        * left. split; auto. eexists. split; [reflexivity|]. auto.
        * apply IH; auto. cbn [length]. lia.
      + intros s Hs. cbn [will]. right. apply IH; auto. cbn [length]. lia.
  Qed.

  Lemma fill_ok : forall l, (forall i, In i l -> 0 <= i < n) ->
    okp (pseq l (fun i => draw next out re calls [] (base + i))) /\
    (forall i, In i l -> will (base + i) (pseq l (fun i => draw next out re calls [] (base + i)))).
  Proof.
    induction l as [|x l IH]; intros Hl; cbn [pseq]; [split; cbn; auto; contradiction|].
    destruct IH as (IO & IW); [intros; apply Hl; right; auto|].
    destruct (draw_ok calls [] (base + x)) as (DO & DW); auto.
    { specialize (Hl x (or_introl eq_refl)). lia. }
    split; [apply okp_bind; auto|].
    intros i [->|Hi]; [apply will_bind_l; auto|apply will_bind_r; auto].
  Qed.

  Definition rinv (h0 : heap (S + T)) (ps : list (prog (S + T) unit)) (h : heap (S + T)) : Prop :=
    (exists s, h re = Some (inl s) /\ orbit s) /\ Forall okp ps /\
    (forall z, base <= z < base + n ->
       (exists t, h z = Some (inr t) /\ P t) \/ (exists w, h z = Some w) /\ exists p, In p ps /\ will z p) /\
    (forall z, z <> re -> ~ (base <= z < base + n) -> h z = h0 z).

  Lemma in_replace : forall A i (x y : A) l, nth_error l i = Some x -> forall p, In p l -> p = x \/ In p (replace i y l).
  Proof.
    induction i as [|i IH]; intros x y [|z l] Hn p Hp; cbn in *; try discriminate.
    - injection Hn as ->. destruct Hp; auto.
    - destruct Hp as [->|Hp]; auto. destruct (IH _ y _ Hn p Hp); auto.
  Qed.
  Lemma new_in_replace : forall A i (x y : A) l, nth_error l i = Some x -> In y (replace i y l).
  Proof. induction i as [|i IH]; intros x y [|z l] Hn; cbn in *; try discriminate; auto. right. eapply IH; eauto. Qed.
  Lemma Forall_replace : forall A (Q : A -> Prop) i y l, Forall Q l -> Q y -> Forall Q (replace i y l).
  Proof. intros A Q i y l H. revert i. induction H; intros [|i] Hy; cbn; auto. Qed.

  Lemma rinv_step : forall h0 ps h ps' h', rinv h0 ps h -> pstep (ps, h) (ps', h') -> rinv h0 ps' h'.
  Proof.
    intros h0 ps h ps' h' ((s & Es & Hs) & HF & HZ & HR) Hst.
    inversion Hst as [ps1 h1 i a k v Hi Ha|ps1 h1 i a v k w Hi Ha]; subst.
    - assert (Hk : okp (PRd a k)) by (rewrite Forall_forall in HF; apply HF; eapply nth_error_In; eauto).
      destruct Hk as (-> & Hk). rewrite Es in Ha. injection Ha as <-.
      split; [eauto|]. split; [apply Forall_replace; auto|]. split; [|auto].
      intros z Hz. destruct (HZ z Hz) as [G|(W & p & Hp & Hw)]; auto. right. split; auto.
      destruct (in_replace _ i _ (k (inl s)) ps Hi p Hp) as [->|Hin]; [|eauto].
      exists (k (inl s)). split; [eapply new_in_replace; eauto|]. apply Hw. auto.
    - assert (Hk : okp (PWr a v k)) by (rewrite Forall_forall in HF; apply HF; eapply nth_error_In; eauto).
      destruct Hk as (Hv & Hk).
      split; [|split; [apply Forall_replace; auto|]].
      { destruct Hv as [(-> & s' & -> & Hs')|(Hr & _)].
        - exists s'. rewrite upd_same. auto.
        - exists s. rewrite upd_other by lia. auto. }
      split.
      + intros z Hz. destruct (Z.eq_dec z a) as [->|Hne].
        * left. destruct Hv as [(-> & _)|(_ & t & -> & Ht)]; [contradiction|]. exists t. rewrite upd_same. auto.
        * rewrite upd_other by auto. destruct (HZ z Hz) as [G|(W & p & Hp & Hw)]; auto. right. split; auto.
          destruct (in_replace _ i _ k ps Hi p Hp) as [->|Hin]; [|eauto].
          exists k. split; [eapply new_in_replace; eauto|]. destruct Hw; [congruence|auto].
      + intros z Hz Hz'. rewrite upd_other; auto. destruct Hv as [(-> & _)|(Hr & _)]; auto. intros ->. auto.
  Qed.

  Lemma rinv_steps : forall h0 s s', rinv h0 (fst s) (snd s) -> psteps s s' -> rinv h0 (fst s') (snd s').
  Proof.
    intros h0 s s' H Hs. induction Hs as [|s t u St _ IH]; auto. apply IH.
    destruct s as [ps h], t as [ps' h']. eapply rinv_step; eauto.
  Qed.

  Lemma rinv_nofault : forall h0 ps h, rinv h0 ps h -> ~ pfault ps h.
  Proof.
    intros h0 ps h ((s & Es & Hs) & HF & HZ & HR) (i & [(a & k & Hi & Ha)|(a & v & k & Hi & Ha)]);
      rewrite Forall_forall in HF; specialize (HF _ (nth_error_In _ _ Hi)); destruct HF as (HF & _).
    - subst a. congruence.
    - destruct HF as [(-> & _)|(Hr & _)]; [congruence|].
      destruct (HZ a Hr) as [(t & E & _)|((w & E) & _)]; congruence.
  Qed.
End Values.

(** Every element of a new random tensor is made from [calls] states of the
    engine: whatever holds for all such values holds for every element, for
    every number of threads and every interleaving.  Nothing but the tensor and
    the engine is written.  Missing: see [C93_threads_refuted]. *)
Theorem C93_values :
  forall (S T : Type) (next : S -> S) (out : list S -> T) (calls : nat) (seed : S) (zero : T) (re base n : Z)
         (nt : nat) (P : T -> Prop) (h : heap (S + T)),
    (0 < nt)%nat -> ~ (base <= re < base + n) ->
    (forall l, length l = calls -> (forall s, In s l -> exists k, s = state next seed k) -> P (out l)) ->
    par_spec (random_fill next out calls re base n nt) (random_start zero seed re base n h) (fun h' =>
      (forall i, 0 <= i < n -> exists v, h' (base + i) = Some (inr v) /\ P v) /\
      (forall z, z <> re -> ~ (base <= z < base + n) -> h' z = h z)).
Proof.
  intros S T next out calls seed zero re base n nt P h Hnt Hre HP.
  assert (HP' : forall l, length l = calls -> Forall (orbit next seed) l -> P (out l)).
  { intros l HL HF. apply HP; auto. intros s Hs. rewrite Forall_forall in HF. apply HF. auto. }
  destruct (fill_ok next out calls re base n seed P HP' (zrange n)) as (FO & FW).
  { intros i Hi. apply zrange_in in Hi. auto. }
  assert (I0 : rinv next re base n seed P h (random_fill next out calls re base n nt) (random_start zero seed re base n h)).
  { unfold random_start. split; [exists seed; rewrite upd_same; split; auto; exists 0%nat; reflexivity|].
    split; [apply Forall_forall; intros p Hp; apply repeat_spec in Hp; subst; auto|].
    split.
    - intros z Hz. rewrite upd_other by lia. right. split.
      + exists (inr zero). unfold alloc_buffer. rewrite (proj2 (Z.leb_le _ _)), (proj2 (Z.ltb_lt _ _)) by lia. reflexivity.
      + eexists. split; [unfold random_fill; destruct nt; [lia|left; reflexivity]|].
        replace z with (base + (z - base)) by lia. apply FW. apply zrange_in. lia.
    - intros z Hz Hz'. rewrite upd_other by auto. unfold alloc_buffer.
      destruct (Z.leb_spec base z), (Z.ltb_spec z (base + n)); auto. lia. }
  split; [|apply pool_terminates].
  intros ps' h' Hs. assert (I := rinv_steps next re base n seed P Hre h (_, _) _ I0 Hs). cbn [fst snd] in I.
  assert (NF := rinv_nofault _ _ _ _ _ _ _ _ _ I). split; auto.
  split; [destruct (pool_progress _ ps' h') as [|[|]]; auto; contradiction|].
  intros Hd. destruct I as (_ & _ & HZ & HR). split; auto.
  intros i Hi. destruct (HZ (base + i) ltac:(lia)) as [G|(_ & p & Hp & Hw)]; auto.
  unfold pdone in Hd. rewrite Forall_forall in Hd. rewrite (Hd p Hp) in Hw. contradiction.
Qed.
Print Assumptions C93_values.

(** One thread does what its sequential run does. *)
Lemma alone : forall T (p : prog T unit) h h' (Q : heap T -> Prop), run p h = Ok (tt, h') -> Q h' -> par_spec [p] h Q.
Proof.
  intros T p h h' Q HR HQ. split; [|apply pool_terminates].
  assert (ST : forall s s', psteps s s' -> (exists q, fst s = [q] /\ run q (snd s) = Ok (tt, h')) ->
                 exists q, fst s' = [q] /\ run q (snd s') = Ok (tt, h')).
  { intros s s' Hs. induction Hs as [|s t u Hst _ IH]; auto. intros (q & Eq & Rq). apply IH.
    inversion Hst as [ps1 h1 i a k v Hi Ha|ps1 h1 i a v k w Hi Ha]; subst; cbn [fst snd] in *; subst ps1;
      (destruct i as [|i]; [|destruct i; discriminate]); injection Hi as ->; cbn [replace run] in *; rewrite Ha in Rq; eauto. }
  intros ps' h2 Hs. destruct (ST _ _ Hs) as (q & Eq & Rq); [exists p; auto|]. cbn [fst snd] in *. subst ps'.
  assert (NF : ~ pfault [q] h2).
  { intros (i & [(a & k & Hi & Ha)|(a & v & k & Hi & Ha)]); (destruct i as [|i]; [|destruct i; discriminate]);
      injection Hi as ->; cbn [run] in Rq; rewrite Ha in Rq; discriminate. }
  split; auto. split; [destruct (pool_progress _ [q] h2) as [|[|]]; auto; contradiction|].
  intros Hd. inversion Hd; subst. cbn [run] in Rq. injection Rq as <-. auto.
Qed.

Lemma run_draw : forall S T (next : S -> S) (out : list S -> T) (seed : S) re a, a <> re ->
  forall c seen k (h : heap (S + T)) w, h re = Some (inl (state next seed k)) -> h a = Some w ->
  exists h', run (draw next out re c seen a) h = Ok (tt, h') /\ h' re = Some (inl (state next seed (k + c))) /\
    h' a = Some (inr (out (rev seen ++ map (state next seed) (seq (Datatypes.S k) c)))) /\
    (forall z, z <> re -> z <> a -> h' z = h z).
Proof.
  intros S T next out seed re a Ha. induction c as [|c IH]; intros seen k h w Hr Hw; cbn [draw run].
  - rewrite Hw. eexists. split; [reflexivity|]. rewrite upd_other by auto. rewrite upd_same. cbn [seq map].
    rewrite app_nil_r, Nat.add_0_r. split; [auto|]. split; auto. intros z H1 H2. rewrite upd_other; auto.
  - rewrite Hr. cbn [run]. rewrite Hr.
    destruct (IH (next (state next seed k) :: seen) (Datatypes.S k) (upd h re (inl (next (state next seed k)))) w)
      as (h' & E & R & V & F).
    + rewrite upd_same. reflexivity.
    + rewrite upd_other; auto.
    + exists h'. split; [exact E|]. split; [rewrite R; do 3 f_equal; lia|]. split.
      * rewrite V. do 3 f_equal. cbn [rev seq map]. rewrite <- app_assoc. reflexivity.
      * intros z H1 H2. rewrite F by auto. rewrite upd_other; auto.
Qed.

Lemma run_fill : forall S T (next : S -> S) (out : list S -> T) (calls : nat) (seed : S) re base n (h : heap (S + T)),
  ~ (base <= re < base + n) -> h re = Some (inl seed) -> (forall z, base <= z < base + n -> exists w, h z = Some w) ->
  forall m, Z.of_nat m <= n ->
  exists h', run (pseq (zrange (Z.of_nat m)) (fun i => draw next out re calls [] (base + i))) h = Ok (tt, h') /\
    h' re = Some (inl (state next seed (m * calls))) /\
    (forall k, (k < m)%nat ->
       h' (base + Z.of_nat k) = Some (inr (out (map (state next seed) (seq (Datatypes.S (k * calls)) calls))))) /\
    (forall z, z <> re -> ~ (base <= z < base + Z.of_nat m) -> h' z = h z).
Proof.
  intros S T next out calls seed re base n h Hre Hs HA. induction m as [|m IH]; intros Hm.
  - exists h. split; [reflexivity|]. split; auto. split; [lia|]. auto.
  - destruct IH as (h1 & E & R & V & F); [lia|].
    replace (zrange (Z.of_nat (Datatypes.S m))) with (zrange (Z.of_nat m) ++ [Z.of_nat m]).
    2: { unfold zrange. rewrite !Nat2Z.id, seq_S, map_app. reflexivity. }
    rewrite pseq_app, E. cbn [pseq]. rewrite run_bind.
    destruct (HA (base + Z.of_nat m) ltac:(lia)) as (w & Hw).
    destruct (run_draw S T next out seed re (base + Z.of_nat m) ltac:(lia) calls [] (m * calls)%nat h1 w) as (h2 & E2 & R2 & V2 & F2).
    + auto.
    + rewrite F by lia. auto.
    + rewrite E2. cbn [run]. exists h2. split; [reflexivity|]. split; [rewrite R2; do 3 f_equal; lia|]. split.
      * intros k Hk. destruct (Nat.eq_dec k m) as [->|Hne]; [rewrite V2; reflexivity|].
        rewrite F2 by lia. apply V. lia.
      * intros z Hz Hz'. rewrite F2 by lia. apply F; lia.
Qed.

(** With one thread, element [k] is made from the states number
    [k calls + 1 ... (k + 1) calls] of the engine with the default seed: the
    contents depend on nothing but the number of elements before it (in
    particular, all tensors start with the same numbers). *)
Theorem C93_one_thread :
  forall (S T : Type) (next : S -> S) (out : list S -> T) (calls : nat) (seed : S) (zero : T) (re base n : Z)
         (h : heap (S + T)),
    0 <= n -> ~ (base <= re < base + n) ->
    par_spec (random_fill next out calls re base n 1) (random_start zero seed re base n h) (fun h' =>
      (forall k : nat, Z.of_nat k < n ->
         h' (base + Z.of_nat k) = Some (inr (out (map (state next seed) (seq (k * calls + 1) calls))))) /\
      (forall z, z <> re -> ~ (base <= z < base + n) -> h' z = h z)).
Proof.
  intros S T next out calls seed zero re base n h Hn Hre. unfold random_fill. cbn [repeat].
  assert (AB : forall z, alloc_buffer (inr zero) base n h z = if (base <=? z) && (z <? base + n) then Some (inr zero) else h z)
    by reflexivity.
  destruct (run_fill S T next out calls seed re base n (random_start zero seed re base n h) Hre) with (m := Z.to_nat n)
    as (h' & E & R & V & F).
  - unfold random_start. apply upd_same.
  - intros z Hz. exists (inr zero). unfold random_start. rewrite upd_other by lia. rewrite AB.
    rewrite (proj2 (Z.leb_le _ _)), (proj2 (Z.ltb_lt _ _)) by lia. reflexivity.
  - lia.
  - rewrite Z2Nat.id in * by auto. eapply alone; [exact E|]. split.
    + intros k Hk. rewrite (V k) by lia. rewrite Nat.add_1_r. reflexivity.
    + intros z Hz Hz'. rewrite F by auto. unfold random_start. rewrite upd_other by auto. rewrite AB.
      destruct (Z.leb_spec base z), (Z.ltb_spec z (base + n)); auto. lia.
Qed.
Print Assumptions C93_one_thread.

(** Two threads, one element, an engine that counts: both results are possible,
    even though no two calls of the engine overlap. *)
Theorem C93_threads_refuted :
  let pool := random_fill Z.succ (fun l : list Z => hd 0 l) 1 9 0 1 2 in
  let h := random_start (S := Z) 0 0 9 0 1 (fun _ => None) in
  exists h1 h2 ps1 ps2, psteps (pool, h) (ps1, h1) /\ pdone ps1 /\ psteps (pool, h) (ps2, h2) /\ pdone ps2 /\
    h1 0 = Some (inr 1) /\ h2 0 = Some (inr 2).
Proof.
  cbv zeta. do 4 eexists. unfold random_fill. cbn [repeat].
  change (zrange 1) with [0]. cbn [pseq draw pbind rev app hd Z.add].
  split.
  { eapply pss_step; [eapply (ps_rd _ _ 0%nat); reflexivity|]. eapply pss_step; [eapply (ps_wr _ _ 0%nat); reflexivity|].
    eapply pss_step; [eapply (ps_rd _ _ 1%nat); reflexivity|]. eapply pss_step; [eapply (ps_wr _ _ 1%nat); reflexivity|].
    eapply pss_step; [eapply (ps_wr _ _ 1%nat); reflexivity|]. eapply pss_step; [eapply (ps_wr _ _ 0%nat); reflexivity|].
    apply pss_refl. }
  split; [repeat constructor|]. split.
  { eapply pss_step; [eapply (ps_rd _ _ 0%nat); reflexivity|]. eapply pss_step; [eapply (ps_wr _ _ 0%nat); reflexivity|].
    eapply pss_step; [eapply (ps_rd _ _ 1%nat); reflexivity|]. eapply pss_step; [eapply (ps_wr _ _ 1%nat); reflexivity|].
    eapply pss_step; [eapply (ps_wr _ _ 0%nat); reflexivity|]. eapply pss_step; [eapply (ps_wr _ _ 1%nat); reflexivity|].
    apply pss_refl. }
  split; [repeat constructor|]. split; reflexivity.
Qed.
Print Assumptions C93_threads_refuted.

(** An engine with states modulo 7, two calls per element; the values are below 49. *)
Example C93_case :
  let next := fun s => (3 * s + 1) mod 7 in let out := fun l : list Z => 7 * nth 0 l 0 + nth 1 l 0 in
  (forall l, length l = 2%nat -> (forall s, In s l -> exists k, s = state next 5 k) -> 0 <= out l < 49) /\
  match run (pseq (zrange 3) (fun i => draw next out 9 2 [] (0 + i))) (random_start (S := Z) 0 5 9 0 3 (fun _ => None)) with
  | Ok (_, h) => h 0 = Some (inr 14) /\ h 1 = Some (inr 11) /\ h 2 = Some (inr 47)
  | _ => False
  end.
Proof.
  cbv zeta. split; [|vm_compute; auto].
  intros [|a [|b [|c l]]] HL Hs; try discriminate. cbn [nth].
  assert (B : forall k, 0 <= state (fun s => (3 * s + 1) mod 7) 5 k < 7).
  { intros [|k]; cbn [state]; [lia|]. apply Z.mod_pos_bound. lia. }
  destruct (Hs a (or_introl eq_refl)) as (ka & ->). destruct (Hs b (or_intror (or_introl eq_refl))) as (kb & ->).
  assert (B1 := B ka). assert (B2 := B kb). lia.
Qed.

(** ** C95 *)

(** [r] is an element that no element beats. *)
Definition extreme {T} (better : T -> T -> bool) (n : Z) (f : Z -> T) (r : T) : Prop :=
  (exists i, 0 <= i < n /\ f i = r) /\ forall i, 0 <= i < n -> better (f i) r = false.

Section Extreme.
  Context {T : Type}.
  Variables (P : T -> Prop) (better : T -> T -> bool).
  Hypothesis W : weak_order P better.
  Variables (n : Z) (f : Z -> T).
  Hypothesis HP : forall i, 0 <= i < n -> P (f i).

  Definition best_in (l : list Z) (r : T) : Prop :=
    (exists i, 0 <= i < n /\ f i = r) /\ forall i, In i l -> 0 <= i < n /\ better (f i) r = false.

  Lemma best_merge : forall l m r q, best_in l r -> best_in m q -> best_in (l ++ m) (if better q r then q else r).
  Proof.
    destruct W as (WI & WA & WT). intros l m r q ((i & Hi & <-) & Hl) ((j & Hj & <-) & Hm).
    destruct (better (f j) (f i)) eqn:E; (split; [eauto|]); intros k Hk; apply in_app_or in Hk as [Hk|Hk].
    - destruct (Hl k Hk) as (Hk' & B). split; auto. apply (WT _ (f i)); auto.
    - apply Hm. auto.
    - apply Hl. auto.
    - destruct (Hm k Hk) as (Hk' & B). split; auto. apply (WT _ (f j)); auto.
  Qed.
  Lemma best_one : forall i, 0 <= i < n -> best_in [i] (f i).
  Proof. destruct W as (WI & _). intros i Hi. split; eauto. intros k [<-|[]]. split; auto. Qed.
End Extreme.

Lemma weak_flip : forall T (P : T -> Prop) b, weak_order P b -> weak_order P (fun x y => b y x).
Proof. intros T P b (I & A & N). split; [auto|]. split; [auto|]. intros x y z Hx Hy Hz H1 H2. apply (N z y x); auto. Qed.

(** The domain of a non-empty set of points is its smallest and its largest
    element, for every stride, every distribution of the indices over threads
    and every order in which the threads merge their results. *)
Theorem C95_domain :
  forall (T : Type) (P : T -> Prop) (ltb : T -> T -> bool) (x : desc) (n : Z) (f : list Z -> T) (parts : list (list Z)) (h : heap T),
    weak_order P ltb -> ddims x = [n] -> 0 < n -> holds h x f -> (forall i, 0 <= i < n -> P (f [i])) ->
    Permutation (concat parts) (map Z.succ (zrange (n - 1))) ->
    exists lo hi, get_domain ltb h x parts = Ok (lo, hi) /\
      extreme ltb n (fun i => f [i]) lo /\ extreme (fun a b => ltb b a) n (fun i => f [i]) hi.
Proof.
  intros T P ltb x n f parts h W Dx Hn HX HP HPm.
  set (g := fun i => f [i]). assert (W2 := weak_flip _ _ _ W).
  assert (R : forall i, 0 <= i < n -> rd h (subscript x [i]) = Ok (g i)).
  { intros i Hi. assert (Hb : inb [i] (ddims x)) by (rewrite Dx; repeat constructor; lia).
    rewrite subscript_inb by auto. unfold rd. specialize (HX [i] Hb). unfold elem in HX. rewrite HX. reflexivity. }
  assert (R0 := R 0 ltac:(lia)).
  assert (LOC : forall part seen s, (forall i, In i part -> 0 <= i < n) ->
     best_in ltb n g seen (fst s) -> best_in (fun a b => ltb b a) n g seen (snd s) ->
     exists s', forM part (fun i p => v <- rd h (subscript x [i]) ;;
                 let '(lo, hi) := p in Ok (if ltb v lo then v else lo, if ltb hi v then v else hi)) s = Ok s' /\
       best_in ltb n g (seen ++ part) (fst s') /\ best_in (fun a b => ltb b a) n g (seen ++ part) (snd s')).
  { induction part as [|i part IH]; intros seen [lo hi] Hp B1 B2; cbn [forM fst snd] in *.
    - rewrite app_nil_r. exists (lo, hi). auto.
    - rewrite R by (apply Hp; left; auto). cbn [bind].
      destruct (IH (seen ++ [i]) (if ltb (g i) lo then g i else lo, if ltb hi (g i) then g i else hi)) as (s' & E & G).
      + intros k Hk. apply Hp. right. auto.
      + apply (best_merge P ltb W n g HP); auto. apply (best_one P ltb W n g HP). apply Hp. left. auto.
      + apply (best_merge P _ W2 n g HP); auto. apply (best_one P _ W2 n g HP). apply Hp. left. auto.
      + exists s'. rewrite <- app_assoc in G. split; [exact E|exact G]. }
  assert (GLOB : forall ps seen s, (forall i, In i (concat ps) -> 0 <= i < n) ->
     best_in ltb n g seen (fst s) -> best_in (fun a b => ltb b a) n g seen (snd s) ->
     exists s', forM ps (fun part g => l <- domain_local ltb h x part ;; Ok (domain_merge ltb g l)) s = Ok s' /\
       (exists l, (forall i, In i (seen ++ concat ps) -> In i l) /\
          best_in ltb n g l (fst s') /\ best_in (fun a b => ltb b a) n g l (snd s'))).
  { induction ps as [|part ps IH]; intros seen s Hp B1 B2; cbn [forM concat] in *.
    - exists s. split; auto. exists seen. rewrite app_nil_r. auto.
    - unfold domain_local at 1. rewrite R0. cbn [bind].
      destruct (LOC part [0] (g 0, g 0)) as (l & E & L1 & L2).
      + intros i Hi. apply Hp. apply in_or_app. auto.
      + apply (best_one P ltb W n g HP). lia.
      + apply (best_one P _ W2 n g HP). lia.
      + rewrite E. cbn [bind].
        destruct (IH (seen ++ [0] ++ part) (domain_merge ltb s l)) as (s' & E' & l' & Hl' & G).
        * intros i Hi. apply Hp. apply in_or_app. auto.
        * apply (best_merge P ltb W n g HP); auto.
        * apply (best_merge P _ W2 n g HP); auto.
        * exists s'. split; [exact E'|]. exists l'. split; auto.
          intros i Hi. apply Hl'. rewrite !in_app_iff in *. cbn [In]. tauto. }
  unfold get_domain. rewrite R0. cbn [bind].
  assert (IN : forall i, In i (concat parts) <-> 1 <= i < n).
  { intros i. split; intros Hi.
    - apply (Permutation_in _ HPm) in Hi. apply in_map_iff in Hi as (k & <- & Hk). apply zrange_in in Hk. lia.
    - apply (Permutation_in _ (Permutation_sym HPm)). apply in_map_iff. exists (i - 1). split; [lia|]. apply zrange_in. lia. }
  destruct (GLOB parts [0] (g 0, g 0)) as ([lo hi] & E & l & Hl & (X1 & B1) & (X2 & B2)).
  - intros i Hi. apply IN in Hi. lia.
  - apply (best_one P ltb W n g HP). lia.
  - apply (best_one P _ W2 n g HP). lia.
  - exists lo, hi. split; [exact E|]. cbn [fst snd] in *.
    assert (ALL : forall i, 0 <= i < n -> In i l).
    { intros i Hi. apply Hl. destruct (Z.eq_dec i 0) as [->|]; [left; auto|]. right. apply IN. lia. }
    split; split; auto; intros i Hi; [apply B1|apply B2]; auto.
Qed.
Print Assumptions C95_domain.

(** An empty set: element 0 is read anyway. *)
Theorem C95_empty_refuted :
  forall (T : Type) (ltb : T -> T -> bool) (b : Z) parts (h : heap T), h b = None ->
    get_domain ltb h (tensor_ctor b [0]) parts = UB.
Proof.
  intros T ltb b parts h Hb. unfold get_domain. replace (subscript (tensor_ctor b [0]) [0]) with b.
  - unfold rd. rewrite Hb. reflexivity.
  - unfold subscript, addr, wrap_negative. simpl. lia.
Qed.
Print Assumptions C95_empty_refuted.

Example C95_case :
  let x := mkDesc 0 [5] [2] in let h := fun z => nth (Z.to_nat z) (map Some [3; 0; 7; 0; 1; 0; 7; 0; 2]) None in
  get_domain Z.ltb h x [[3; 4]; []; [1; 2]] = Ok (1, 7) /\
  Permutation (concat [[3; 4]; []; [1; 2]]) (map Z.succ (zrange (5 - 1))) /\ weak_order (fun _ => True) Z.ltb.
Proof.
  split; [reflexivity|]. split; [apply (Permutation_app_comm [3; 4] [1; 2])|].
  split; [intros; apply Z.ltb_irrefl|]. split.
  - intros x y _ _. rewrite Z.ltb_lt, Z.ltb_ge. lia.
  - intros x y z _ _ _. rewrite !Z.ltb_ge. lia.
Qed.
