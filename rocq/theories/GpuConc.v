(** * GpuConc: execution of GPU kernels.

    A kernel is launched on a grid of blocks of threads.  A thread is a program
    that performs one read, one write or one atomic addition at a time; before
    every access the scheduler picks any thread of any block.  [__syncthreads]
    separates a thread into phases: a thread starts its next phase when all
    threads of its own block have finished the current one; threads of other
    blocks are not waited for.  Memory is sequentially consistent
    (simplification: the hardware guarantees less). *)
From Coq Require Import List ZArith Lia Bool Permutation.
From Verif Require Import Base Heap Conc.
Import ListNotations.
Open Scope Z_scope.

Inductive aprog (T : Type) : Type :=
| ADone
| ARd (a : Z) (k : T -> aprog T)
| AWr (a : Z) (v : T) (k : aprog T)
| AAdd (a : Z) (v : T) (k : aprog T).
Arguments ADone {T}.
Arguments ARd {T} a k.
Arguments AWr {T} a v k.
Arguments AAdd {T} a v k.

Fixpoint aseq {T} (p q : aprog T) : aprog T :=
  match p with
  | ADone => q
  | ARd a k => ARd a (fun v => aseq (k v) q)
  | AWr a v k => AWr a v (aseq k q)
  | AAdd a v k => AAdd a v (aseq k q)
  end.

(** A program without atomic accesses, followed by [k]. *)
Fixpoint alift {T A} (p : prog T A) (k : A -> aprog T) : aprog T :=
  match p with
  | PRet x => k x
  | PRd a f => ARd a (fun v => alift (f v) k)
  | PWr a v f => AWr a v (alift f k)
  end.

Definition aloop {T X} (l : list X) (f : X -> aprog T) : aprog T := fold_right (fun x r => aseq (f x) r) ADone l.

Section Steps.
  Context {O : Ops}.
  Notation T := (car O).

  Inductive astep : aprog T * heap T -> aprog T * heap T -> Prop :=
  | as_rd : forall a k h v, h a = Some v -> astep (ARd a k, h) (k v, h)
  | as_wr : forall a v k h w, h a = Some w -> astep (AWr a v k, h) (k, upd h a v)
  | as_add : forall a v k h w, h a = Some w -> astep (AAdd a v k, h) (k, upd h a (oadd w v)).

  (** The next access of the program is to an unallocated cell. *)
  Definition afault (p : aprog T) (h : heap T) : Prop :=
    match p with ADone => False | ARd a _ | AWr a _ _ | AAdd a _ _ => h a = None end.

  (** *** A pool of threads *)
  Inductive apstep : list (aprog T) * heap T -> list (aprog T) * heap T -> Prop :=
  | aps : forall l p r h p' h', astep (p, h) (p', h') -> apstep (l ++ p :: r, h) (l ++ p' :: r, h').
  Inductive apsteps : list (aprog T) * heap T -> list (aprog T) * heap T -> Prop :=
  | apss_refl : forall s, apsteps s s
  | apss_step : forall s t u, apstep s t -> apsteps t u -> apsteps s u.
  Definition apdone (ps : list (aprog T)) : Prop := Forall (fun p => p = ADone) ps.
  Definition apfault (ps : list (aprog T)) (h : heap T) : Prop := Exists (fun p => afault p h) ps.

  Definition apool_spec (ps : list (aprog T)) (h : heap T) (Q : heap T -> Prop) : Prop :=
    (forall ps' h', apsteps (ps, h) (ps', h') -> ~ apfault ps' h' /\ (apdone ps' -> Q h')).

  (** *** A grid of blocks; a thread is the list of its remaining phases. *)
  Definition gthread := list (aprog T).
  Definition gblock := list gthread.
  Definition grid := list gblock.

  (** All threads of the block are at the end of a phase that is not their last. *)
  Definition at_barrier (b : gblock) : Prop :=
    b <> [] /\ Forall (fun th : gthread => exists p ps, th = ADone :: p :: ps) b.

  Inductive gstep : grid * heap T -> grid * heap T -> Prop :=
  | gs_run : forall B1 l p ps r B2 h p' h', astep (p, h) (p', h') ->
      gstep (B1 ++ (l ++ (p :: ps) :: r) :: B2, h) (B1 ++ (l ++ (p' :: ps) :: r) :: B2, h')
  | gs_bar : forall B1 b B2 h, at_barrier b -> gstep (B1 ++ b :: B2, h) (B1 ++ map (@tl _) b :: B2, h).
  Inductive gsteps : grid * heap T -> grid * heap T -> Prop :=
  | gss_refl : forall s, gsteps s s
  | gss_step : forall s t u, gstep s t -> gsteps t u -> gsteps s u.
  Definition gdone (g : grid) : Prop := Forall (Forall (fun th : gthread => th = [ADone])) g.
  Definition gfault (g : grid) (h : heap T) : Prop :=
    Exists (Exists (fun th : gthread => match th with [] => False | p :: _ => afault p h end)) g.

  (** The grid started in [h] always ends in a memory satisfying [Q]: no
      schedule leads to an access to unallocated memory, every unfinished
      schedule can be continued, there is no infinite schedule, and all final
      memories satisfy [Q]. *)
  Definition grid_spec (g : grid) (h : heap T) (Q : heap T -> Prop) : Prop :=
    (forall g' h', gsteps (g, h) (g', h') ->
       ~ gfault g' h' /\ (gdone g' \/ exists s, gstep (g', h') s) /\ (gdone g' -> Q h'))
    /\ Acc (fun s t => gstep t s) (g, h).

  (** ** Pools *)
  Lemma apsteps_trans : forall s t u, apsteps s t -> apsteps t u -> apsteps s u.
  Proof. intros s t u H. induction H; auto. intros Hu. econstructor; eauto. Qed.
  Lemma gsteps_trans : forall s t u, gsteps s t -> gsteps t u -> gsteps s u.
  Proof. intros s t u H. induction H; auto. intros Hu. econstructor; eauto. Qed.

  Lemma apool_weaken : forall ps h (Q Q' : heap T -> Prop), (forall h', Q h' -> Q' h') -> apool_spec ps h Q -> apool_spec ps h Q'.
  Proof. intros ps h Q Q' HQ H ps' h' Hs. destruct (H ps' h' Hs). auto. Qed.
  Lemma grid_weaken : forall g h (Q Q' : heap T -> Prop), (forall h', Q h' -> Q' h') -> grid_spec g h Q -> grid_spec g h Q'.
  Proof. intros g h Q Q' HQ (H & HA). split; auto. intros g' h' Hs. destruct (H g' h' Hs) as (? & ? & ?). auto. Qed.

  Lemma apool_inv : forall (I : list (aprog T) -> heap T -> Prop) (Q : heap T -> Prop) ps h,
    I ps h ->
    (forall ps h, I ps h -> ~ apfault ps h) ->
    (forall l p r h p' h', I (l ++ p :: r) h -> astep (p, h) (p', h') -> I (l ++ p' :: r) h') ->
    (forall ps h, I ps h -> apdone ps -> Q h) ->
    apool_spec ps h Q.
  Proof.
    intros I Q ps h H0 HF HS HQ ps' h' Hst.
    assert (HI : I ps' h').
    { remember (ps, h) as s eqn:Es. remember (ps', h') as s' eqn:Es'. revert ps h Es H0.
      induction Hst as [s|s t u Hs Hst IH]; intros ps h Es H0.
      - subst. injection Es as -> ->. auto.
      - subst. inversion Hs; subst. eapply (IH eq_refl); [reflexivity|]. eapply HS; eauto. }
    split; [eauto|]. intros; eapply HQ; eauto.
  Qed.

  (** A pool started at [ps] and a state reached from it. *)
  Lemma apool_reached : forall ps h Q ps' h', apool_spec ps h Q -> apsteps (ps, h) (ps', h') -> apool_spec ps' h' Q.
  Proof. intros ps h Q ps' h' H Hs ps2 h2 Hs2. apply H. eapply apsteps_trans; eauto. Qed.

  (** ** Programs without atomic accesses *)
  Definition lift1 (p : prog T unit) : aprog T := alift p (fun _ => ADone).

  Lemma replace_app : forall A (l : list A) x y r, replace (length l) y (l ++ x :: r) = l ++ y :: r.
  Proof. induction l; intros; simpl; auto. now rewrite IHl. Qed.

  Lemma psteps_trans : forall s t u : list (prog T unit) * heap T, psteps s t -> psteps t u -> psteps s u.
  Proof. intros s t u H. induction H; auto. intros Hu. econstructor; eauto. Qed.

  Lemma lift_pool : forall (ps : list (prog T unit)) h Q, par_spec ps h Q -> apool_spec (map lift1 ps) h Q.
  Proof.
    intros ps h Q (H & _).
    apply apool_inv with (I := fun qs h' => exists ps', qs = map lift1 ps' /\ psteps (ps, h) (ps', h')).
    - exists ps. split; auto. constructor.
    - intros qs h' (ps' & -> & Hs) HF. apply (proj1 (H ps' h' Hs)).
      apply Exists_exists in HF as (q & Hq & Hf). apply in_map_iff in Hq as (p & <- & Hp).
      apply In_nth_error in Hp as (i & Hi). exists i. destruct p as [x|a k|a v k]; simpl in Hf; [contradiction|left|right]; eauto.
    - intros l q r h' q' h'' (ps' & E & Hs) Hst.
      symmetry in E. apply map_eq_app in E as (l1 & r1 & -> & E1 & E2). 
      destruct r1 as [|p r1]; simpl in E2; [discriminate|]. injection E2 as E3 E4.
      assert (Hn : nth_error (l1 ++ p :: r1) (length l1) = Some p)
        by (rewrite nth_error_app2 by lia; replace (length l1 - length l1)%nat with 0%nat by lia; reflexivity).
      destruct p as [x|a k|a v k]; unfold lift1 in E3; simpl in E3; subst q; inversion Hst; subst.
      + exists (l1 ++ k v :: r1). split; [rewrite map_app; reflexivity|].
        eapply psteps_trans; [exact Hs|]. econstructor; [|constructor].
        rewrite <- (replace_app _ l1 (PRd a k) (k v) r1). eapply ps_rd; eauto.
      + exists (l1 ++ k :: r1). split; [rewrite map_app; reflexivity|].
        eapply psteps_trans; [exact Hs|]. econstructor; [|constructor].
        rewrite <- (replace_app _ l1 (PWr a v k) k r1). eapply ps_wr; eauto.
    - intros qs h' (ps' & -> & Hs) HD. apply (H ps' h' Hs). unfold pdone. apply Forall_forall. intros p Hp.
      unfold apdone in HD. rewrite Forall_forall in HD. specialize (HD (lift1 p) (in_map _ _ _ Hp)).
      destruct p as [[]|a k|a v k]; auto; discriminate.
  Qed.


  (** ** Grids as pools: barriers only restrict the schedules *)
  Fixpoint join (th : gthread) : aprog T :=
    match th with [] => ADone | p :: r => match r with [] => p | _ :: _ => aseq p (join r) end end.
  Definition flat (g : grid) : list (aprog T) := concat (map (map join) g).

  (** Threads of a block have the same number of phases, at least one. *)
  Definition block_ok (b : gblock) : Prop := exists n, Forall (fun th : gthread => length th = S n) b.
  Definition grid_ok (g : grid) : Prop := Forall block_ok g.

  Lemma aseq_done : forall p : aprog T, aseq ADone p = p. Proof. reflexivity. Qed.
  Lemma astep_seq : forall p h p' h' q, astep (p, h) (p', h') -> astep (aseq p q, h) (aseq p' q, h').
  Proof.
    intros p h p' h' q H. inversion H; subst; simpl.
    - exact (as_rd a (fun v => aseq (k v) q) _ v H1).
    - econstructor; eauto.
    - econstructor; eauto.
  Qed.

  Lemma flat_app : forall g1 b g2, flat (g1 ++ b :: g2) = flat g1 ++ map join b ++ flat g2.
  Proof. intros. unfold flat. rewrite map_app, concat_app. reflexivity. Qed.

  Lemma gstep_flat : forall g h g' h', gstep (g, h) (g', h') ->
    apstep (flat g, h) (flat g', h') \/
    (h' = h /\ flat g' = flat g /\ (list_sum (map (fun b => list_sum (map (@length _) b)) g') < list_sum (map (fun b => list_sum (map (@length _) b)) g))%nat).
  Proof.
    intros g h g' h' H. inversion H as [B1 l p ps r B2 h0 p' h0' Hs E1 E2|B1 b B2 h0 Hbar E1 E2]; subst.
    - left. rewrite !flat_app, !map_app. cbn [map]. rewrite <- !app_assoc, !(app_assoc (flat B1)). cbn [app]. constructor. destruct ps; [exact Hs|]. now apply astep_seq.
    - right. split; auto. destruct Hbar as (Hne & Hb). rewrite !flat_app.
      assert (E : map join (map (@tl _) b) = map join b).
      { rewrite map_map. apply map_ext_in. intros th Hth. rewrite Forall_forall in Hb.
        destruct (Hb th Hth) as (p & ps & ->). reflexivity. }
      rewrite E. split; auto. rewrite !map_app, !list_sum_app. simpl.
      enough (list_sum (map (@length _) (map (@tl _) b)) < list_sum (map (@length _) b))%nat by lia.
      clear - Hne Hb. destruct b as [|th b]; [congruence|]. inversion Hb as [|? ? (p & ps & ->) Hb']; subst. simpl.
      enough (list_sum (map (@length _) (map (@tl _) b)) <= list_sum (map (@length _) b))%nat by lia.
      clear. induction b as [|th b IH]; simpl; auto. destruct th; simpl; lia.
  Qed.

  Lemma gstep_ok : forall g h g' h', grid_ok g -> gstep (g, h) (g', h') -> grid_ok g'.
  Proof.
    intros g h g' h' Hg H. unfold grid_ok in *.
    inversion H as [B1 l p ps r B2 h0 p' h0' Hs E1 E2|B1 b B2 h0 Hbar E1 E2]; subst;
      apply Forall_app in Hg as (H1 & H2); inversion H2 as [|? ? (n & Hn) H4]; subst;
      apply Forall_app; split; auto; constructor; auto.
    - exists n. apply Forall_app in Hn as (H5 & H6). inversion H6; subst. apply Forall_app. split; auto.
    - destruct Hbar as (Hne & Hb). destruct b as [|th b]; [congruence|].
      assert (E := Forall_inv Hb). destruct E as (p & ps & E). assert (E2 := Forall_inv Hn). rewrite E in E2. simpl in E2.
      exists (length ps). apply Forall_map. rewrite Forall_forall in *. intros t Ht. specialize (Hn t Ht). destruct t; simpl in *; lia.
  Qed.

  Lemma gsteps_flat : forall s s', gsteps s s' -> grid_ok (fst s) ->
    grid_ok (fst s') /\ apsteps (flat (fst s), snd s) (flat (fst s'), snd s').
  Proof.
    intros s s' H. induction H as [s|[g h] [g1 h1] u Hs Hss IH]; intros Hok; [split; auto; constructor|]. simpl in *.
    assert (Hok1 := gstep_ok _ _ _ _ Hok Hs). destruct (IH Hok1) as (H1 & H2). split; auto.
    destruct (gstep_flat _ _ _ _ Hs) as [Hst|(-> & E & _)]; [econstructor; eauto|]. now rewrite <- E.
  Qed.

  (** Executions of a pool, and of a grid, are finite. *)
  Lemma apool_terminates : forall ps h, Acc (fun s t => apstep t s) (ps, h).
  Proof.
    set (sub := fun (q p : aprog T) =>
       match p with ADone => False | ARd _ k => exists v, q = k v | AWr _ _ k => q = k | AAdd _ _ k => q = k end).
    assert (Wsub : forall p, Acc sub p).
    { induction p as [|a k IH|a v k IH|a v k IH]; constructor; simpl.
      - intros y [].
      - intros y (v & ->). auto.
      - intros y ->. auto.
      - intros y ->. auto. }
    set (psub := fun (qs ps : list (aprog T)) =>
       exists l p r q, ps = l ++ p :: r /\ sub q p /\ qs = l ++ q :: r).
    assert (Wp : forall ps, Acc psub ps).
    { induction ps as [|p ps IH].
      - constructor. intros qs (l & p & r & q & H & _). destruct l; discriminate.
      - specialize (Wsub p). revert ps IH. induction Wsub as [p _ IHp]. intros ps IH.
        induction IH as [ps Hps IHps].
        constructor. intros qs (l & p' & r & q & E & Hs & ->). destruct l as [|p0 l]; simpl in *.
        + injection E as -> ->. apply IHp; auto. constructor. auto.
        + injection E as <- E. apply IHps. exists l, p', r, q. auto. }
    intros ps. specialize (Wp ps). induction Wp as [ps _ IH]. intros h.
    constructor. intros [ps' h'] Hs. inversion Hs as [l p r h0 p' h0' Hst E1 E2]; subst. apply IH. exists l, p, r, p'. repeat split; auto.
    inversion Hst; subst; simpl; eauto.
  Qed.

  Lemma grid_terminates : forall g h, Acc (fun s t => gstep t s) (g, h).
  Proof.
    intros g h.
    assert (W := apool_terminates (flat g) h). remember (flat g, h) as s eqn:Es. revert g h Es.
    induction W as [s _ IH]. intros g h ->.
    remember (list_sum (map (fun b => list_sum (map (@length _) b)) g)) as n eqn:En. revert g h En IH.
    induction n as [n IHn] using lt_wf_ind. intros g h En IH. constructor. intros [g' h'] Hs.
    destruct (gstep_flat _ _ _ _ Hs) as [Hst|(-> & E & Hlt)].
    - eapply IH; [exact Hst|reflexivity].
    - eapply IHn; [|reflexivity|]; [lia|]. rewrite E. exact IH.
  Qed.

  Lemma aprog_dec : forall (p : aprog T) h, p = ADone \/ afault p h \/ exists p' h', astep (p, h) (p', h').
  Proof.
    intros [|a k|a v k|a v k] h; auto; right; simpl; destruct (h a) eqn:E; auto; right; do 2 eexists; econstructor; eauto.
  Qed.

  Lemma grid_progress : forall g h, grid_ok g -> gdone g \/ gfault g h \/ exists s, gstep (g, h) s.
  Proof.
    intros g h Hg.
    assert (HB : forall b, block_ok b -> Forall (fun th : gthread => th = [ADone]) b \/ at_barrier b \/
        exists l p ps r, b = l ++ (p :: ps) :: r /\ p <> ADone).
    { intros b (n & Hn).
      assert (D : Forall (fun th : gthread => exists ps, th = ADone :: ps) b \/ exists l p ps r, b = l ++ (p :: ps) :: r /\ p <> ADone).
      { induction b as [|th b IH]; [left; constructor|]. inversion Hn as [|? ? HX1 H2]; subst. destruct th as [|p ps]; [discriminate|].
        destruct p as [|a k|a v k|a v k].
        2-4: right; exists []; do 3 eexists; split; [reflexivity|discriminate].
        destruct (IH H2) as [H|(l & p & ps' & r & -> & Hp)]; [left; constructor; eauto|].
        right. exists ((ADone :: ps) :: l), p, ps', r. auto. }
      destruct D as [D|D]; auto. destruct n as [|n].
      - left. rewrite Forall_forall in *. intros th Hth. destruct (D th Hth) as (ps & ->). specialize (Hn _ Hth). simpl in Hn.
        destruct ps; [auto|simpl in Hn; lia].
      - destruct b as [|th b]; [left; constructor|]. right; left. split; [discriminate|].
        rewrite Forall_forall in *. intros t Ht. destruct (D t Ht) as (ps & ->). specialize (Hn _ Ht). simpl in Hn.
        destruct ps; [simpl in Hn; lia|eauto]. }
    induction g as [|b g IH]; [left; constructor|]. inversion Hg as [|? ? H1 H2]; subst.
    destruct (HB b H1) as [Hd|[Hb|(l & p & ps & r & -> & Hp)]].
    - destruct (IH H2) as [H|[H|([g' h'] & H)]].
      + left. constructor; auto.
      + right; left. apply Exists_cons_tl. auto.
      + right; right. inversion H; subst.
        * eexists. apply (gs_run (b :: B1)). eauto.
        * eexists. apply (gs_bar (b :: B1)). eauto.
    - right; right. eexists. apply (gs_bar []). auto.
    - destruct (aprog_dec p h) as [->|[Hf|(p' & h' & Hs)]]; [congruence| |].
      + right; left. apply Exists_cons_hd. apply Exists_app. right. apply Exists_cons_hd. auto.
      + right; right. eexists. apply (gs_run []). eauto.
  Qed.

  Lemma join_fault : forall p (ps : gthread) h, afault p h -> afault (join (p :: ps)) h.
  Proof. intros [|a k|a v k|a v k] [|q ps] h; simpl; auto; contradiction. Qed.

  Theorem grid_of_pool : forall g h Q, grid_ok g -> apool_spec (flat g) h Q -> grid_spec g h Q.
  Proof.
    intros g h Q Hg H. split; [|apply grid_terminates]. intros g' h' Hs.
    destruct (gsteps_flat _ _ Hs Hg) as (Hg' & Hf). simpl in *. destruct (H _ _ Hf) as (HF & HQ).
    assert (NF : ~ gfault g' h').
    { intros X. apply HF. apply Exists_exists in X as (b & Hb & X). apply Exists_exists in X as (th & Hth & X).
      apply Exists_exists. exists (join th). split.
      - apply in_concat. exists (map join b). split; apply in_map; auto.
      - destruct th; [contradiction|]. now apply join_fault. }
    split; auto. split.
    - destruct (grid_progress g' h' Hg') as [D|[D|D]]; auto. contradiction.
    - intros HD. apply HQ. unfold apdone, flat. apply Forall_forall. intros p Hp. apply in_concat in Hp as (l & Hl & Hp).
      apply in_map_iff in Hl as (b & <- & Hb). apply in_map_iff in Hp as (th & <- & Hth).
      unfold gdone in HD. rewrite Forall_forall in HD. specialize (HD b Hb). rewrite Forall_forall in HD. now rewrite (HD th Hth).
  Qed.

  (** ** One block: the barrier separates the phases *)
  Definition one_block {X} (ids : list X) (phases : list (X -> aprog T)) : grid := [map (fun x => map (fun f => f x) phases) ids].

  Fixpoint phases_spec {X} (ids : list X) (phases : list (X -> aprog T)) (h : heap T) (Q : heap T -> Prop) : Prop :=
    match phases with
    | [] => Q h
    | f :: r => apool_spec (map f ids) h (fun h' => phases_spec ids r h' Q)
    end.

  Definition zipp {X} (ids : list X) (ps : list (aprog T)) (r : list (X -> aprog T)) : gblock :=
    map (fun q => fst q :: map (fun f => f (snd q)) r) (combine ps ids).

  Lemma one_block_spec : forall X (ids : list X) (phases : list (X -> aprog T)) h Q,
    ids <> [] -> phases <> [] -> phases_spec ids phases h Q -> grid_spec (one_block ids phases) h Q.
  Proof.
    intros X ids phases h Q Hids Hne HS. split; [|apply grid_terminates].
    assert (Inv : forall s s', gsteps s s' -> forall ps r h, s = ([zipp ids ps r], h) -> length ps = length ids ->
       apool_spec ps h (fun h' => phases_spec ids r h' Q) ->
       exists ps' r' h', s' = ([zipp ids ps' r'], h') /\ length ps' = length ids /\ apool_spec ps' h' (fun h' => phases_spec ids r' h' Q)).
    { intros s s' Hst. induction Hst as [s|s t u Hs Hst IH]; intros ps r h0 Es HL HP; [eauto 10|].
      subst s. inversion Hs as [B1 l p ps0 r0 B2 h1 p' h' Hst1 H E2|B1 b B2 h1 Hbar H E2]; subst.
      - (* a thread runs *)
        destruct B1 as [|b1 B1]; [|destruct B1; discriminate]. simpl in H. injection H as H HB. subst B2.
        unfold zipp in H. symmetry in H. apply map_eq_app in H as (c1 & c2 & E & E1 & E2). destruct c2 as [|[q x] c2]; [discriminate|].
        simpl in E2. injection E2 as E3 E4 E5. subst p ps0 l r0.
        assert (Ep : exists p1 p2, ps = p1 ++ q :: p2 /\ length p1 = length c1).
        { assert (Ef : map fst (combine ps ids) = ps).
          { clear - HL. revert ids HL. induction ps as [|p ps IH]; intros [|i ids] HL; simpl in *; try discriminate; auto. f_equal. auto. }
          rewrite E, map_app in Ef. exists (map fst c1), (map fst c2). split; [symmetry; exact Ef|apply map_length]. }
        destruct Ep as (p1 & p2 & -> & Lp).
        assert (Er : combine (p1 ++ p' :: p2) ids = c1 ++ (p', x) :: c2).
        { clear - E Lp. revert ids c1 E Lp. induction p1 as [|a p1 IH]; intros [|i ids] [|b c1] E Lp; simpl in *; try discriminate.
          - injection E as -> ->. reflexivity.
          - injection E as -> E. f_equal. apply IH; auto. }
        eapply (IH (p1 ++ p' :: p2) r h').
        + unfold zipp. rewrite Er, map_app. reflexivity.
        + rewrite app_length in *. simpl in *. lia.
        + eapply apool_reached; [exact HP|]. econstructor; [|constructor]. constructor. auto.
      - (* the barrier *)
        destruct B1 as [|b1 B1]; [|destruct B1; discriminate]. simpl in H. injection H as -> ->.
        destruct Hbar as (_ & Hb).
        destruct r as [|f r].
        { exfalso. unfold zipp in Hb. destruct ids as [|x ids]; [congruence|]. destruct ps as [|p ps]; [discriminate|]. simpl in Hb.
          inversion Hb as [|? ? (a & b & E) ?]; discriminate. }
        assert (HD : apdone ps).
        { unfold apdone. clear - Hb HL. revert ids HL Hb. induction ps as [|p ps IH]; intros [|i ids] HL Hb; simpl in *; try discriminate; constructor.
          - inversion Hb as [|? ? (a & b & E) ?]; subst. injection E as -> _ _. auto.
          - inversion Hb; subst. eapply (IH ids); auto. }
        assert (HP2 := proj2 (HP ps h0 (apss_refl _)) HD). simpl in HP2.
        eapply (IH (map f ids) r h0).
        + unfold zipp. rewrite map_map. simpl. f_equal. f_equal. clear - HL. revert ids HL.
          induction ps as [|p ps IH]; intros [|i ids] HL; simpl in *; try discriminate; auto. f_equal. auto.
        + apply map_length.
        + exact HP2. }
    destruct phases as [|f0 phases]; [congruence|]. simpl in HS.
    assert (E0 : one_block ids (f0 :: phases) = [zipp ids (map f0 ids) phases]).
    { unfold one_block, zipp. f_equal. clear. induction ids as [|x ids IH]; simpl; auto. f_equal. auto. }
    intros g' h' Hst.
    destruct (Inv _ _ Hst (map f0 ids) phases h) as (ps' & r' & h2 & E & HL & HP).
    { now rewrite E0. } { apply map_length. } { exact HS. }
    injection E as -> ->. destruct (HP _ _ (apss_refl _)) as (NF & HQ).
    assert (Hok : grid_ok [zipp ids ps' r']).
    { constructor; [|constructor]. exists (length r'). unfold zipp. apply Forall_map, Forall_forall. intros [p x] _. simpl. now rewrite map_length. }
    assert (NG : ~ gfault [zipp ids ps' r'] h2).
    { intros G. apply NF. unfold gfault in G. inversion G as [? ? G1|? ? G1]; subst; [|inversion G1].
      apply Exists_exists in G1 as (th & Hth & G1). unfold zipp in Hth. apply in_map_iff in Hth as ((p & x) & <- & Hpx). simpl in G1.
      apply Exists_exists. exists p. split; auto. now apply in_combine_l in Hpx. }
    split; auto. split.
    - destruct (grid_progress _ h2 Hok) as [D|[D|D]]; auto. contradiction.
    - intros HD. inversion HD as [|? ? HD1 _]; subst. unfold zipp in HD1.
      destruct r' as [|f r'].
      + apply HQ. unfold apdone. clear - HD1 HL. revert ids HL HD1.
        induction ps' as [|p ps IH]; intros [|i ids] HL HD1; simpl in *; try discriminate; constructor; inversion HD1; subst.
        * congruence.
        * eapply (IH ids); auto.
      + exfalso. destruct ids as [|x ids]; [congruence|]. destruct ps' as [|p ps]; [discriminate|]. simpl in HD1. inversion HD1; discriminate.
  Qed.
End Steps.
