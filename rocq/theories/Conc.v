(** * Conc: small programs over memory, their sequential runs, and their
      parallel execution with arbitrary interleaving of single memory accesses.

    An OpenMP parallel loop is modelled as a pool of threads; each thread is a
    program that performs one read or one write at a time, and the scheduler
    picks any runnable thread before every access. *)
From Coq Require Import List ZArith Lia Bool Permutation.
From Verif Require Import Base Heap.
Import ListNotations.
Open Scope Z_scope.

(** Program: return a value, read a cell and continue, or write a cell and continue. *)
Inductive prog (T A : Type) : Type :=
| PRet (x : A)
| PRd (a : Z) (k : T -> prog T A)
| PWr (a : Z) (v : T) (k : prog T A).
Arguments PRet {T A} x.
Arguments PRd {T A} a k.
Arguments PWr {T A} a v k.

Fixpoint pbind {T A B} (p : prog T A) (f : A -> prog T B) : prog T B :=
  match p with
  | PRet x => f x
  | PRd a k => PRd a (fun v => pbind (k v) f)
  | PWr a v k => PWr a v (pbind k f)
  end.

(** Run a list of programs one after the other. *)
Fixpoint pseq {T X} (l : list X) (f : X -> prog T unit) : prog T unit :=
  match l with
  | [] => PRet tt
  | x :: r => pbind (f x) (fun _ => pseq r f)
  end.

(** Loop threading an accumulator. *)
Fixpoint pfold {T X S} (l : list X) (f : S -> X -> prog T S) (s : S) : prog T S :=
  match l with
  | [] => PRet s
  | x :: r => pbind (f s x) (fun s' => pfold r f s')
  end.

Definition pread {T} (a : Z) : prog T T := PRd a (fun v => PRet v).
Definition pwrite {T} (a : Z) (v : T) : prog T unit := PWr a v (PRet tt).

(** Sequential run; access to an unallocated cell is undefined behaviour. *)
Fixpoint run {T A} (p : prog T A) (h : heap T) : res (A * heap T) :=
  match p with
  | PRet x => Ok (x, h)
  | PRd a k => match h a with Some v => run (k v) h | None => UB end
  | PWr a v k => match h a with Some _ => run k (upd h a v) | None => UB end
  end.

(** Replace the [i]-th element of a list. *)
Fixpoint replace {A} (i : nat) (x : A) (l : list A) : list A :=
  match i, l with
  | O, _ :: r => x :: r
  | S j, y :: r => y :: replace j x r
  | _, [] => []
  end.

(** One step of a pool of threads: any thread performs its next access. *)
Inductive pstep {T} : list (prog T unit) * heap T -> list (prog T unit) * heap T -> Prop :=
| ps_rd : forall ps h i a k v, nth_error ps i = Some (PRd a k) -> h a = Some v ->
    pstep (ps, h) (replace i (k v) ps, h)
| ps_wr : forall ps h i a v k w, nth_error ps i = Some (PWr a v k) -> h a = Some w ->
    pstep (ps, h) (replace i k ps, upd h a v).

Inductive psteps {T} : list (prog T unit) * heap T -> list (prog T unit) * heap T -> Prop :=
| pss_refl : forall s, psteps s s
| pss_step : forall s t u, pstep s t -> psteps t u -> psteps s u.

(** All threads have finished. *)
Definition pdone {T} (ps : list (prog T unit)) : Prop := Forall (fun p => p = PRet tt) ps.

(** Some thread is about to access an unallocated cell. *)
Definition pfault {T} (ps : list (prog T unit)) (h : heap T) : Prop :=
  exists i, (exists a k, nth_error ps i = Some (PRd a k) /\ h a = None) \/
            (exists a v k, nth_error ps i = Some (PWr a v k) /\ h a = None).

(** The pool started in [h] always ends in a memory satisfying [Q]: no
    execution faults, every execution can be continued until all threads are
    done, there is no infinite execution, and all final memories satisfy [Q]. *)
Definition par_spec {T} (ps : list (prog T unit)) (h : heap T) (Q : heap T -> Prop) : Prop :=
  (forall ps' h', psteps (ps, h) (ps', h') ->
     ~ pfault ps' h' /\ (pdone ps' \/ exists s, pstep (ps', h') s) /\ (pdone ps' -> Q h'))
  /\ Acc (fun s t => pstep t s) (ps, h).

(** ** Sequential reasoning *)

Lemma run_bind : forall T A B (p : prog T A) (f : A -> prog T B) h,
  run (pbind p f) h = match run p h with Ok (x, h') => run (f x) h' | Throw => Throw | UB => UB end.
Proof.
  induction p as [x|a k IH|a v k IH]; intros f h; simpl; auto.
  - destruct (h a); auto.
  - destruct (h a); auto.
Qed.

Lemma run_pseq_forM : forall T X (l : list X) (f : X -> prog T unit) h,
  run (pseq l f) h =
  match forM l (fun x h => match run (f x) h with Ok (_, h') => Ok h' | Throw => Throw | UB => UB end) h
  with Ok h' => Ok (tt, h') | Throw => Throw | UB => UB end.
Proof.
  induction l as [|x l IH]; intros f h; simpl; auto.
  rewrite run_bind. destruct (run (f x) h) as [[u h']| |]; simpl; auto.
Qed.

(** ** Footprints *)

(** [psafe own shared p h]: running [p] from [h] reads only [own]ed or [shared]
    allocated cells, writes only owned allocated cells. *)
Fixpoint psafe {T A} (own shared : Z -> Prop) (p : prog T A) (h : heap T) : Prop :=
  match p with
  | PRet _ => True
  | PRd a k => (own a \/ shared a) /\ exists v, h a = Some v /\ psafe own shared (k v) h
  | PWr a v k => own a /\ (exists w, h a = Some w) /\ psafe own shared k (upd h a v)
  end.

Lemma psafe_bind : forall T A B own shared (p : prog T A) (f : A -> prog T B) h,
  psafe own shared (pbind p f) h <->
  psafe own shared p h /\ (forall x h', run p h = Ok (x, h') -> psafe own shared (f x) h').
Proof.
  induction p as [x|a k IH|a v k IH]; intros f h; simpl.
  - split.
    + intros H; split; auto. intros y h' E. injection E as <- <-. auto.
    + intros (_ & H). auto.
  - split.
    + intros (Ho & v & Hv & H). rewrite Hv. apply IH in H as (H1 & H2).
      split; eauto.
    + intros ((Ho & v & Hv & H) & H2). rewrite Hv in H2. split; auto.
      exists v. split; auto. apply IH. auto.
  - split.
    + intros (Ho & (w & Hw) & H). rewrite Hw. apply IH in H as (H1 & H2). split; eauto.
    + intros ((Ho & (w & Hw) & H) & H2). rewrite Hw in H2. repeat split; eauto.
      apply IH. auto.
Qed.

Lemma psafe_run : forall T A own shared (p : prog T A) h, psafe own shared p h ->
  exists x h', run p h = Ok (x, h') /\
    (forall a, ~ own a -> h' a = h a) /\ (forall a, h a <> None -> h' a <> None).
Proof.
  induction p as [x|a k IH|a v k IH]; intros h; simpl.
  - intros _. exists x, h. auto.
  - intros (_ & v & Hv & H). rewrite Hv. eauto.
  - intros (Ho & (w & Hw) & H). rewrite Hw. destruct (IH _ H) as (x & h' & E & Hf & Hn).
    exists x, h'. repeat split; auto.
    + intros b Hb. rewrite Hf by auto. apply upd_other. intros ->. auto.
    + intros b Hb. apply Hn. unfold upd. destruct (b =? a); congruence.
Qed.

Lemma psafe_mono : forall T A (own own' shared shared' : Z -> Prop) (p : prog T A) h,
  (forall a, own a -> own' a) -> (forall a, shared a -> shared' a \/ own' a) ->
  psafe own shared p h -> psafe own' shared' p h.
Proof.
  induction p as [x|a k IH|a v k IH]; intros h Ho Hs; simpl; auto.
  - intros (Hor & v & Hv & H). split; [firstorder|]. exists v. split; auto.
  - intros (H1 & H2 & H3). auto.
Qed.

(** Behaviour depends only on the owned and shared cells. *)
Lemma psafe_ext : forall T A own shared (p : prog T A) h g,
  (forall a, own a \/ shared a -> h a = g a) -> psafe own shared p h -> psafe own shared p g.
Proof.
  induction p as [x|a k IH|a v k IH]; intros h g E; simpl; auto.
  - intros (Ho & v & Hv & H). split; auto. exists v. rewrite <- E by auto. split; eauto.
  - intros (Ho & (w & Hw) & H). split; auto. rewrite <- E by auto. split; eauto.
    eapply IH; [|eauto]. intros b Hb. unfold upd. destruct (b =? a); auto.
Qed.

Lemma nth_error_replace_same : forall A (l : list A) i x y,
  nth_error l i = Some y -> nth_error (replace i x l) i = Some x.
Proof.
  induction l as [|z l IH]; intros [|i] x y H; simpl in *; try congruence; eauto.
Qed.

Lemma nth_error_replace_other : forall A (l : list A) i j x,
  i <> j -> nth_error (replace i x l) j = nth_error l j.
Proof.
  induction l as [|z l IH]; intros [|i] [|j] x H; simpl; auto; try congruence.
Qed.

(** ** Data-race freedom implies the sequential result *)
Section DRF.
  Context {T : Type} (own : nat -> Z -> Prop) (shared : Z -> Prop).
  Hypothesis own_disj : forall i j a, own i a -> own j a -> i = j.
  Hypothesis own_shared : forall i a, own i a -> ~ shared a.

  (** State invariant: every thread sees, on its own and the shared cells, the
      memory of its private sequential run. *)
  Definition pinv (ps0 : list (prog T unit)) (h0 : heap T) (ps : list (prog T unit)) (h : heap T) : Prop :=
    length ps = length ps0 /\
    (forall a, h0 a <> None -> h a <> None) /\
    (forall a, (forall i, (i < length ps0)%nat -> ~ own i a) -> h a = h0 a) /\
    forall i p0 p, nth_error ps0 i = Some p0 -> nth_error ps i = Some p ->
      exists g, psafe (own i) shared p g /\ run p g = run p0 h0 /\
        (forall a, own i a \/ shared a -> h a = g a).

  Lemma replace_length : forall A (l : list A) i x, length (replace i x l) = length l.
  Proof. induction l; intros [|i] x; simpl; auto. Qed.

  Lemma pinv_step : forall ps0 h0 s s', pinv ps0 h0 (fst s) (snd s) -> pstep s s' ->
    pinv ps0 h0 (fst s') (snd s').
  Proof.
    intros ps0 h0 s s' (HL & HN & HF & HI) Hs. destruct Hs as [ps h i a k v Hi Ha|ps h i a v k w Hi Ha]; simpl in *.
    - repeat split; auto; [rewrite replace_length; auto|].
      intros j p0 p H0 Hp. destruct (Nat.eq_dec i j) as [->|Hn].
      + rewrite (nth_error_replace_same _ _ _ _ _ Hi) in Hp. injection Hp as <-.
        destruct (HI j p0 _ H0 Hi) as (g & Hsafe & Hrun & Hg). simpl in *.
        destruct Hsafe as (Ho & v' & Hv' & Hsafe).
        assert (v' = v) by (rewrite (Hg a Ho) in Ha; congruence). subst v'.
        rewrite Hv' in Hrun. exists g. auto.
      + rewrite nth_error_replace_other in Hp by auto. eauto.
    - assert (Hlt : (i < length ps0)%nat).
      { rewrite <- HL. apply nth_error_Some. congruence. }
      destruct (nth_error ps0 i) as [p0i|] eqn:H0i; [|apply nth_error_None in H0i; lia].
      destruct (HI i p0i _ H0i Hi) as (g & Hsafe & Hrun & Hg). simpl in Hsafe, Hrun.
      destruct Hsafe as (Ho & (w' & Hw') & Hsafe). rewrite Hw' in Hrun.
      repeat split; auto.
      + rewrite replace_length; auto.
      + intros b Hb. unfold upd. destruct (b =? a); [congruence|auto].
      + intros b Hb. rewrite upd_other; auto. intros ->. apply (Hb i); auto.
      + intros j p0 p H0 Hp. destruct (Nat.eq_dec i j) as [->|Hn].
        * rewrite (nth_error_replace_same _ _ _ _ _ Hi) in Hp. injection Hp as <-.
          assert (p0 = p0i) by congruence. subst p0i.
          exists (upd g a v). repeat split; auto.
          intros b Hb. unfold upd. destruct (b =? a); auto.
        * rewrite nth_error_replace_other in Hp by auto.
          destruct (HI j p0 p H0 Hp) as (g' & S' & R' & G'). exists g'. repeat split; auto.
          intros b Hb. rewrite upd_other; auto. intros ->.
          destruct Hb as [Hb|Hb]; [apply Hn; eauto|eapply own_shared; eauto].
  Qed.

  Lemma pinv_steps : forall ps0 h0 s s', pinv ps0 h0 (fst s) (snd s) -> psteps s s' ->
    pinv ps0 h0 (fst s') (snd s').
  Proof. intros ps0 h0 s s' H Hs. induction Hs; auto. apply IHHs. eapply pinv_step; eauto. Qed.

  Lemma pinv_init : forall ps h,
    (forall i p, nth_error ps i = Some p -> psafe (own i) shared p h) -> pinv ps h ps h.
  Proof.
    intros ps h H. repeat split; auto. intros i p0 p H0 Hp.
    assert (p = p0) by congruence. subst. exists h. auto.
  Qed.

  Lemma pinv_nofault : forall ps0 h0 ps h, pinv ps0 h0 ps h -> ~ pfault ps h.
  Proof.
    intros ps0 h0 ps h (HL & _ & _ & HI) (i & [(a & k & Hi & Ha)|(a & v & k & Hi & Ha)]).
    - assert (Hlt : (i < length ps0)%nat) by (rewrite <- HL; apply nth_error_Some; congruence).
      destruct (nth_error ps0 i) as [p0|] eqn:E; [|apply nth_error_None in E; lia].
      destruct (HI i p0 _ E Hi) as (g & (Ho & v & Hv & _) & _ & Hg). rewrite Hg in Ha by auto. congruence.
    - assert (Hlt : (i < length ps0)%nat) by (rewrite <- HL; apply nth_error_Some; congruence).
      destruct (nth_error ps0 i) as [p0|] eqn:E; [|apply nth_error_None in E; lia].
      destruct (HI i p0 _ E Hi) as (g & (Ho & (w & Hw) & _) & _ & Hg). rewrite Hg in Ha by auto. congruence.
  Qed.
End DRF.

(** Every pool either is done, or faults, or can make a step. *)
Lemma pool_progress : forall T (ps : list (prog T unit)) h,
  pdone ps \/ pfault ps h \/ exists s, pstep (ps, h) s.
Proof.
  intros T ps h.
  assert (G : pdone ps \/ exists i p, nth_error ps i = Some p /\ p <> PRet tt).
  { induction ps as [|p ps IH]; [left; constructor|].
    destruct p as [[]|a k|a v k].
    - destruct IH as [IH|(i & p & Hi & Hp)]; [left; constructor; auto|right].
      exists (S i), p. auto.
    - right. exists 0%nat, (PRd a k). split; auto. discriminate.
    - right. exists 0%nat, (PWr a v k). split; auto. discriminate. }
  destruct G as [G|(i & p & Hi & Hp)]; auto. right.
  destruct p as [[]|a k|a v k]; [congruence| |].
  - destruct (h a) as [v|] eqn:E.
    + right. eexists. eapply ps_rd; eauto.
    + left. exists i. left. eauto.
  - destruct (h a) as [w|] eqn:E.
    + right. eexists. eapply ps_wr; eauto.
    + left. exists i. right. eauto.
Qed.

(** Executions are finite. *)
Lemma pool_terminates : forall T (ps : list (prog T unit)) h, Acc (fun s t => pstep t s) (ps, h).
Proof.
  intros T.
  (* order on pools: one thread is replaced by a direct continuation *)
  set (sub := fun (q p : prog T unit) =>
     match p with PRet _ => False | PRd _ k => exists v, q = k v | PWr _ _ k => q = k end).
  assert (Wsub : forall p, Acc sub p).
  { induction p as [x|a k IH|a v k IH]; constructor; simpl.
    - intros y [].
    - intros y (v & ->). auto.
    - intros y ->. auto. }
  set (psub := fun (qs ps : list (prog T unit)) =>
     exists i p q, nth_error ps i = Some p /\ sub q p /\ qs = replace i q ps).
  assert (Wp : forall ps, Acc psub ps).
  { induction ps as [|p ps IH].
    - constructor. intros qs (i & p & q & H & _). destruct i; discriminate.
    - specialize (Wsub p). revert ps IH. induction Wsub as [p _ IHp]. intros ps IH.
      induction IH as [ps Hps IHps].
      constructor. intros qs (i & p' & q & Hn & Hs & ->). destruct i as [|i]; simpl in *.
      + injection Hn as ->. apply IHp; auto. constructor. auto.
      + apply IHps. exists i, p', q. auto. }
  intros ps. specialize (Wp ps). induction Wp as [ps _ IH]. intros h.
  constructor. intros [ps' h'] Hs. inversion Hs; subst.
  - apply IH. exists i, (PRd a k), (k v). repeat split; auto. simpl. eauto.
  - apply IH. exists i, (PWr a v k), k. repeat split; auto.
Qed.

(** A pool of non-interfering threads: final memory = every thread's private
    sequential result on its own cells, initial memory elsewhere. *)
Theorem par_drf : forall T (own : nat -> Z -> Prop) (shared : Z -> Prop)
    (ps : list (prog T unit)) (h : heap T) (fin : nat -> heap T),
  (forall i j a, own i a -> own j a -> i = j) ->
  (forall i a, own i a -> ~ shared a) ->
  (forall i p, nth_error ps i = Some p -> psafe (own i) shared p h /\ run p h = Ok (tt, fin i)) ->
  par_spec ps h (fun h' =>
    (forall i a, (i < length ps)%nat -> own i a -> h' a = fin i a) /\
    (forall a, (forall i, (i < length ps)%nat -> ~ own i a) -> h' a = h a)).
Proof.
  intros T own shared ps h fin Hd Hs Hp. split; [|apply pool_terminates].
  intros ps' h' Hst.
  assert (HI : pinv own shared ps h ps' h').
  { change ps' with (fst (ps', h')). change h' with (snd (ps', h')) at 2.
    eapply pinv_steps; eauto. simpl. apply pinv_init. intros i p H. apply (Hp i p H). }
  assert (HF := pinv_nofault _ _ _ _ _ _ HI).
  split; [auto|]. split.
  - destruct (pool_progress T ps' h') as [H|[H|H]]; auto; contradiction.
  - intros HD. destruct HI as (HL & HN & HFr & HI). split; auto.
    intros i a Hi Ho.
    destruct (nth_error ps i) as [p0|] eqn:E0; [|apply nth_error_None in E0; lia].
    destruct (nth_error ps' i) as [p|] eqn:E; [|apply nth_error_None in E; lia].
    destruct (HI i p0 p E0 E) as (g & _ & Hr & Hg).
    assert (p = PRet tt).
    { unfold pdone in HD. rewrite Forall_forall in HD. apply HD. eapply nth_error_In; eauto. }
    subst p. simpl in Hr. destruct (Hp i p0 E0) as (_ & Hr'). rewrite Hr' in Hr.
    injection Hr as ->. auto.
Qed.

(** ** Parallel loop over cells

    Tasks [l]; task [x] owns the cell [ad x] and may read only its own cell and
    cells owned by no task; run alone it leaves [val x] in its cell.  For every
    distribution of the tasks over threads and every interleaving, the final
    memory has [val x] in each owned cell and is unchanged elsewhere. *)
Definition owned {X} (l : list X) (ad : X -> Z) (a : Z) : Prop := In a (map ad l).

Definition task_ok {X T} (l : list X) (ad : X -> Z) (val : X -> option T) (body : X -> prog T unit) (h : heap T) : Prop :=
  forall x h', In x l -> (forall a, a = ad x \/ ~ owned l ad a -> h' a = h a) ->
    psafe (eq (ad x)) (fun a => ~ owned l ad a) (body x) h' /\
    exists h'', run (body x) h' = Ok (tt, h'') /\ h'' (ad x) = val x.

Lemma NoDup_app_l : forall A (l m : list A), NoDup (l ++ m) -> NoDup l.
Proof.
  induction l as [|x l IH]; intros m H; [constructor|]. simpl in H. inversion H; subst.
  constructor; eauto. intros Hx. apply H2. apply in_or_app. auto.
Qed.
Lemma NoDup_app_r : forall A (l m : list A), NoDup (l ++ m) -> NoDup m.
Proof. induction l as [|x l IH]; intros m H; auto. simpl in H. inversion H; eauto. Qed.

Lemma NoDup_concat_disj : forall A (ls : list (list A)) i j l m x,
  NoDup (concat ls) -> nth_error ls i = Some l -> nth_error ls j = Some m ->
  In x l -> In x m -> i = j.
Proof.
  induction ls as [|l0 ls IH]; intros i j l m x Hn Hi Hj Hl Hm.
  - destruct i; discriminate.
  - simpl in Hn.
    assert (Hd : forall y, In y l0 -> ~ In y (concat ls)).
    { intros y Hy Hc. clear - Hn Hy Hc. induction l0 as [|z l0 IH]; simpl in *; [auto|].
      inversion Hn; subst. destruct Hy as [->|Hy]; [apply H1, in_or_app; auto|auto]. }
    assert (Hn' : NoDup (concat ls)).
    { clear - Hn. induction l0; simpl in *; auto. inversion Hn; auto. }
    destruct i as [|i], j as [|j]; simpl in *; auto.
    + injection Hi as ->. exfalso. apply (Hd x Hl). apply in_concat. exists m. split; auto. eapply nth_error_In; eauto.
    + injection Hj as ->. exfalso. apply (Hd x Hm). apply in_concat. exists l. split; auto. eapply nth_error_In; eauto.
    + f_equal. eapply IH; eauto.
Qed.

Lemma run_tasks_seq : forall X T (l : list X) (ad : X -> Z) (val : X -> option T) (body : X -> prog T unit) (h : heap T),
  NoDup (map ad l) -> task_ok l ad val body h ->
  forall r h1, NoDup (map ad r) -> (forall x, In x r -> In x l) ->
    (forall a, In a (map ad r) \/ ~ owned l ad a -> h1 a = h a) ->
    psafe (fun a => In a (map ad r)) (fun a => ~ owned l ad a) (pseq r body) h1 /\
    exists h2, run (pseq r body) h1 = Ok (tt, h2) /\
      (forall x, In x r -> h2 (ad x) = val x) /\
      (forall a, ~ In a (map ad r) -> h2 a = h1 a).
Proof.
  intros X T l ad val body h Hnd Hok r. induction r as [|x r IH]; intros h1 Hr Hin Hh.
  - simpl. split; auto. exists h1. repeat split; auto. intros ? [].
  - simpl in Hr. inversion Hr as [|? ? Hx Hr']; subst.
    destruct (Hok x h1) as (Hs & h' & Erun & Hv).
    { apply Hin. now left. }
    { intros a [->|Ha]; apply Hh; [left; simpl; auto|auto]. }
    assert (Hs' : psafe (fun a => In a (map ad (x :: r))) (fun a => ~ owned l ad a) (body x) h1).
    { eapply psafe_mono; [| |exact Hs]; simpl; auto. }
    destruct (psafe_run _ _ _ _ _ _ Hs) as (u & h'' & Erun' & Hf & _).
    rewrite Erun in Erun'. injection Erun' as <- <-.
    assert (Hx' : ~ In (ad x) (map ad r)) by auto.
    destruct (IH h') as (Hs2 & h2 & E2 & Hv2 & Hf2); auto.
    { intros y Hy. apply Hin. now right. }
    { intros a Ha. rewrite Hf; [apply Hh; simpl; tauto|]. intros <-. destruct Ha as [Ha|Ha]; [tauto|].
      apply Ha. apply in_map. apply Hin. now left. }
    simpl. split.
    + apply psafe_bind. split; auto. intros u0 h3 E3. rewrite Erun in E3. injection E3 as <- <-.
      eapply psafe_mono; [| |exact Hs2]; simpl; auto.
    + exists h2. rewrite run_bind, Erun. repeat split; auto.
      * intros y [<-|Hy]; auto. rewrite Hf2 by auto. auto.
      * intros a Ha. rewrite Hf2, Hf by tauto. auto.
Qed.

Theorem par_cells : forall X T (l : list X) (threads : list (list X)) (ad : X -> Z) (val : X -> option T)
    (body : X -> prog T unit) (h : heap T),
  Permutation (concat threads) l ->
  NoDup (map ad l) ->
  task_ok l ad val body h ->
  par_spec (map (fun r => pseq r body) threads) h (fun h' =>
    (forall x, In x l -> h' (ad x) = val x) /\
    (forall a, ~ owned l ad a -> h' a = h a)).
Proof.
  intros X T l threads ad val body h HP Hnd Hok.
  assert (HPm := Permutation_map ad HP).
  assert (Hndc : NoDup (concat (map (map ad) threads))).
  { rewrite <- concat_map. eapply Permutation_NoDup; [apply Permutation_sym; eauto|auto]. }
  assert (HT : forall i r, nth_error threads i = Some r ->
     NoDup (map ad r) /\ (forall x, In x r -> In x l)).
  { intros i r Hi. split.
    - clear - Hndc Hi. revert i Hi. induction threads as [|t ts IH]; intros [|i] Hi; simpl in *; try discriminate.
      + injection Hi as ->. eapply NoDup_app_l; eauto.
      + eapply IH; eauto. eapply NoDup_app_r; eauto.
    - intros x Hx. eapply Permutation_in; eauto. apply in_concat. exists r. split; auto. eapply nth_error_In; eauto. }
  set (own := fun i a => exists r, nth_error threads i = Some r /\ In a (map ad r)).
  set (fin := fun i => match nth_error threads i with
     | Some r => match run (pseq r body) h with Ok (_, g) => g | _ => h end | None => h end).
  assert (HD : par_spec (map (fun r => pseq r body) threads) h (fun h' =>
    (forall i a, (i < length (map (fun r => pseq r body) threads))%nat -> own i a -> h' a = fin i a) /\
    (forall a, (forall i, (i < length (map (fun r => pseq r body) threads))%nat -> ~ own i a) -> h' a = h a))).
  { apply par_drf with (shared := fun a => ~ owned l ad a).
    - intros i j a (r & Hr & Ha) (r' & Hr' & Ha').
      apply (NoDup_concat_disj _ (map (map ad) threads) i j (map ad r) (map ad r') a); auto;
        rewrite nth_error_map; [rewrite Hr|rewrite Hr']; auto.
    - intros i a (r & Hr & Ha) Hn. apply Hn. apply in_map_iff in Ha as (x & <- & Hx).
      apply in_map. eapply HT; eauto.
    - intros i p Hi. rewrite nth_error_map in Hi. destruct (nth_error threads i) as [r|] eqn:Er; [|discriminate].
      injection Hi as <-. destruct (HT i r Er) as (Hr1 & Hr2).
      destruct (run_tasks_seq X T l ad val body h Hnd Hok r h Hr1 Hr2) as (Hs & h2 & E2 & _); auto.
      split.
      + eapply psafe_mono; [| |exact Hs]; simpl; auto. intros a Ha. exists r. auto.
      + unfold fin. rewrite Er, E2. auto. }
  destruct HD as (HD & HA). split; auto. intros ps' h' Hst. destruct (HD ps' h' Hst) as (H1 & H2 & H3).
  split; [auto|]. split; [auto|]. intros Hdone. destruct (H3 Hdone) as (H4 & H5). split.
  - intros x Hx.
    assert (Hc : In x (concat threads)) by (eapply Permutation_in; [apply Permutation_sym; eauto|auto]).
    apply in_concat in Hc as (r & Hr & Hxr). apply In_nth_error in Hr as (i & Hi).
    rewrite (H4 i (ad x)).
    + unfold fin. rewrite Hi. destruct (HT i r Hi) as (Hr1 & Hr2).
      destruct (run_tasks_seq X T l ad val body h Hnd Hok r h Hr1 Hr2) as (_ & h2 & E2 & Hv & _); auto.
      rewrite E2. auto.
    + rewrite map_length. apply nth_error_Some. congruence.
    + exists r. split; auto. now apply in_map.
  - intros a Ha. apply H5. intros i Hi (r & Hr & Har). apply Ha.
    apply in_map_iff in Har as (x & <- & Hx). apply in_map. eapply HT; eauto.
Qed.
