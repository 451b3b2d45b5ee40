(** * S_Gpu: what running a host function with kernel launches means, and an
    executable scheduler for counterexamples. *)
From Coq Require Import List ZArith Lia Bool Permutation.
From Verif Require Import Base Heap Conc GpuConc M_Addr M_Gpu S_Einsum.
Import ListNotations.
Open Scope Z_scope.

(** The steps run one after the other: no step accesses unallocated memory,
    every launch ends under every schedule, and whatever the schedules the
    memory finally satisfies [Q]. *)
Fixpoint gpu_runs {O : Ops} (ss : list (@gpustep O)) (h : heap (car O)) (Q : heap (car O) -> Prop) : Prop :=
  match ss with
  | [] => Q h
  | GSeq p :: r => exists h', run p h = Ok (tt, h') /\ gpu_runs r h' Q
  | GLaunch g :: r => grid_spec g h (fun h' => gpu_runs r h' Q)
  end.

(** [d] holds [f] afterwards and nothing outside [d] has changed. *)
Definition only_set {O : Ops} (d : desc) (f : list Z -> car O) (h h' : heap (car O)) : Prop :=
  holds h' d f /\ (forall z, (forall idx, inb idx (ddims d) -> z <> addr d idx) -> h' z = h z).

(** ** Schedules *)

(** Thread [t] of block [b] runs to the end of its phase; block [b] passes its barrier. *)
Inductive gmove := Run (b t : nat) | Bar (b : nat).

Section Exec.
  Context {O : Ops}.
  Notation T := (car O).

  Fixpoint arun (p : aprog T) (h : heap T) : option (heap T) :=
    match p with
    | ADone => Some h
    | ARd a k => match h a with Some v => arun (k v) h | None => None end
    | AWr a v k => match h a with Some _ => arun k (upd h a v) | None => None end
    | AAdd a v k => match h a with Some w => arun k (upd h a (oadd w v)) | None => None end
    end.
  Definition waiting (th : @gthread O) : bool := match th with ADone :: _ :: _ => true | _ => false end.
  Definition gmove1 (m : gmove) (s : @grid O * heap T) : option (@grid O * heap T) :=
    let (g, h) := s in
    match m with
    | Run b t =>
        match nth_error g b with
        | Some blk => match nth_error blk t with
            | Some (p :: ps) => match arun p h with
                | Some h' => Some (replace b (replace t (ADone :: ps) blk) g, h')
                | None => None end
            | _ => None end
        | None => None end
    | Bar b =>
        match nth_error g b with
        | Some (th :: blk) => if forallb waiting (th :: blk) then Some (replace b (map (@tl _) (th :: blk)) g, h) else None
        | _ => None end
    end.
  Fixpoint gexec (ms : list gmove) (s : @grid O * heap T) : option (@grid O * heap T) :=
    match ms with [] => Some s | m :: r => match gmove1 m s with Some s' => gexec r s' | None => None end end.
  Definition finished (g : @grid O) : bool :=
    forallb (forallb (fun th : @gthread O => match th with [ADone] => true | _ => false end)) g.
  (** The schedule [ms] ends in a memory for which [test] holds. *)
  Definition ends (ms : list gmove) (g : @grid O) (h : heap T) (test : heap T -> bool) : bool :=
    match gexec ms (g, h) with Some (g', h') => finished g' && test h' | None => false end.

  (** ** Soundness *)
  Lemma split_at : forall X (l : list X) n x, nth_error l n = Some x ->
    exists l1 l2, l = l1 ++ x :: l2 /\ forall y, replace n y l = l1 ++ y :: l2.
  Proof.
    intros X l n x H. apply nth_error_split in H as (l1 & l2 & -> & <-). exists l1, l2. split; auto. intros y. apply replace_app.
  Qed.
  Lemma arun_steps : forall p h h', arun p h = Some h' -> forall B1 (l : @gblock O) (ps : list (aprog T)) r B2,
    gsteps (B1 ++ (l ++ (p :: ps) :: r) :: B2, h) (B1 ++ (l ++ (ADone :: ps) :: r) :: B2, h').
  Proof.
    induction p as [|a k IH|a v k IH|a v k IH]; intros h h' H B1 l ps r B2; cbn [arun] in H.
    - injection H as <-. constructor.
    - destruct (h a) as [v|] eqn:E; [|discriminate]. econstructor; [apply gs_run, (as_rd a k h v E)|]. apply IH; auto.
    - destruct (h a) as [w|] eqn:E; [|discriminate]. econstructor; [apply gs_run, (as_wr a v k h w E)|]. apply IH; auto.
    - destruct (h a) as [w|] eqn:E; [|discriminate]. econstructor; [apply gs_run, (as_add a v k h w E)|]. apply IH; auto.
  Qed.
  Lemma gmove1_steps : forall m s s', gmove1 m s = Some s' -> gsteps s s'.
  Proof.
    intros [b t|b] (g & h) s' H; cbn [gmove1] in H.
    - destruct (nth_error g b) as [blk|] eqn:Eb; [|discriminate]. destruct (nth_error blk t) as [[|p ps]|] eqn:Et; try discriminate.
      destruct (arun p h) as [h'|] eqn:Ea; [|discriminate]. injection H as <-.
      apply split_at in Eb as (B1 & B2 & -> & Eb). rewrite Eb. apply split_at in Et as (l & r & -> & Et). rewrite Et. now apply arun_steps.
    - destruct (nth_error g b) as [[|th blk]|] eqn:Eb; try discriminate. destruct (forallb waiting (th :: blk)) eqn:Ew; [|discriminate].
      injection H as <-. apply split_at in Eb as (B1 & B2 & -> & Eb).
      change (map (tl (A:=aprog T)) (th :: blk)) with (tl th :: map (@tl _) blk) in Eb. 
      econstructor; [|constructor]. rewrite Eb. apply (gs_bar B1 (th :: blk) B2 h). split; [discriminate|].
      apply Forall_forall. intros x Hx. rewrite forallb_forall in Ew. specialize (Ew x Hx). unfold waiting in Ew.
      destruct x as [|[| | |] [|p ps]]; try discriminate. eauto.
  Qed.
  Lemma gexec_steps : forall ms s s', gexec ms s = Some s' -> gsteps s s'.
  Proof.
    induction ms as [|m ms IH]; intros s s' H; cbn [gexec] in H; [injection H as <-; constructor|].
    destruct (gmove1 m s) as [s1|] eqn:E; [|discriminate]. eapply gsteps_trans; [eapply gmove1_steps; eauto|auto].
  Qed.
  (** One schedule that ends in a memory without [Q] refutes [grid_spec]. *)
  Lemma ends_refutes : forall ms g h test (Q : heap T -> Prop), ends ms g h test = true -> (forall h', Q h' -> test h' = false) -> ~ grid_spec g h Q.
  Proof.
    intros ms g h test Q H HQ (HS & _). unfold ends in H. destruct (gexec ms (g, h)) as [(g' & h')|] eqn:E; [|discriminate].
    apply andb_prop in H as (H1 & H2). apply gexec_steps in E. destruct (HS g' h' E) as (_ & _ & HF).
    assert (D : gdone g').
    { unfold finished in H1. rewrite forallb_forall in H1. apply Forall_forall. intros b Hb. specialize (H1 b Hb). rewrite forallb_forall in H1.
      apply Forall_forall. intros th Hth. specialize (H1 th Hth). destruct th as [|[| | |] [|]]; try discriminate. reflexivity. }
    rewrite (HQ h' (HF D)) in H2. discriminate.
  Qed.
End Exec.

(** All values combined with [op], starting from [u]. *)
Definition fold_all {T X} (op : T -> T -> T) (u : T) (f : X -> T) (l : list X) : T := fold_right (fun x r => op (f x) r) u l.
(** The number of an element if the first axis varies fastest. *)
Fixpoint number (dims idx : list Z) : Z :=
  match dims, idx with d :: ds, i :: is => i + d * number ds is | _, _ => 0 end.
