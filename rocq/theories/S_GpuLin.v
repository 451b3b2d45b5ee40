(** * S_GpuLin: what running a host function with kernel launches means. *)
From Coq Require Import List ZArith Lia Bool.
From Verif Require Import Base Heap Conc GpuConc M_Gpu M_GpuLin S_Gpu.
Import ListNotations.
Open Scope Z_scope.

(** The steps run one after the other: no step fails, every launch ends under
    every schedule, and whatever the schedules the memory finally satisfies [Q]. *)
Fixpoint dev_runs {O : Ops} (ss : list (@dstep O)) (h : heap (car O)) (Q : heap (car O) -> Prop) : Prop :=
  match ss with
  | [] => Q h
  | DHost f :: r => exists h', f h = Ok h' /\ dev_runs r h' Q
  | DLaunch g :: r => grid_spec g h (fun h' => dev_runs r h' Q)
  end.

(** ** One run, with a schedule for every launch *)
Section Exec.
  Context {O : Ops}.
  Notation T := (car O).
  Fixpoint dexec (mss : list (list gmove)) (ss : list (@dstep O)) (h : heap T) : option (heap T) :=
    match ss with
    | [] => Some h
    | DHost f :: r => match f h with Ok h' => dexec mss r h' | _ => None end
    | DLaunch g :: r => match mss with
        | ms :: mss' => match gexec ms (g, h) with
            | Some (g', h') => if finished g' then dexec mss' r h' else None
            | None => None end
        | [] => None end
    end.
  Lemma dexec_ends : forall ss mss h h' Q, dexec mss ss h = Some h' -> dev_runs ss h Q -> Q h'.
  Proof.
    induction ss as [|[f|g] ss IH]; intros mss h h' Q E H; cbn [dexec dev_runs] in *.
    - injection E as <-. exact H.
    - destruct H as (h1 & E1 & H). rewrite E1 in E. exact (IH mss h1 h' Q E H).
    - destruct mss as [|ms mss]; [discriminate|]. destruct (gexec ms (g, h)) as [(g1 & h1)|] eqn:E1; [|discriminate].
      destruct (finished g1) eqn:E2; [|discriminate]. destruct H as (HS & _). apply gexec_steps in E1.
      destruct (HS g1 h1 E1) as (_ & _ & HF). apply (IH mss h1 h' Q E), HF.
      unfold finished in E2. rewrite forallb_forall in E2. apply Forall_forall. intros b Hb. specialize (E2 b Hb). rewrite forallb_forall in E2.
      apply Forall_forall. intros th Hth. specialize (E2 th Hth). destruct th as [|[| | |] [|]]; try discriminate. reflexivity.
  Qed.
  (** One run that ends in a memory without [Q]. *)
  Lemma dexec_refutes : forall mss ss h (test : heap T -> bool) (Q : heap T -> Prop),
    match dexec mss ss h with Some h' => test h' | None => false end = true -> (forall h', Q h' -> test h' = false) -> ~ dev_runs ss h Q.
  Proof.
    intros mss ss h test Q E HQ H. destruct (dexec mss ss h) as [h'|] eqn:E1; [|discriminate].
    rewrite (HQ h' (dexec_ends _ _ _ _ _ E1 H)) in E. discriminate.
  Qed.
End Exec.

Lemma dev_runs_weaken : forall (O : Ops) ss h (Q Q' : heap (car O) -> Prop), (forall h', Q h' -> Q' h') -> dev_runs ss h Q -> dev_runs ss h Q'.
Proof.
  intros O ss. induction ss as [|[f|g] ss IH]; intros h Q Q' HQ H; cbn [dev_runs] in *; auto.
  - destruct H as (h' & E & H). eauto.
  - eapply grid_weaken; [|exact H]. cbv beta. intros h' H'. eauto.
Qed.
Lemma gpu_dev_runs : forall (O : Ops) ss (h : heap (car O)) Q, gpu_runs ss h Q -> dev_runs (map of_gpustep ss) h Q.
Proof.
  intros O ss. induction ss as [|[p|g] ss IH]; intros h Q H; cbn [map of_gpustep dev_runs gpu_runs] in *; auto.
  - destruct H as (h' & E & H). exists h'. split; auto. unfold M_Blas.exec. rewrite E. reflexivity.
  - eapply grid_weaken; [|exact H]. auto.
Qed.
