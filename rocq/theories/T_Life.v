(** * T_Life: sessions of the library (C121). *)
From Coq Require Import List ZArith Lia Bool String.
From Verif Require Import Base Heap M_Timer S_Timer T_Timer.
From Verif Require Import M_Life.
Import ListNotations.
Open Scope Z_scope.

(** A session: timer calls made before initialize, the clock during
    initialize, the timer calls up to finalize (in order) and where the report
    goes. *)
Record session := mkSession { se_before : list tev; se_clock : Z -> Z; se_calls : list tev; se_dest : dest }.
Definition trace (s : session) : list lev :=
  map LTimer (se_before s) ++ [LInit (se_clock s)] ++ map LTimer (se_calls s) ++ [LFinal (se_dest s)].
(** The thousand calibration pairs initialize makes (newest first). *)
Definition calibration (clock : Z -> Z) : list tev :=
  flat_map (fun i => [EPop 0 (clock (2 * i + 1)); EPush 0 false "Timer Overhead" (clock (2 * i))]) (rev (zrange 1000)).
(** Everything timed in the session, newest first. *)
Definition timed (s : session) : list tev := rev (se_calls s) ++ calibration (se_clock s).
Definition reports (d : dest) : bool := match d with ToStream | ToString true | ToChar true => true | _ => false end.
(** [p] is the report of the session. *)
Definition report_of (s : session) (p : printed) : Prop :=
  forall fuel, (List.length (timed s) < fuel)%nat -> p fuel = Some (listing (pred fuel) (timed s) []).

Lemma l_run_app : forall a b s, l_run (a ++ b) s = (s' <- l_run a s ;; l_run b s').
Proof. intros. unfold l_run. apply forM_app. Qed.

Lemma run_outside : forall w n out, l_run (map LTimer w) (mkLife None n out) = Ok (mkLife None n out).
Proof. induction w as [|e w IH]; intros n out; [reflexivity|]. unfold l_run. cbn. apply IH. Qed.

Lemma run_inside : forall w hist t n out, t_run hist = Ok t ->
  exists t', t_run (rev w ++ hist) = Ok t' /\ l_run (map LTimer w) (mkLife (Some t) n out) = Ok (mkLife (Some t') n out).
Proof.
  induction w as [|e w IH]; intros hist t n out Ht.
  - exists t. split; [exact Ht|reflexivity].
  - destruct (C37_timers (e :: hist)) as (t1 & E1 & _).
    destruct (IH (e :: hist) t1 n out E1) as (t' & E' & R'). exists t'. split.
    + cbn [rev]. rewrite <- app_assoc. exact E'.
    + unfold l_run in *. cbn [map forM l_step l_timer lf_tree lf_lost lf_out].
      cbn [t_run] in E1. rewrite Ht in E1. cbn [bind] in E1. rewrite E1. cbn [bind]. exact R'.
Qed.

Lemma run_session : forall s n out, se_dest s <> Quiet -> se_dest s <> ToChar false ->
  exists ps, l_run (trace s) (mkLife None n out) = Ok (mkLife None n (out ++ ps)) /\
    (if reports (se_dest s) then exists p, ps = [p] /\ report_of s p else ps = []).
Proof.
  intros [w c e d] n out Hq Hc. unfold trace. cbn [se_before se_clock se_calls se_dest] in *.
  rewrite l_run_app, run_outside. cbn [bind]. rewrite l_run_app.
  destruct (C37_timers (overhead c)) as (t0 & E0 & _).
  unfold l_run at 1. cbn [forM l_step]. unfold l_init. rewrite E0. cbn [bind lf_tree lf_lost lf_out]. rewrite l_run_app.
  destruct (run_inside e (overhead c) t0 n out E0) as (t' & E' & R'). rewrite R'. cbn [bind].
  destruct (C37_timers (rev e ++ overhead c)) as (t2 & E2 & _ & _ & _ & _ & RP). assert (t2 = t') by congruence. subst t2.
  assert (RO : report_of (mkSession w c e d) (fun fuel => t_report fuel t')).
  { intros fuel Hf. apply RP. exact Hf. }
  destruct d as [|[]|[]|]; try congruence.
  - exists [fun fuel => t_report fuel t']. split; [reflexivity|]. cbn [reports]. eauto.
  - exists [fun fuel => t_report fuel t']. split; [reflexivity|]. cbn [reports]. eauto.
  - exists []. split; [|reflexivity]. rewrite app_nil_r. reflexivity.
  - exists [fun fuel => t_report fuel t']. split; [reflexivity|]. cbn [reports]. eauto.
Qed.

(** Any number of sessions, each ended by a finalize that is given somewhere to
    write: every report lists exactly what was timed in its own session, nothing
    is left allocated and the library is shut down at the end. *)
Theorem C121_sessions_partial : forall ss : list session,
  Forall (fun s => se_dest s <> Quiet /\ se_dest s <> ToChar false) ss ->
  exists out, l_run (flat_map trace ss) life0 = Ok (mkLife None 0 out) /\
    Forall2 report_of (filter (fun s => reports (se_dest s)) ss) out.
Proof.
  intros ss H.
  assert (G : forall n out, exists ps, l_run (flat_map trace ss) (mkLife None n out) = Ok (mkLife None n (out ++ ps)) /\
    Forall2 report_of (filter (fun s => reports (se_dest s)) ss) ps).
  { induction H as [|s ss (Hq & Hc) _ IH]; intros n out.
    - exists []. split; [rewrite app_nil_r; reflexivity|constructor].
    - cbn [flat_map filter]. rewrite l_run_app. destruct (run_session s n out Hq Hc) as (p1 & E1 & R1). rewrite E1. cbn [bind].
      destruct (IH n (out ++ p1)) as (p2 & E2 & R2). exists (p1 ++ p2). rewrite E2, app_assoc. split; [reflexivity|].
      destruct (reports (se_dest s)).
      + destruct R1 as (p & -> & Rp). cbn [app]. constructor; auto.
      + subst p1. exact R2. }
  apply (G 0%nat []).
Qed.

(** Timer calls outside a session are harmless. *)
Theorem C121_outside : forall w s, lf_tree s = None -> l_run (map LTimer w) s = Ok s.
Proof. intros w [t n out] H. cbn in H. subst t. apply run_outside. Qed.

(** finalize(false), the default, does not shut the library down, whatever went
    before: nothing changes, so the next initialize loses the old timers. *)
Theorem C121_quiet_refuted : forall s t clock, lf_tree s = Some t ->
  l_step (LFinal Quiet) s = Ok s /\
  exists s', l_run [LFinal Quiet; LInit clock] s = Ok s' /\ lf_lost s' = S (lf_lost s).
Proof.
  intros s t clock H. split; [reflexivity|]. destruct (C37_timers (overhead clock)) as (t0 & E0 & _).
  exists (mkLife (Some t0) (S (lf_lost s)) (lf_out s)). split; [|reflexivity].
  unfold l_run. cbn [forM l_step l_final bind]. unfold l_init. rewrite E0, H. reflexivity.
Qed.

(** A file that cannot be opened, and a finalize without initialize. *)
Theorem C121_ub_refuted : forall s,
  l_step (LFinal (ToChar false)) s = UB /\
  (lf_tree s = None -> forall d, d <> Quiet -> l_step (LFinal d) s = UB).
Proof.
  intros s. split; [reflexivity|]. intros H d Hd. destruct d as [|[]|[]|]; try congruence; unfold l_step, l_final, l_report; try rewrite H; reflexivity.
Qed.

(** Two sessions, with calls outside them: the first report has "a", the second
    only "b" (besides the calibration). *)
Example C121_case :
  let s1 := mkSession [EPop 0 3] (fun i => i) [EPush 0 false "a" 5000; EPop 0 5007]%string ToStream in
  let s2 := mkSession [EPush 0 false "x" 1]%string (fun i => i) [EPush 0 false "b" 6000; EPop 0 6001]%string (ToString true) in
  Forall (fun s => se_dest s <> Quiet /\ se_dest s <> ToChar false) [s1; s2] /\
  match l_run (flat_map trace [s1; s2]) life0 with
  | Ok s => lf_tree s = None /\ lf_lost s = 0%nat /\ map (fun p => p 5%nat) (lf_out s) =
      [Some [(1%nat, "Timer Overhead", 1000, 1000); (1%nat, "a", 1, 7)];
       Some [(1%nat, "Timer Overhead", 1000, 1000); (1%nat, "b", 1, 1)]]%string
  | _ => False end.
Proof.
  split; [repeat constructor; discriminate|]. vm_compute. repeat split.
Qed.

Print Assumptions C121_sessions_partial.
Print Assumptions C121_outside.
Print Assumptions C121_quiet_refuted.
Print Assumptions C121_ub_refuted.
Print Assumptions C121_case.
