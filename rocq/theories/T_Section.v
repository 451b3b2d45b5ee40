(** * T_Section: timed sections (C98), trimming of strings (C99). *)
From Coq Require Import List ZArith Lia Bool String Ascii.
From Verif Require Import Base Heap M_Timer S_Timer M_Section T_Timer.
Import ListNotations.
Open Scope Z_scope.

(** ** C98 *)

Section StmtInd.
  Variable P : stmt -> Prop.
  Hypothesis HS : forall name timed body, Forall P body -> P (SScope name timed body).
  Hypothesis HE : forall k, P (SEnd k).
  Hypothesis HT : P SThrow.
  Hypothesis HY : forall body, Forall P body -> P (STry body).
  Fixpoint stmt_ind' (s : stmt) : P s :=
    let fix go (b : list stmt) : Forall P b :=
      match b with [] => Forall_nil P | s :: r => Forall_cons s (stmt_ind' s) (go r) end in
    match s with
    | SScope n t b => HS n t b (go b)
    | SEnd k => HE k
    | SThrow => HT
    | STry b => HY b (go b)
    end.
End StmtInd.

Section Run.
  Variable thread : nat.
  Variable par : bool.
  Variable clock : nat -> Z.
  Notation exec := (exec thread par clock).
  Notation exec_block := (exec_block thread par clock).

  Lemma exec_scope : forall name timed body secs hist,
    exec (SScope name timed body) secs hist =
    let hist1 := if timed then EPush thread par (trim_string name) (clock (List.length hist)) :: hist else hist in
    let '(thrown, secs', hist2) := exec_block body (Some timed :: secs) hist1 in
    match secs' with
    | sec :: rest => (thrown, rest, snd (sec_end thread clock sec hist2))
    | [] => (thrown, [], hist2)
    end.
  Proof. reflexivity. Qed.
  Lemma exec_try : forall body secs hist,
    exec (STry body) secs hist = let '(_, secs', hist') := exec_block body secs hist in (false, secs', hist').
  Proof. reflexivity. Qed.
End Run.

(** The number of sections that will still call pop. *)
Definition live (secs : list (option bool)) : nat :=
  List.length (filter (fun x => match x with Some true => true | _ => false end) secs).
Definition above (p : list string) (secs : list (option bool)) (hist : list tev) : Prop :=
  exists top, List.length top = live secs /\ opened hist = Some (top ++ p).

Section Above.
  Variable par : bool.
  Variable clock : nat -> Z.
  Variable p : list string.
  Notation exec := (exec 0 par clock).
  Notation exec_block := (exec_block 0 par clock).

  Lemma live_set : forall k secs, nth_error secs k = Some (Some true) -> S (live (set_nth k None secs)) = live secs.
  Proof.
    induction k as [|k IH]; intros [|x secs] H; try discriminate.
    - injection H as ->. reflexivity.
    - cbn in H. specialize (IH secs H). unfold set_nth in *. cbn [firstn skipn app].
      unfold live in *. cbn [filter]. destruct x as [[]|]; cbn [List.length] in *; auto.
  Qed.
  Lemma live_set' : forall k secs, nth_error secs k = Some (Some false) \/ nth_error secs k = Some None -> live (set_nth k None secs) = live secs.
  Proof.
    induction k as [|k IH]; intros [|x secs] H; try (destruct H; discriminate).
    - destruct H as [H|H]; injection H as ->; reflexivity.
    - cbn in H. specialize (IH secs H). unfold set_nth in *. cbn [firstn skipn app].
      unfold live in *. cbn [filter]. destruct x as [[]|]; cbn [List.length] in *; auto.
  Qed.
  Lemma set_nth_len : forall A k (x : A) l y, nth_error l k = Some y -> List.length (set_nth k x l) = List.length l.
  Proof.
    intros A k x l y H. assert (k < List.length l)%nat by (apply nth_error_Some; congruence).
    unfold set_nth. rewrite app_length. cbn [List.length]. rewrite firstn_length, skipn_length. lia.
  Qed.

  Definition keeps (s : stmt) : Prop := forall secs hist t secs' hist', above p secs hist ->
    exec s secs hist = (t, secs', hist') -> above p secs' hist' /\ List.length secs' = List.length secs.

  Lemma keeps_block : forall b, Forall keeps b -> forall secs hist t secs' hist', above p secs hist ->
    exec_block b secs hist = (t, secs', hist') -> above p secs' hist' /\ List.length secs' = List.length secs.
  Proof.
    induction 1 as [|s b Hs Hb IH]; intros secs hist t secs' hist' A E.
    - injection E as <- <- <-. auto.
    - cbn [M_Section.exec_block] in E. destruct (exec s secs hist) as [[t1 secs1] hist1] eqn:E1.
      destruct (Hs _ _ _ _ _ A E1) as (A1 & L1). destruct t1.
      + injection E as <- <- <-. auto.
      + destruct (IH _ _ _ _ _ A1 E) as (A2 & L2). split; auto. lia.
  Qed.

  Lemma above_end : forall sec secs hist, above p (sec :: secs) hist -> above p secs (snd (sec_end 0 clock sec hist)).
  Proof.
    intros [[]|] secs hist (top & L & E); cbn [sec_end snd].
    - destruct top as [|x top]; [discriminate|]. exists top. unfold live in L. cbn in L. injection L as L. split; auto.
      cbn [opened]. rewrite E. reflexivity.
    - exists top. auto.
    - exists top. auto.
  Qed.

  Lemma keeps_all : forall s, keeps s.
  Proof.
    apply stmt_ind'.
    - intros name timed body HB secs hist t secs' hist' A E. rewrite exec_scope in E. cbv zeta in E.
      set (h1 := if timed then _ else hist) in E.
      assert (A1 : above p (Some timed :: secs) h1).
      { destruct A as (top & L & O). unfold h1. destruct timed.
        - exists (opens par (trim_string name) :: top). split; [unfold live in *; cbn; auto|]. cbn [opened]. rewrite O. reflexivity.
        - exists top. auto. }
      destruct (exec_block body (Some timed :: secs) h1) as [[t2 secs2] hist2] eqn:E2.
      destruct (keeps_block body HB _ _ _ _ _ A1 E2) as (A2 & L2).
      destruct secs2 as [|sec rest]; [discriminate|]. injection E as <- <- <-. split; [now apply above_end|]. cbn in L2. lia.
    - intros k secs hist t secs' hist' (top & L & O) E. cbn [M_Section.exec] in E.
      destruct (nth_error secs k) as [sec|] eqn:EK.
      + destruct sec as [[]|]; cbn [sec_end] in E; injection E as <- <- <-.
        * split; [|eapply set_nth_len; eauto]. apply live_set in EK. destruct top as [|x top]; [cbn in L; lia|].
          exists top. cbn in L. split; [lia|]. cbn [opened]. rewrite O. reflexivity.
        * split; [|eapply set_nth_len; eauto]. exists top. rewrite live_set'; auto.
        * split; [|eapply set_nth_len; eauto]. exists top. rewrite live_set'; auto.
      + injection E as <- <- <-. split; [exists top|]; auto.
    - intros secs hist t secs' hist' A E. injection E as <- <- <-. auto.
    - intros body HB secs hist t secs' hist' A E. rewrite exec_try in E.
      destruct (exec_block body secs hist) as [[t2 secs2] hist2] eqn:E2. injection E as <- <- <-.
      exact (keeps_block body HB _ _ _ _ _ A E2).
  Qed.
End Above.

(** Whatever a program does with its sections (leaving scopes early by
    exceptions, ending sections by hand once or several times, in any order):
    when it is finished the timer is where it was. *)
Theorem C98_restored :
  forall (prog : list stmt) (par : bool) (clock : nat -> Z) (hist : list tev) (p : list string) thrown secs hist',
    opened hist = Some p -> exec_block 0 par clock prog [] hist = (thrown, secs, hist') -> opened hist' = Some p.
Proof.
  intros prog par clock hist p thrown secs hist' O E.
  destruct (keeps_block par clock p prog) with (secs := @nil (option bool)) (hist := hist) (t := thrown) (secs' := secs) (hist' := hist')
    as ((top & L & O') & N); auto.
  - apply Forall_forall. intros s _. apply keeps_all.
  - exists []. auto.
  - destruct secs; [|discriminate]. destruct top; [|discriminate]. exact O'.
Qed.
Print Assumptions C98_restored.

(** Sections of other threads leave the timer alone. *)
Theorem C98_other_threads :
  forall (prog : list stmt) (thread : nat) (par : bool) (clock : nat -> Z) (hist : list tev) thrown secs hist',
    (thread <> 0)%nat -> exec_block thread par clock prog [] hist = (thrown, secs, hist') ->
    opened hist' = opened hist /\ (forall p, calls hist' p = calls hist p) /\ (forall p, spent hist' p = spent hist p).
Proof.
  intros prog thread par clock. destruct thread as [|th]; [congruence|].
  set (same := fun h' h => opened h' = opened h /\ (forall p, calls h' p = calls h p) /\ (forall p, spent h' p = spent h p)).
  assert (SR : forall h, same h h) by (intros h; repeat split).
  assert (ST : forall a b c, same a b -> same b c -> same a c).
  { intros a b c (X1 & X2 & X3) (Y1 & Y2 & Y3). split; [congruence|]. split; intros; congruence. }
  assert (SE : forall sec h, same (snd (sec_end (S th) clock sec h)) h) by (intros [[]|] h; cbn; apply SR || (repeat split)).
  assert (BL : forall b, Forall (fun s => forall secs hist, same (snd (exec (S th) par clock s secs hist)) hist) b ->
            forall secs hist, same (snd (exec_block (S th) par clock b secs hist)) hist).
  { induction 1 as [|s b Hs Hb IH]; intros secs hist; cbn [exec_block]; [apply SR|].
    specialize (Hs secs hist). destruct (exec (S th) par clock s secs hist) as [[t1 secs1] hist1]. destruct t1; auto.
    eapply ST; [apply IH|exact Hs]. }
  assert (AL : forall s secs hist, same (snd (exec (S th) par clock s secs hist)) hist).
  { apply (stmt_ind' (fun s => forall secs hist, same (snd (exec (S th) par clock s secs hist)) hist)).
    - intros name timed body HB secs hist. rewrite exec_scope. cbv zeta. set (h1 := if timed then _ else hist).
      assert (S1 : same h1 hist) by (unfold h1; destruct timed; [repeat split|apply SR]).
      specialize (BL body HB (Some timed :: secs) h1).
      destruct (exec_block (S th) par clock body (Some timed :: secs) h1) as [[t2 [|sec rest]] h2].
      + eapply ST; eauto.
      + cbn [snd]. eapply ST; [apply SE|]. eapply ST; eauto.
    - intros k secs hist. cbn [exec]. destruct (nth_error secs k) as [sec|]; [|apply SR].
      assert (X := SE sec hist). destruct (sec_end (S th) clock sec hist). exact X.
    - intros secs hist. apply SR.
    - intros body HB secs hist. rewrite exec_try. specialize (BL body HB secs hist).
      destruct (exec_block (S th) par clock body secs hist) as [[t2 secs2] h2]. exact BL. }
  intros hist thrown secs hist' _ E. specialize (BL prog ltac:(apply Forall_forall; intros; apply AL) [] hist).
  rewrite E in BL. exact BL.
Qed.
Print Assumptions C98_other_threads.

(** A program that never calls [end()]. *)
Fixpoint no_end (s : stmt) : bool :=
  match s with
  | SScope _ _ body => forallb no_end body
  | SEnd _ => false
  | SThrow => true
  | STry body => forallb no_end body
  end.

Section Bal.
  Lemma is_open_longer : forall h q p, opened h = Some q -> (List.length p < List.length q)%nat -> is_open h p = false.
  Proof.
    intros h q p O L. unfold is_open. rewrite O. unfold path_eqb. destruct (list_eq_dec string_dec q p); auto. subst. lia.
  Qed.
  Lemma bal_keeps : forall w, balanced w -> forall h q, opened h = Some q -> forall p, (List.length p <= List.length q)%nat ->
    calls (w ++ h) p = calls h p /\ since (w ++ h) p = since h p /\ spent (w ++ h) p = spent h p.
  Proof.
    intros w B. induction B as [|a b Ba IHa Bb IHb|e He|par nm t0 t1 w B IH|par nm t0 d w B IH]; intros h q O p L.
    - auto.
    - rewrite <- app_assoc. assert (O' : opened (b ++ h) = Some q) by (apply C37_balanced; auto).
      destruct (IHa _ _ O' p L) as (-> & -> & ->). apply (IHb _ _ O p L).
    - destruct e as [[|t] par nm now|[|t] now|[|t] d]; cbn in *; tauto.
    - assert (O1 : opened (EPush 0 par nm t0 :: h) = Some (opens par nm :: q)) by (cbn; rewrite O; auto).
      assert (O2 : opened (w ++ EPush 0 par nm t0 :: h) = Some (opens par nm :: q)) by (apply C37_balanced; auto).
      assert (NO := is_open_longer _ _ p O2 ltac:(cbn; lia)).
      destruct (IH _ _ O1 p ltac:(cbn; lia)) as (X1 & X2 & X3).
      rewrite <- app_comm_cons, <- app_assoc. cbn [app calls since spent]. rewrite NO, X1, X2, X3. cbn [calls since spent]. rewrite O.
      unfold path_eqb. destruct (list_eq_dec string_dec (opens par nm :: q) p); [subst p; cbn in L; lia|]. lia.
    - assert (O1 : opened (EPush 0 par nm t0 :: h) = Some (opens par nm :: q)) by (cbn; rewrite O; auto).
      assert (O2 : opened (w ++ EPush 0 par nm t0 :: h) = Some (opens par nm :: q)) by (apply C37_balanced; auto).
      assert (NO := is_open_longer _ _ p O2 ltac:(cbn; lia)).
      destruct (IH _ _ O1 p ltac:(cbn; lia)) as (X1 & X2 & X3).
      rewrite <- app_comm_cons, <- app_assoc. cbn [app calls since spent]. rewrite NO, X1, X2, X3. cbn [calls since spent]. rewrite O.
      unfold path_eqb. destruct (list_eq_dec string_dec (opens par nm :: q) p); [subst p; cbn in L; lia|]. lia.
  Qed.
End Bal.

Section NoEnd.
  Variable par : bool.
  Variable clock : nat -> Z.
  Notation exec := (exec 0 par clock).
  Notation exec_block := (exec_block 0 par clock).
  Definition bal (s : stmt) : Prop := no_end s = true -> forall secs hist, exists t w,
    exec s secs hist = (t, secs, w ++ hist) /\ balanced w.
  Lemma bal_block : forall b, Forall bal b -> forallb no_end b = true -> forall secs hist, exists t w,
    exec_block b secs hist = (t, secs, w ++ hist) /\ balanced w.
  Proof.
    induction 1 as [|s b Hs Hb IH]; intros N secs hist.
    - exists false, []. split; [reflexivity|constructor].
    - cbn [forallb] in N. apply andb_true_iff in N. destruct N as (N1 & N2). destruct (Hs N1 secs hist) as (t1 & w1 & E1 & B1).
      cbn [M_Section.exec_block]. rewrite E1. destruct t1.
      + exists true, w1. auto.
      + destruct (IH N2 secs (w1 ++ hist)) as (t2 & w2 & E2 & B2). exists t2, (w2 ++ w1). rewrite E2, app_assoc. split; auto.
        now constructor.
  Qed.
  Lemma bal_all : forall s, bal s.
  Proof.
    apply stmt_ind'.
    - intros name timed body HB N secs hist. rewrite exec_scope. cbv zeta. cbn [no_end] in N.
      set (h1 := if timed then _ else hist).
      destruct (bal_block body HB N (Some timed :: secs) h1) as (t & w & E & B). rewrite E. unfold h1. destruct timed.
      + do 2 eexists. cbn [sec_end snd]. rewrite app_comm_cons. split.
        * match goal with |- (_, _, (?x :: w) ++ ?y :: hist) = _ =>
            replace ((x :: w) ++ y :: hist) with ((x :: w ++ [y]) ++ hist) by (cbn [app]; rewrite <- app_assoc; reflexivity) end.
          reflexivity.
        * now constructor.
      + exists t, w. auto.
    - intros k N. discriminate.
    - intros N secs hist. exists true, []. split; [reflexivity|constructor].
    - intros body HB N secs hist. rewrite exec_try. destruct (bal_block body HB N secs hist) as (t & w & E & B). rewrite E.
      exists false, w. auto.
  Qed.
End NoEnd.

(** A section adds exactly one call to the region with its (trimmed) name inside
    the open one, and the time from its definition to the end of its scope,
    however the scope is left. *)
Theorem C98_one_call :
  forall (name : string) (body : list stmt) (par : bool) (clock : nat -> Z) (hist : list tev) (p : list string) thrown secs hist',
    opened hist = Some p -> forallb no_end body = true ->
    exec_block 0 par clock [SScope name true body] [] hist = (thrown, secs, hist') ->
    let region := opens par (trim_string name) :: p in
    exists stop, hist' = stop :: tl hist' /\
      (exists t, stop = EPop 0 t /\ t = clock (List.length (tl hist')) /\
         spent hist' region = spent hist region + (t - clock (List.length hist))) /\
      calls hist' region = calls hist region + 1 /\
      (forall q, (List.length q <= List.length p)%nat -> calls hist' q = calls hist q /\ spent hist' q = spent hist q).
Proof.
  intros name body par clock hist p thrown secs hist' O N E region.
  cbn [exec_block] in E. rewrite exec_scope in E. cbv zeta in E.
  set (push := EPush 0 par (trim_string name) (clock (List.length hist))) in E.
  destruct (bal_block par clock body ltac:(apply Forall_forall; intros; apply bal_all) N [Some true] (push :: hist)) as (t & w & E2 & B).
  rewrite E2 in E. cbn [sec_end snd] in E.
  assert (H' : hist' = EPop 0 (clock (List.length (w ++ push :: hist))) :: w ++ push :: hist).
  { destruct t; injection E as <- <- <-; auto. }
  clear E E2 thrown secs t. subst hist'. cbn [tl].
  assert (O1 : opened (push :: hist) = Some region) by (unfold push; cbn; rewrite O; auto).
  assert (O2 : opened (w ++ push :: hist) = Some region) by (apply C37_balanced; auto).
  destruct (bal_keeps w B _ _ O1 region ltac:(lia)) as (X1 & X2 & X3).
  assert (OP : is_open (w ++ push :: hist) region = true).
  { unfold is_open, path_eqb. rewrite O2. destruct (list_eq_dec string_dec region region); congruence. }
  eexists. split; [reflexivity|]. split; [|split].
  - eexists. split; [reflexivity|]. split; [reflexivity|]. cbn [spent]. rewrite OP, X2, X3. unfold push. cbn [spent since]. rewrite O.
    unfold path_eqb. destruct (list_eq_dec string_dec _ region); [|exfalso; apply n; reflexivity]. lia.
  - cbn [calls]. rewrite OP, X1. reflexivity.
  - intros q Hq. destruct (bal_keeps w B _ _ O1 q) as (Y1 & Y2 & Y3); [unfold region; cbn; lia|].
    cbn [calls spent]. rewrite (is_open_longer _ _ q O2) by (unfold region; cbn; lia). rewrite Y1, Y3. unfold push. cbn [calls spent]. lia.
Qed.
Print Assumptions C98_one_call.

(** end() of an outer section inside an inner one stops the inner timer: "a" ran
    from 0 to 2 and "b" from 1 to 9, but "b" is charged 1 and "a" 9. *)
Theorem C98_order_refuted :
  let prog := [SScope "a" true [SScope "b" true [SEnd 1]]]%string in
  let clock := fun i => nth i [0; 1; 2; 9] 0 in
  match exec_block 0 false clock prog [] [] with
  | (_, _, hist) => spent hist ["a"]%string = 9 /\ spent hist ["b"; "a"]%string = 1
  end.
Proof. vm_compute. auto. Qed.
Print Assumptions C98_order_refuted.

(** A section ended twice by hand, an exception through two scopes that is
    caught, an untimed section. *)
Example C98_case :
  let prog := [SScope " a " true [STry [SScope "b" true [SScope "c" false [SThrow]; SScope "x" true []]]; SEnd 0; SEnd 0]; SScope "d" true []]%string in
  let clock := fun i => Z.of_nat i * 10 in
  match exec_block 0 false clock prog [] [] with
  | (thrown, secs, hist) => thrown = false /\ secs = [] /\
      map (fun p => (calls hist p, spent hist p)) [["a"]; ["b"; "a"]; ["x"; "b"; "a"]; ["d"]]%string = [(1, 30); (1, 10); (0, 0); (1, 10)] /\
      opened hist = Some []
  end.
Proof. vm_compute. auto. Qed.

(** ** C99 *)

(** Tab, newline, vertical tab, form feed, carriage return and blank. *)
Definition blank (c : ascii) : Prop := In c ["009"; "010"; "011"; "012"; "013"; " "]%char.
Lemma blank_isspace : forall c, blank c <-> isspace c = true.
Proof.
  intros c. split.
  - intros H. unfold blank in H. cbn in H. repeat (destruct H as [H|H]; [subst c; reflexivity|]). destruct H.
  - destruct c as [[] [] [] [] [] [] [] []]; intros H; vm_compute in H; try discriminate H; unfold blank; cbn; auto 10.
Qed.
Definition all_space (s : list ascii) : Prop := Forall (fun c => isspace c = true) s.
Lemma ltrim_spec : forall s, exists a, s = a ++ ltrim s /\ all_space a /\ (forall c r, ltrim s = c :: r -> isspace c = false).
Proof.
  induction s as [|c s (a & E & A & N)]; [exists []; repeat split; [constructor|intros; discriminate]|]. cbn [ltrim]. destruct (isspace c) eqn:EC.
  - exists (c :: a). split; [cbn; now f_equal|]. split; [now constructor|auto].
  - exists []. split; auto. split; [constructor|]. intros c' r H. now injection H as <- <-.
Qed.

Lemma trim_spec : forall s, exists a b, s = a ++ trim s ++ b /\ all_space a /\ all_space b /\
  (forall c r, trim s = c :: r -> isspace c = false) /\ (forall c r, trim s = r ++ [c] -> isspace c = false).
Proof.
  intros s. destruct (ltrim_spec (rev s)) as (b & Eb & Ab & Nb). destruct (ltrim_spec (rtrim s)) as (a & Ea & Aa & Na).
  assert (ES : s = rtrim s ++ rev b).
  { unfold rtrim. rewrite <- rev_app_distr, <- Eb. now rewrite rev_involutive. }
  exists a, (rev b). unfold trim. split; [|split; [auto|split; [|split; auto]]].
  - rewrite app_assoc, <- Ea. exact ES.
  - unfold all_space in *. rewrite Forall_forall in *. intros c Hc. apply Ab. now apply in_rev.
  - intros c r H. apply (Nb c (rev (a ++ r))). unfold rtrim in Ea at 1. rewrite H in Ea.
    apply (f_equal (@rev ascii)) in Ea. rewrite rev_involutive in Ea. rewrite Ea, app_assoc, rev_app_distr. reflexivity.
Qed.
(** trim removes the spaces at both ends and nothing else. *)
Theorem C99_trim : forall s, exists a b, s = a ++ trim s ++ b /\ Forall blank a /\ Forall blank b /\
  (forall c r, trim s = c :: r -> ~ blank c) /\ (forall c r, trim s = r ++ [c] -> ~ blank c).
Proof.
  intros s. destruct (trim_spec s) as (a & b & E & A & B & N1 & N2). exists a, b. split; auto. split; [|split; [|split]].
  - apply Forall_forall. intros c Hc. apply blank_isspace. unfold all_space in A. rewrite Forall_forall in A. auto.
  - apply Forall_forall. intros c Hc. apply blank_isspace. unfold all_space in B. rewrite Forall_forall in B. auto.
  - intros c r H Hb. apply blank_isspace in Hb. rewrite (N1 c r H) in Hb. discriminate.
  - intros c r H Hb. apply blank_isspace in Hb. rewrite (N2 c r H) in Hb. discriminate.
Qed.
Print Assumptions C99_trim.

(** Trimming twice is trimming once, and a string without spaces at its ends is unchanged. *)
Theorem C99_trim_stable : forall s,
  (forall c r, s = c :: r -> ~ blank c) -> (forall c r, s = r ++ [c] -> ~ blank c) -> trim s = s.
Proof.
  intros s P1 P2.
  assert (H1 : forall c r, s = c :: r -> isspace c = false).
  { intros c r E. destruct (isspace c) eqn:EC; auto. apply blank_isspace in EC. destruct (P1 c r E EC). }
  assert (H2 : forall c r, s = r ++ [c] -> isspace c = false).
  { intros c r E. destruct (isspace c) eqn:EC; auto. apply blank_isspace in EC. destruct (P2 c r E EC). }
  assert (RT : rtrim s = s).
  { unfold rtrim. destruct (rev s) as [|c r] eqn:E; [apply (f_equal (@rev ascii)) in E; rewrite rev_involutive in E; now rewrite E|].
    cbn [ltrim]. rewrite (H2 c (rev r)); [rewrite <- E; apply rev_involutive|].
    apply (f_equal (@rev ascii)) in E. rewrite rev_involutive in E. exact E. }
  unfold trim. rewrite RT. destruct s as [|c r]; auto. cbn [ltrim]. now rewrite (H1 c r).
Qed.
Print Assumptions C99_trim_stable.
