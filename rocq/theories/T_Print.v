(** * T_Print: number of digits (C99), printing of lines (C100). *)
From Coq Require Import String Ascii List ZArith Lia Bool.
From Verif Require Import Base M_Print.
Import ListNotations.
Open Scope Z_scope.

(** ** C99: the number of decimal digits, plus one for a minus sign. *)
Lemma ndigits_loop_ok : forall k fuel n d, (Z.to_nat k < fuel)%nat -> 0 <= k -> 10 ^ k <= Z.abs n < 10 ^ (k + 1) ->
  ndigits_loop (S fuel) n d = Some (d + k + 1).
Proof.
  intros k fuel n d Hf Hk. revert fuel n d Hf. pattern k. apply natlike_ind; [| |exact Hk]; clear k Hk.
  - intros fuel n d Hf Hn. change (10 ^ 0) with 1 in Hn. change (10 ^ (0 + 1)) with 10 in Hn.
    destruct fuel as [|fuel]; [lia|]. cbn [ndigits_loop]. rewrite (proj2 (Z.eqb_neq n 0)) by lia.
    replace (Z.quot n 10) with 0.
    + cbn. f_equal. lia.
    + symmetry. apply Z.quot_small_iff; lia.
  - intros k Hk IH fuel n d Hf Hn. destruct fuel as [|fuel]; [lia|].
    change (ndigits_loop (S (S fuel)) n d) with (if n =? 0 then Some d else ndigits_loop (S fuel) (Z.quot n 10) (d + 1)).
    assert (P0 : 0 < 10 ^ k) by (apply Z.pow_pos_nonneg; lia).
    rewrite Z.pow_succ_r in Hn by auto. replace (Z.succ k + 1) with (Z.succ (Z.succ k)) in Hn by lia.
    rewrite !Z.pow_succ_r in Hn by lia.
    rewrite (proj2 (Z.eqb_neq n 0)) by lia. rewrite IH; [f_equal; lia|lia|].
    rewrite Z.pow_add_r by lia. change (10 ^ 1) with 10. cbv beta.
    replace (Z.abs (n ÷ 10)) with (Z.abs n / 10).
    + split; [apply Z.div_le_lower_bound; lia|apply Z.div_lt_upper_bound; lia].
    + rewrite <- (Z.quot_abs n 10) by lia. change (Z.abs 10) with 10. rewrite Z.quot_div_nonneg by lia. reflexivity.
Qed.
Theorem C99_digits_partial : forall n d fuel, 0 < d -> 10 ^ (d - 1) <= Z.abs n < 10 ^ d -> (Z.to_nat d < fuel)%nat ->
  ndigits fuel n = Some (if n <? 0 then d + 1 else d).
Proof.
  intros n d fuel Hd Hn Hf. unfold ndigits. destruct fuel as [|fuel]; [lia|].
  rewrite (ndigits_loop_ok (d - 1)); [destruct (n <? 0); f_equal; lia|lia|lia|].
  replace (d - 1 + 1) with d by lia. auto.
Qed.
Print Assumptions C99_digits_partial.
(** Zero has one digit, but none is counted. *)
Theorem C99_digits_zero_refuted : forall fuel, ndigits (S fuel) 0 = Some 0.
Proof. reflexivity. Qed.
Print Assumptions C99_digits_zero_refuted.
Example C99_case : ndigits 20 (-9223372036854775808) = Some 20 /\ 10 ^ 18 <= Z.abs (-9223372036854775808) < 10 ^ 19 /\ ndigits 5 1000 = Some 4.
Proof. vm_compute. repeat split; discriminate. Qed.

(** ** C100 *)

(** The lines of a text, each followed by a newline, are the text (with a
    newline at the end), and no line contains a newline. *)
Lemma getlines_from_ok : forall s cur any, (any = false -> cur = []) -> ~ In newline cur ->
  concat (map (fun l => l ++ [newline]) (getlines_from s cur any)) =
    rev cur ++ s ++ (match rev s with
                     | [] => if any then [newline] else []
                     | c :: _ => if Ascii.eqb c newline then [] else [newline]
                     end) /\
  Forall (fun l => ~ In newline l) (getlines_from s cur any).
Proof.
  induction s as [|c s IH]; intros cur any HA HC; cbn [getlines_from].
  - destruct any.
    + cbn. rewrite !app_nil_r. split; auto. constructor; auto. intros H. apply in_rev in H. contradiction.
    + rewrite HA by auto. split; [reflexivity|constructor].
  - destruct (Ascii.eqb_spec c newline) as [->|Hc].
    + destruct (IH [] false) as (E & F); auto. cbn [map concat]. rewrite E. split.
      * cbn [rev app]. rewrite <- app_assoc. cbn [app]. f_equal. f_equal. f_equal.
        destruct (rev s) as [|c r] eqn:ER; cbn [app]; auto.
      * constructor; auto. intros H. apply in_rev in H. contradiction.
    + destruct (IH (c :: cur) true) as (E & F).
      * discriminate.
      * intros [->|H]; auto.
      * split; auto. rewrite E. cbn [rev]. rewrite <- !app_assoc. cbn [app]. f_equal. f_equal. f_equal.
        destruct (rev s) as [|c' r] eqn:ER; cbn [app]; auto.
        rewrite (proj2 (Ascii.eqb_neq c newline)); auto.
Qed.
Theorem C100_lines : forall text,
  Forall (fun l => ~ In newline l) (getlines text) /\
  concat (map (fun l => l ++ [newline]) (getlines text)) =
    text ++ (match rev text with [] => [] | c :: _ => if Ascii.eqb c newline then [] else [newline] end).
Proof. intros text. destruct (getlines_from_ok text [] false) as (E & F); auto. Qed.
Print Assumptions C100_lines.

(** The commands a program consists of (the others are steps of a line). *)
Definition source (c : pcmd) : Prop := match c with PLine _ _ | PIndent | PDeindent => True | _ => False end.
(** What is printed of a line. *)
Definition shown (to_file : bool) (line : list ascii) : list ascii := if to_file then c_str line else line.

(** The lines a program prints, with their indentation if the program is alone
    in changing it; [level]: the indentation at the start. *)
Fixpoint prints (main : bool) (level : Z) (k : list pcmd) : list (Z * list ascii) :=
  match k with
  | [] => []
  | PLine f l :: k => (level, shown f l) :: prints main level k
  | PIndent :: k => prints main (if main then level + 4 else level) k
  | PDeindent :: k => prints main (if main then Z.max 0 (level - 4) else level) k
  | _ :: k => prints main level k
  end.
(** A printed line. *)
Definition whole (header : nat -> list ascii) (d : nat * (Z * list ascii)) : list ascii :=
  header (fst d) ++ blanks (fst (snd d)) ++ snd (snd d) ++ [newline].
(** The lines of thread [t]. *)
Definition lines_of (t : nat) (done : list (nat * (Z * list ascii))) : list (Z * list ascii) :=
  map snd (filter (fun d => Nat.eqb (fst d) t) done).

Section Tear.
  Variable header : nat -> list ascii.

  Inductive phase (t : nat) (lock : option nat) (lvl : Z) : list pcmd -> list (Z * list ascii) -> list ascii -> Prop :=
  | ph_idle : forall k, Forall source k -> lock <> Some t -> phase t lock lvl k (prints (Nat.eqb t 0) lvl k) []
  | ph_wait : forall n x k, Forall source k -> lock <> Some t ->
      phase t lock lvl (PLock :: POut (header t ++ blanks n) :: POut (x ++ [newline]) :: PUnlock :: k)
        ((n, x) :: prints (Nat.eqb t 0) lvl k) []
  | ph_own : forall n x k, Forall source k -> lock = Some t ->
      phase t lock lvl (POut (header t ++ blanks n) :: POut (x ++ [newline]) :: PUnlock :: k)
        ((n, x) :: prints (Nat.eqb t 0) lvl k) []
  | ph_half : forall n x k, Forall source k -> lock = Some t ->
      phase t lock lvl (POut (x ++ [newline]) :: PUnlock :: k) ((n, x) :: prints (Nat.eqb t 0) lvl k) (header t ++ blanks n)
  | ph_out : forall k, Forall source k -> lock = Some t ->
      phase t lock lvl (PUnlock :: k) (prints (Nat.eqb t 0) lvl k) [].

  Variable p0 : pool.
  Variable lvl0 : Z.

  Definition inv (p : pool) (s : pstate) (done : list (nat * (Z * list ascii))) (part : list ascii) : Prop :=
    List.length p = List.length p0 /\
    ps_out s = concat (map (whole header) done) ++ part /\
    (ps_lock s = None -> part = []) /\
    (forall t, ps_lock s = Some t -> (t < List.length p)%nat) /\
    (forall t k0 k, nth_error p0 t = Some k0 -> nth_error p t = Some k ->
       exists fut pt, phase t (ps_lock s) (ps_indent s) k fut pt /\
         map snd (lines_of t done ++ fut) = map snd (prints (Nat.eqb t 0) lvl0 k0) /\
         (t = 0%nat -> lines_of t done ++ fut = prints true lvl0 k0) /\
         (ps_lock s = Some t -> part = pt)).

  Lemma prints_level : forall k l l', map snd (prints false l k) = map snd (prints false l' k).
  Proof. induction k as [|[] k IH]; intros l l'; cbn; auto. f_equal. auto. Qed.

  Lemma set_same : forall t k (p : pool), (t < List.length p)%nat -> nth_error (pool_set t k p) t = Some k.
  Proof.
    intros t k p H. unfold pool_set. rewrite nth_error_app2; rewrite firstn_length_le by lia; [|lia]. now rewrite Nat.sub_diag.
  Qed.
  Lemma set_other : forall t t' k (p : pool), (t < List.length p)%nat -> t' <> t -> nth_error (pool_set t k p) t' = nth_error p t'.
  Proof.
    intros t t' k p H N. unfold pool_set. destruct (Nat.lt_ge_cases t' t).
    - rewrite nth_error_app1 by (rewrite firstn_length_le; lia). rewrite <- (firstn_skipn t p) at 2.
      rewrite nth_error_app1; auto. rewrite firstn_length_le; lia.
    - rewrite nth_error_app2; rewrite firstn_length_le by lia; [|lia].
      replace (t' - t)%nat with (S (t' - S t))%nat by lia. cbn [nth_error].
      rewrite <- (firstn_skipn (S t) p) at 2. rewrite nth_error_app2; rewrite firstn_length_le by lia; [|lia]. reflexivity.
  Qed.
  Lemma set_len : forall t k (p : pool), (t < List.length p)%nat -> List.length (pool_set t k p) = List.length p.
  Proof. intros. unfold pool_set. rewrite app_length. cbn [List.length]. rewrite firstn_length_le, skipn_length; lia. Qed.

  Lemma lines_of_snoc : forall t done t' d, lines_of t (done ++ [(t', d)]) = lines_of t done ++ (if Nat.eqb t' t then [d] else []).
  Proof. intros. unfold lines_of. rewrite filter_app, map_app. cbn [filter fst]. destruct (Nat.eqb t' t); reflexivity. Qed.

  (** A thread whose own commands are untouched keeps its phase if the lock
      changes between states in which it does not hold it, and the indentation
      changes only by thread 0. *)
  Lemma phase_frame : forall t lock lvl lock' lvl' k fut pt, phase t lock lvl k fut pt ->
    (lock = Some t <-> lock' = Some t) -> (t = 0%nat -> lvl' = lvl) ->
    exists fut', phase t lock' lvl' k fut' pt /\ map snd fut' = map snd fut /\ (t = 0%nat -> fut' = fut).
  Proof.
    intros t lock lvl lock' lvl' k fut pt P HL HV.
    assert (PR : forall k, map snd (prints (Nat.eqb t 0) lvl' k) = map snd (prints (Nat.eqb t 0) lvl k) /\
                           (t = 0%nat -> prints (Nat.eqb t 0) lvl' k = prints (Nat.eqb t 0) lvl k)).
    { intros k'. destruct t as [|t]; [rewrite HV; auto|]. split; [apply prints_level|discriminate]. }
    destruct P as [k HS H|n x k HS H|n x k HS H|n x k HS H|k HS H]; destruct (PR k) as (P1 & P2);
      eexists; (split; [constructor; auto; tauto|]); cbn [map]; rewrite P1; (split; [reflexivity|intros X; now rewrite P2]).
  Qed.

  Lemma inv_step : forall p s done part t c k k' s', inv p s done part -> nth_error p t = Some (c :: k) ->
    pstep header t c k s = Some (k', s') -> exists done' part', inv (pool_set t k' p) s' done' part'.
  Proof.
    intros p s done part t c k k' s' (IL & IO & IN & IT & IP) HT HS.
    assert (LT : (t < List.length p)%nat) by (apply nth_error_Some; congruence).
    destruct (nth_error p0 t) as [k0|] eqn:E0; [|apply nth_error_None in E0; lia].
    destruct (IP t k0 _ E0 HT) as (fut & pt & PH & F1 & F2 & F3).
    (* everything about the other threads *)
    assert (OTH : forall done' part' s1,
      (forall u, u <> t -> lines_of u done' = lines_of u done) ->
      (forall u, u <> t -> (ps_lock s = Some u <-> ps_lock s1 = Some u)) ->
      (t <> 0%nat -> ps_indent s1 = ps_indent s) ->
      (forall u, u <> t -> ps_lock s1 = Some u -> part' = part) ->
      forall u k0u ku, u <> t -> nth_error p0 u = Some k0u -> nth_error p u = Some ku ->
       exists fut pt, phase u (ps_lock s1) (ps_indent s1) ku fut pt /\
         map snd (lines_of u done' ++ fut) = map snd (prints (Nat.eqb u 0) lvl0 k0u) /\
         (u = 0%nat -> lines_of u done' ++ fut = prints true lvl0 k0u) /\
         (ps_lock s1 = Some u -> part' = pt)).
    { intros done' part' s1 HD HL HV HP u k0u ku Nu E0u Eu. destruct (IP u k0u ku E0u Eu) as (futu & ptu & PHu & G1 & G2 & G3).
      destruct (phase_frame u _ _ (ps_lock s1) (ps_indent s1) _ _ _ PHu) as (fut' & PH' & M1 & M2).
      - apply HL. auto.
      - intros ->. apply HV. congruence.
      - exists fut', ptu. split; auto. rewrite HD by auto. rewrite !map_app in *. rewrite M1. split; auto. split.
        + intros Z0. rewrite M2 by auto. auto.
        + intros X. rewrite (HP u Nu X). apply G3. apply HL; auto. }
    assert (FIN : forall done' part' s1 fut' pt',
      ps_out s1 = concat (map (whole header) done') ++ part' ->
      (ps_lock s1 = None -> part' = []) ->
      (forall u, ps_lock s1 = Some u -> (u < List.length p)%nat) ->
      phase t (ps_lock s1) (ps_indent s1) k' fut' pt' ->
      map snd (lines_of t done' ++ fut') = map snd (lines_of t done ++ fut) ->
      (t = 0%nat -> lines_of t done' ++ fut' = lines_of t done ++ fut) ->
      (ps_lock s1 = Some t -> part' = pt') ->
      (forall u, u <> t -> lines_of u done' = lines_of u done) ->
      (forall u, u <> t -> (ps_lock s = Some u <-> ps_lock s1 = Some u)) ->
      (t <> 0%nat -> ps_indent s1 = ps_indent s) ->
      (forall u, u <> t -> ps_lock s1 = Some u -> part' = part) ->
      inv (pool_set t k' p) s1 done' part').
    { intros done' part' s1 fut' pt' H1 H2 H3 H4 H5 H6 H7 H8 H9 H10 H11.
      split; [rewrite set_len; auto|]. split; [auto|]. split; [auto|]. split; [intros u X; rewrite set_len; auto|].
      intros u k0u ku E0u Eu. destruct (Nat.eq_dec u t) as [->|Nu].
      - rewrite set_same in Eu by auto. injection Eu as <-. rewrite E0 in E0u. injection E0u as <-.
        exists fut', pt'. split; auto. split; [congruence|]. split; auto. intros Z0. rewrite H6; auto.
      - rewrite set_other in Eu by auto. eapply OTH; eauto. }
    inversion PH; subst; clear PH.
    - (* idle *)
      match goal with H : Forall source (c :: k) |- _ => inversion H as [|c' k1 SC SK]; subst end.
      destruct c as [f l| | | | |]; try contradiction; cbn [pstep] in HS; injection HS as <- <-.
      + exists done, part. eapply FIN; [exact IO|exact IN|exact IT|apply ph_wait; auto|reflexivity|auto|congruence|auto|tauto|auto|auto].
      + exists done, part. destruct (Nat.eqb_spec t 0) as [->|Nt].
        * eapply FIN; cbn [ps_lock ps_indent ps_out];
            [exact IO|exact IN|exact IT|apply ph_idle; auto|reflexivity|auto|congruence|auto|tauto|congruence|auto].
        * eapply FIN; [exact IO|exact IN|exact IT|apply ph_idle; auto| | |congruence|auto|tauto|auto|auto].
          -- cbn [prints]. rewrite (proj2 (Nat.eqb_neq t 0)) by auto. reflexivity.
          -- congruence.
      + exists done, part. destruct (Nat.eqb_spec t 0) as [->|Nt].
        * eapply FIN; cbn [ps_lock ps_indent ps_out];
            [exact IO|exact IN|exact IT|apply ph_idle; auto|reflexivity|auto|congruence|auto|tauto|congruence|auto].
        * eapply FIN; [exact IO|exact IN|exact IT|apply ph_idle; auto| | |congruence|auto|tauto|auto|auto].
          -- cbn [prints]. rewrite (proj2 (Nat.eqb_neq t 0)) by auto. reflexivity.
          -- congruence.
    - (* wait *)
      cbn [pstep] in HS. destruct (ps_lock s) eqn:EL; [discriminate|]. injection HS as <- <-. exists done, part.
      eapply FIN; cbn [ps_lock ps_indent ps_out];
        [exact IO|discriminate|congruence|apply ph_own; auto|reflexivity|auto|auto|auto| |auto|congruence].
      intros u Nu. split; congruence.
    - (* own *)
      cbn [pstep] in HS. injection HS as <- <-. exists done, (header t ++ blanks n).
      assert (part = []) by auto. subst part.
      eapply FIN; cbn [ps_lock ps_indent ps_out];
        [rewrite IO, app_nil_r; reflexivity|congruence|auto|apply ph_half; auto|reflexivity|auto|auto|auto|tauto|auto|congruence].
    - (* half *)
      cbn [pstep] in HS. injection HS as <- <-. exists (done ++ [(t, (n, x))]), [].
      assert (part = header t ++ blanks n) by auto. subst part.
      eapply FIN; cbn [ps_lock ps_indent ps_out]; [|auto|auto|apply ph_out; auto| | |auto| |tauto|auto|congruence].
      + rewrite IO, map_app, concat_app. cbn [map concat]. unfold whole at 3. cbn [fst snd]. rewrite !app_nil_r, <- !app_assoc. reflexivity.
      + rewrite lines_of_snoc, Nat.eqb_refl, <- app_assoc. reflexivity.
      + intros _. rewrite lines_of_snoc, Nat.eqb_refl, <- app_assoc. reflexivity.
      + intros u Nu. rewrite lines_of_snoc, (proj2 (Nat.eqb_neq t u)) by auto. apply app_nil_r.
    - (* out *)
      cbn [pstep] in HS. injection HS as <- <-. exists done, [].
      assert (part = []) by auto. subst part.
      eapply FIN; cbn [ps_lock ps_indent ps_out];
        [exact IO|auto|discriminate|apply ph_idle; auto; discriminate|reflexivity|auto|auto|auto| |auto|congruence].
      intros u Nu. split; congruence.
  Qed.
End Tear.

Lemma inv_start : forall header p0 lvl, Forall (Forall source) p0 -> inv header p0 lvl p0 (mkPs None lvl []) [] [].
Proof.
  intros header p0 lvl HS. split; [auto|]. split; [auto|]. split; [auto|]. split; [discriminate|].
  intros t k0 k E0 E. rewrite E0 in E. injection E as <-. exists (prints (Nat.eqb t 0) lvl k0), []. cbn [ps_lock ps_indent]. split.
  - apply ph_idle; [|discriminate]. rewrite Forall_forall in HS. apply HS. now apply nth_error_In in E0.
  - split; auto. split; [intros ->; reflexivity|discriminate].
Qed.
Lemma inv_runs : forall header p0 lvl x y, pruns header x y -> forall done part, inv header p0 lvl (fst x) (snd x) done part ->
  exists done' part', inv header p0 lvl (fst y) (snd y) done' part'.
Proof.
  intros header p0 lvl x y R. induction R as [x|p s t c k k' s' y HT HS R IH]; intros done part I; [eauto|].
  destruct (inv_step header p0 lvl p s done part t c k k' s' I HT HS) as (d1 & p1 & I1). eapply IH. exact I1.
Qed.

(** Any number of threads print, in any interleaving.  The output consists of
    whole lines (and possibly the header of the line being printed by the
    thread that holds the mutex); the lines of each thread are in its order;
    those of thread 0 have the indentation its own calls of indent and deindent
    give them.  When all threads are finished everything has been printed. *)
Theorem C100_whole_lines :
  forall (header : nat -> list ascii) (progs : pool) (level : Z) (p : pool) (s : pstate),
    Forall (Forall source) progs -> pruns header (progs, mkPs None level []) (p, s) ->
    exists done part, ps_out s = concat (map (whole header) done) ++ part /\
      (part = [] \/ exists t n, ps_lock s = Some t /\ part = header t ++ blanks n) /\
      (forall t prog, nth_error progs t = Some prog ->
         exists later, map snd (lines_of t done) ++ later = map snd (prints (Nat.eqb t 0) level prog)) /\
      (Forall (fun k => k = []) p -> part = [] /\ ps_lock s = None /\
         (forall t prog, nth_error progs t = Some prog ->
            map snd (lines_of t done) = map snd (prints (Nat.eqb t 0) level prog) /\
            (t = 0%nat -> lines_of t done = prints true level prog))).
Proof.
  intros header progs level p s HS R.
  destruct (inv_runs header progs level _ _ R [] [] (inv_start header progs level HS)) as (done & part & IL & IO & IN & IT & IP).
  cbn [fst snd] in *. exists done, part. split; [exact IO|]. split; [|split].
  - destruct (ps_lock s) as [t|] eqn:EL; [|left; auto].
    assert (LT := IT t eq_refl). destruct (nth_error p t) as [k|] eqn:E; [|apply nth_error_None in E; lia].
    destruct (nth_error progs t) as [k0|] eqn:E0; [|apply nth_error_None in E0; lia].
    destruct (IP t k0 k E0 E) as (fut & pt & PH & _ & _ & F3). rewrite (F3 eq_refl). destruct PH; auto. right. eauto.
  - intros t prog E0. destruct (nth_error p t) as [k|] eqn:E.
    + destruct (IP t prog k E0 E) as (fut & pt & _ & F1 & _). exists (map snd fut). rewrite <- map_app. exact F1.
    + apply nth_error_None in E. assert (t < List.length progs)%nat by (apply nth_error_Some; congruence). lia.
  - intros HF. rewrite Forall_forall in HF.
    assert (G : forall t prog, nth_error progs t = Some prog -> exists pt, phase header t (ps_lock s) (ps_indent s) [] [] pt /\
        map snd (lines_of t done) = map snd (prints (Nat.eqb t 0) level prog) /\ (t = 0%nat -> lines_of t done = prints true level prog)).
    { intros t prog E0. destruct (nth_error p t) as [k|] eqn:E.
      - assert (k = []) by (apply HF; eapply nth_error_In; eauto). subst k.
        destruct (IP t prog [] E0 E) as (fut & pt & PH & F1 & F2 & _).
        assert (fut = []) by (inversion PH; subst; reflexivity). subst fut. rewrite app_nil_r in *. eauto.
      - apply nth_error_None in E. assert (t < List.length progs)%nat by (apply nth_error_Some; congruence). lia. }
    assert (LN : ps_lock s = None).
    { destruct (ps_lock s) as [t|] eqn:EL; auto. assert (LT := IT t eq_refl).
      destruct (nth_error progs t) as [k0|] eqn:E0; [|apply nth_error_None in E0; lia].
      destruct (G t k0 E0) as (pt & PH & _). inversion PH; subst. congruence. }
    split; [auto|]. split; [auto|]. intros t prog E0. destruct (G t prog E0) as (pt & _ & X). exact X.
Qed.
Print Assumptions C100_whole_lines.

(** No deadlock: as long as a thread has commands left, some thread can go on. *)
Theorem C100_progress :
  forall (header : nat -> list ascii) (progs : pool) (level : Z) (p : pool) (s : pstate),
    Forall (Forall source) progs -> pruns header (progs, mkPs None level []) (p, s) ->
    (exists t c k, nth_error p t = Some (c :: k)) ->
    exists t c k k' s', nth_error p t = Some (c :: k) /\ pstep header t c k s = Some (k', s').
Proof.
  intros header progs level p s HS R (t & c & k & HT).
  destruct (inv_runs header progs level _ _ R [] [] (inv_start header progs level HS)) as (done & part & IL & IO & IN & IT & IP).
  cbn [fst snd] in *.
  destruct (ps_lock s) as [u|] eqn:EL.
  - assert (LU := IT u eq_refl). destruct (nth_error p u) as [ku|] eqn:E; [|apply nth_error_None in E; lia].
    destruct (nth_error progs u) as [k0|] eqn:E0; [|apply nth_error_None in E0; lia].
    destruct (IP u k0 ku E0 E) as (fut & pt & PH & _). inversion PH; subst; try congruence;
      do 5 eexists; (split; [exact E|reflexivity]).
  - assert (S1 : forall k0, exists k' s', pstep header t c k0 s = Some (k', s')).
    { intros k0. destruct c; cbn [pstep]; try rewrite EL; eauto. }
    destruct (S1 k) as (k' & s' & E). exists t, c, k, k', s'. auto.
Qed.
Print Assumptions C100_progress.

(** indent and deindent of the main thread undo each other. *)
Inductive nested : list pcmd -> Prop :=
| nest_nil : nested []
| nest_line : forall f l, nested [PLine f l]
| nest_app : forall a b, nested a -> nested b -> nested (a ++ b)
| nest_in : forall a, nested a -> nested (PIndent :: a ++ [PDeindent]).
Fixpoint level_after (level : Z) (k : list pcmd) : Z :=
  match k with
  | [] => level
  | PIndent :: k => level_after (level + 4) k
  | PDeindent :: k => level_after (Z.max 0 (level - 4)) k
  | _ :: k => level_after level k
  end.
Lemma level_nested : forall k, nested k -> forall level, 0 <= level -> level_after level k = level.
Proof.
  assert (AP : forall a b l, level_after l (a ++ b) = level_after (level_after l a) b).
  { induction a as [|[] a IH]; intros b l; cbn; auto. }
  induction 1 as [|f l|a b Ha IHa Hb IHb|a Ha IH]; intros level HL; auto.
  - rewrite AP, IHa, IHb; auto.
  - cbn [level_after]. rewrite AP, IH by lia. cbn [level_after]. lia.
Qed.
Lemma level_runs : forall header x y, pruns header x y ->
  forall k0, nth_error (fst x) 0 = Some k0 -> exists k, nth_error (fst y) 0 = Some k /\
    level_after (ps_indent (snd y)) k = level_after (ps_indent (snd x)) k0.
Proof.
  intros header x y R. induction R as [x|p s t c k k' s' y HT HS R IH]; intros k0 E0; [eauto|]. cbn [fst snd] in *.
  assert (LT : (t < List.length p)%nat) by (apply nth_error_Some; congruence).
  destruct t as [|t].
  - rewrite E0 in HT. injection HT as ->.
    destruct (IH k') as (k2 & A & B); [apply set_same; auto|]. exists k2. split; auto. rewrite B. clear - HS.
    destruct c as [| | | |x|]; cbn in HS; try (injection HS as <- <-; reflexivity).
    destruct (ps_lock s); [discriminate|]. injection HS as <- <-. reflexivity.
  - destruct (IH k0) as (k2 & A & B); [rewrite set_other by auto; auto|]. exists k2. split; auto. rewrite B. clear - HS.
    destruct c as [| | | |x|]; cbn in HS; try (injection HS as <- <-; reflexivity).
    destruct (ps_lock s); [discriminate|]. injection HS as <- <-. reflexivity.
Qed.
Theorem C100_indent :
  forall (header : nat -> list ascii) (progs : pool) (level : Z) (p : pool) (s : pstate) prog,
    0 <= level -> nth_error progs 0 = Some prog -> nested prog ->
    pruns header (progs, mkPs None level []) (p, s) -> nth_error p 0 = Some [] -> ps_indent s = level.
Proof.
  intros header progs level p s prog HL E N R F.
  destruct (level_runs header _ _ R prog E) as (k & A & B). cbn [fst snd ps_indent] in *.
  rewrite F in A. injection A as <-. cbn [level_after] in B. rewrite B. now apply level_nested.
Qed.
Print Assumptions C100_indent.

(** What is shown of a line is the line itself, unless it has a null character. *)
Theorem C100_shown : forall to_file line, ~ In nul line -> shown to_file line = line.
Proof.
  intros [] line H; auto. cbn [shown]. induction line as [|c line IH]; auto. cbn [c_str].
  destruct (Ascii.eqb_spec c nul) as [->|N]; [exfalso; apply H; now left|]. f_equal. apply IH. intros I. apply H. now right.
Qed.
Print Assumptions C100_shown.

(** A line printed with printf stops at a null character; the stream version
    prints all of it. *)
Theorem C100_nul_refuted :
  let text := [ascii_of_nat 97; nul; ascii_of_nat 98] in
  prints true 0 (println false true text) = [(0, [ascii_of_nat 97])] /\
  prints true 0 (println false false text) = [(0, text)].
Proof. vm_compute. auto. Qed.
Print Assumptions C100_nul_refuted.

(** One deindent too many is not remembered: a following indent gives 4. *)
Theorem C100_deindent_refuted : forall header,
  exists p s, pruns header ([[PDeindent; PIndent]], mkPs None 0 []) (p, s) /\ p = [[]] /\ ps_indent s = 4.
Proof.
  intros header. exists [[]], (mkPs None 4 []). split; [|auto].
  eapply pr_step with (t := 0%nat); [reflexivity|reflexivity|].
  eapply pr_step with (t := 0%nat); [reflexivity|reflexivity|]. apply pr_refl.
Qed.
Print Assumptions C100_deindent_refuted.

(** Two threads; thread 0 indents and prints two lines, thread 1 prints one. *)
Example C100_case :
  let str s := list_ascii_of_string s in
  let progs := [PIndent :: println false true (str "ab"%string ++ newline :: str "c"%string); println false true (str "x"%string)] in
  let header := fun t => if Nat.eqb t 0 then str "M"%string else str "T"%string in
  Forall (Forall source) progs /\
  exists p s, pruns header (progs, mkPs None 0 []) (p, s) /\ Forall (fun k => k = []) p /\
    ps_out s = str "M    ab"%string ++ newline :: str "T    x"%string ++ newline :: str "M    c"%string ++ [newline].
Proof.
  cbv zeta. split; [repeat constructor|].
  assert (ST : forall header p s t c k k' s' p' y, nth_error p t = Some (c :: k) -> pstep header t c k s = Some (k', s') ->
     pool_set t k' p = p' -> pruns header (p', s') y -> pruns header (p, s) y).
  { intros; subst; eapply pr_step; eauto. }
  do 2 eexists. split.
  - do 6 (eapply (ST _ _ _ 0%nat); [reflexivity|vm_compute; reflexivity|vm_compute; reflexivity|]).
    do 5 (eapply (ST _ _ _ 1%nat); [reflexivity|vm_compute; reflexivity|vm_compute; reflexivity|]).
    do 5 (eapply (ST _ _ _ 0%nat); [reflexivity|vm_compute; reflexivity|vm_compute; reflexivity|]).
    apply pr_refl.
  - split; [repeat constructor|vm_compute; reflexivity].
Qed.
