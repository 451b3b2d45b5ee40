(** * T_Elem: element-wise transforms in place (C91). *)
From Coq Require Import List ZArith Lia Bool Permutation.
From Verif Require Import Base Heap Conc M_Addr S_Addr L_Addr M_Elt L_Elt M_Einsum S_Einsum M_Block S_Blas L_Blas S_Block L_Block M_Elem.
Import ListNotations.
Open Scope Z_scope.

(** Extents that survive the conversion to [int]. *)
Definition int_dims (dims : list Z) : Prop := Forall (fun d => 0 <= d < 2 ^ 31) dims.

Lemma int_dims_id : forall dims, int_dims dims -> map to_int32 dims = dims.
Proof.
  induction 1 as [|d ds Hd Hds IH]; auto. cbn [map]. rewrite IH, to_int32_id by lia. auto.
Qed.

(** [t] is the target itself: the same elements at the same addresses. *)
Definition same_cells (C t : desc) : Prop :=
  ddims t = ddims C /\ forall idx, inb idx (ddims C) -> addr t idx = addr C idx.

Lemma preads_run : forall T l vs acc (k : list T -> prog T unit) (h : heap T),
  Forall2 (fun a v => h a = Some v) l vs -> run (preads l acc k) h = run (k (rev acc ++ vs)) h.
Proof.
  intros T l vs acc k h H. revert acc. induction H as [|a v l vs Ha H IH]; intros acc; simpl.
  - now rewrite app_nil_r.
  - rewrite Ha, IH. simpl. now rewrite <- app_assoc.
Qed.
Lemma preads_safe : forall T own shared l vs acc (k : list T -> prog T unit) (h : heap T),
  Forall2 (fun a v => (own a \/ shared a) /\ h a = Some v) l vs -> psafe own shared (k (rev acc ++ vs)) h ->
  psafe own shared (preads l acc k) h.
Proof.
  intros T own shared l vs acc k h H. revert acc. induction H as [|a v l vs Ha H IH]; intros acc HK; simpl.
  - now rewrite app_nil_r in HK.
  - destruct Ha as (Ho & Hv). split; auto. exists v. split; auto. apply IH. simpl. now rewrite <- app_assoc.
Qed.

(** The loop over the elements of [C], whatever the schedule: [us] are the
    contents of the tensors [ts]. *)
Lemma element_par : forall T (f : T -> list T -> T) (C : desc) (ts : list desc) (c : list Z -> T) (us : list (list Z -> T))
    threads (h : heap T),
  inj C -> holds h C c ->
  Forall2 (fun t u => ddims t = ddims C /\ holds h t u /\ (disj t C \/ same_cells C t)) ts us ->
  Permutation (concat threads) (indices (ddims C)) ->
  par_spec (omp_for (element_body f C ts) threads) h (fun h' =>
    holds h' C (fun idx => f (c idx) (map (fun u => u idx) us)) /\
    (forall a, ~ cell C a -> h' a = h a)).
Proof.
  intros T f C ts c us threads h Hi HC HT HP. unfold omp_for.
  apply (par_spec_weaken) with (Q := fun h' =>
     (forall x, In x (indices (ddims C)) -> h' (addr C x) = Some (f (c x) (map (fun u => u x) us))) /\
     (forall a, ~ owned (indices (ddims C)) (addr C) a -> h' a = h a)).
  { intros h' (H1 & H2). split.
    - intros idx Hin. now rewrite H1 by (now apply in_indices).
    - intros a Hna. apply H2. now rewrite owned_cells. }
  apply (par_cells _ _ _ _ _ (fun x => Some (f (c x) (map (fun u => u x) us)))); auto.
  - now apply addr_NoDup.
  - intros x h' Hx Hag. assert (Hx' := Hx). apply in_indices in Hx.
    assert (EC : h' (addr C x) = Some (c x)) by (rewrite Hag; auto).
    assert (ER : Forall2 (fun a v => (a = addr C x \/ ~ owned (indices (ddims C)) (addr C) a) /\ h' a = Some v)
                         (map (fun t => subscript t x) ts) (map (fun u => u x) us)).
    { clear - HT Hx Hag HC Hi. induction HT as [|t u ts us (D & HH & HD) HT IH]; simpl; constructor; auto.
      assert (Hxt : inb x (ddims t)) by (rewrite D; auto).
      rewrite subscript_inb by auto.
      assert (HA : addr t x = addr C x \/ ~ owned (indices (ddims C)) (addr C) (addr t x)).
      { destruct HD as [HD|(_ & HD)]; [|left; auto].
        right. rewrite owned_cells. intros (j & Hj & E). apply (HD x j Hxt Hj E). }
      split; [exact HA|]. rewrite Hag by exact HA. apply HH. auto. }
    unfold element_body. rewrite subscript_inb by auto. cbn [psafe run]. rewrite EC. split.
    + split; [left; auto|]. exists (c x). split; auto.
      apply (preads_safe _ _ _ _ (map (fun u => u x) us)); [clear - ER; induction ER as [|? ? ? ? (HA & HB)]; constructor; auto; destruct HA; auto|]. cbn [rev app psafe]. split; auto. split; eauto.
    + rewrite (preads_run _ _ (map (fun u => u x) us)) by (clear - ER; induction ER; constructor; tauto).
      cbn [rev app run]. rewrite EC. eexists. split; [reflexivity|].
      unfold upd. now rewrite Z.eqb_refl.
Qed.

(** element: every element of C becomes the operator applied to itself and the
    elements of the other tensors at the same place, whatever the schedule,
    when each of them is C itself or shares no element with C.  Missing: other
    overlaps, see [C91_overlap_refuted]. *)
Theorem C91_element_partial :
  forall (T : Type) (f : T -> list T -> T) (C : desc) (ts : list desc) (c : list Z -> T) (us : list (list Z -> T))
         (threads : list (list (list Z))) (h : heap T),
    inj C -> int_dims (ddims C) -> holds h C c ->
    Forall2 (fun t u => ddims t = ddims C /\ holds h t u /\ (disj t C \/ same_cells C t)) ts us ->
    Permutation (concat threads) (transform_range C) ->
    exists pool, element f C ts threads = Ok pool /\
    par_spec pool h (fun h' =>
      holds h' C (fun idx => f (c idx) (map (fun u => u idx) us)) /\
      (forall a, ~ cell C a -> h' a = h a)).
Proof.
  intros T f C ts c us threads h Hi HD HC HT HP. unfold transform_range in HP. rewrite int_dims_id in HP by auto.
  eexists. split; [|apply element_par; eauto]. unfold element.
  replace (existsb _ ts) with false; auto. symmetry. clear - HT.
  induction HT as [|t u ts us (D & _) HT IH]; simpl; auto.
  destruct (list_eq_dec Z.eq_dec (ddims C) (ddims t)); simpl; auto. congruence.
Qed.
Print Assumptions C91_element_partial.

(** Extents that differ from those of C are rejected before anything is written. *)
Theorem C91_shape :
  forall (T : Type) (f : T -> list T -> T) (C : desc) (ts : list desc) threads,
    element f C ts threads = Throw <-> exists t, In t ts /\ ddims t <> ddims C.
Proof.
  intros T f C ts threads. unfold element.
  destruct (existsb _ ts) eqn:E.
  - split; auto. intros _. apply existsb_exists in E as (t & Ht & E). exists t. split; auto.
    destruct (list_eq_dec Z.eq_dec (ddims C) (ddims t)); congruence.
  - split; [discriminate|]. intros (t & Ht & Hn). exfalso.
    assert (existsb (fun t => if list_eq_dec Z.eq_dec (ddims C) (ddims t) then false else true) ts = true).
    { apply existsb_exists. exists t. split; auto. destruct (list_eq_dec Z.eq_dec (ddims C) (ddims t)); congruence. }
    congruence.
Qed.
Print Assumptions C91_shape.

(** element_transform: C[idx] becomes f(C[idx]), whatever the schedule. *)
Theorem C91_transform :
  forall (T : Type) (f : T -> T) (C : desc) (c : list Z -> T) (threads : list (list (list Z))) (h : heap T),
    inj C -> int_dims (ddims C) -> holds h C c -> Permutation (concat threads) (transform_range C) ->
    par_spec (element_transform f C threads) h (fun h' =>
      holds h' C (fun idx => f (c idx)) /\ (forall a, ~ cell C a -> h' a = h a)).
Proof.
  intros T f C c threads h Hi HD HC HP. unfold transform_range in HP. rewrite int_dims_id in HP by auto.
  apply (element_par T (fun v _ => f v) C [] c [] threads h); auto.
Qed.
Print Assumptions C91_transform.

(** ** Block tensors *)

(** Parallel loops run one after the other, every one to its end. *)
Fixpoint turns_spec {T} (pools : list (list (prog T unit))) (h : heap T) (Q : heap T -> Prop) : Prop :=
  match pools with
  | [] => Q h
  | p :: r => par_spec p h (fun h1 => turns_spec r h1 Q)
  end.

Lemma turns_weaken : forall T pools (h : heap T) (Q Q' : heap T -> Prop), (forall h, Q h -> Q' h) ->
  turns_spec pools h Q -> turns_spec pools h Q'.
Proof.
  induction pools as [|p r IH]; intros h Q Q' HQ; simpl; auto.
  intros H. eapply par_spec_weaken; [|exact H]. intros h1 H1. eapply IH; eauto.
Qed.

Lemma combine_app_nth : forall A (l : list A) i d, nth_error l i = Some d ->
  nth_error (combine (seq 0 (length l)) l) i = Some (i, d).
Proof.
  intros A l. assert (G : forall s i d, nth_error l i = Some d -> nth_error (combine (seq s (length l)) l) i = Some ((s + i)%nat, d)).
  { induction l as [|x l IH]; intros s [|i] d H; simpl in *; try discriminate.
    - injection H as ->. now rewrite Nat.add_0_r.
    - rewrite (IH (S s) i d H). do 2 f_equal. lia. }
  intros. apply (G 0%nat). auto.
Qed.

(** Blocks handled one after the other: [bs] is what is left, starting at number [s]. *)
Lemma blocks_turns : forall T (f : T -> T) (th : nat -> list (list (list Z))) (c : nat -> list Z -> T) bs s (h : heap T),
  (forall i d, nth_error bs i = Some d -> inj d /\ int_dims (ddims d) /\ holds h d (c (s + i)%nat) /\
     Permutation (concat (th (s + i)%nat)) (transform_range d)) ->
  (forall i j d e, nth_error bs i = Some d -> nth_error bs j = Some e -> i <> j -> disj d e) ->
  turns_spec (map (fun p => element_transform f (snd p) (th (fst p))) (combine (seq s (length bs)) bs)) h (fun h' =>
    (forall i d, nth_error bs i = Some d -> holds h' d (fun idx => f (c (s + i)%nat idx))) /\
    (forall a, (forall i d, nth_error bs i = Some d -> ~ cell d a) -> h' a = h a)).
Proof.
  intros T f th c. induction bs as [|b bs IH]; intros s h HB HS; simpl.
  - split; auto. intros [|i] d H; discriminate.
  - destruct (HB 0%nat b eq_refl) as (Ib & Db & Hb & Pb). rewrite Nat.add_0_r in Hb, Pb.
    eapply par_spec_weaken; [|apply (C91_transform T f b (c s) (th s) h Ib Db Hb Pb)].
    intros h1 (H1 & F1).
    assert (KO : forall i d, nth_error bs i = Some d -> forall idx, inb idx (ddims d) -> ~ cell b (addr d idx)).
    { intros i d Hd idx Hx (j & Hj & E). symmetry in E.
      exact (HS 0%nat (S i) b d eq_refl Hd ltac:(discriminate) j idx Hj Hx E). }
    eapply turns_weaken; [|apply (IH (S s) h1)].
    + intros h2 (H2 & F2). split.
      * intros [|i] d Hd; simpl in Hd.
        -- injection Hd as <-. rewrite Nat.add_0_r. intros idx Hx. rewrite F2; [apply H1; auto|].
           intros i d Hd (j & Hj & E). apply (KO i d Hd j Hj). exists idx. auto.
        -- specialize (H2 i d Hd). now replace (s + S i)%nat with (S s + i)%nat by lia.
      * intros a Ha. rewrite F2; [apply F1; apply (Ha 0%nat b eq_refl)|]. intros i d Hd. apply (Ha (S i) d Hd).
    + intros i d Hd. destruct (HB (S i) d Hd) as (I & D & H & P).
      replace (s + S i)%nat with (S s + i)%nat in H, P by lia. split; auto. split; auto. split; auto.
      intros idx Hx. rewrite F1 by (eapply KO; eauto). auto.
    + intros i j d e Hd He Hn. apply (HS (S i) (S j) d e Hd He). congruence.
Qed.

Lemma rowmaj_inj' : forall d, rowmaj d -> inj d.
Proof.
  intros d Hr i j Hi Hj E. apply (rm_inj 0 (ddims d)); auto. unfold addr in *. simpl.
  unfold rowmaj in Hr. rewrite Hr in E. lia.
Qed.

(** A block tensor: the elements of the blocks are transformed; when f leaves
    zero alone this is the transform of the whole dense tensor.  Missing: other
    functions, see [C91_block_refuted]. *)
Theorem C91_block_partial :
  forall (O : Ops) (f : car O -> car O) (rank : nat) (C : bt) (sizes : list Z) (c : nat -> list Z -> car O)
         (threads : nat -> list (list (list Z))) (h : heap (car O)),
    (0 < rank)%nat -> bt_ok rank C sizes -> Forall (fun n => n < 2 ^ 31) sizes -> bt_sep C -> bt_holds h C c ->
    (forall k d, nth_error (bt_blocks C) k = Some d -> Permutation (concat (threads k)) (transform_range d)) ->
    turns_spec (bt_element_transform f C threads) h (fun h' => exists c',
      bt_holds h' C c' /\ (forall a, ~ bt_cell C a -> h' a = h a) /\
      (forall k idx, c' k idx = f (c k idx)) /\
      (f o0 = o0 -> forall idx, idx <> [] -> dense sizes c' idx = f (dense sizes c idx))).
Proof.
  intros O f rank C sizes c threads h Hr (HN & HL & HB & HT) HM HS HC HP.
  unfold bt_element_transform. eapply turns_weaken; [|apply (blocks_turns _ f threads c (bt_blocks C) 0 h)].
  - intros h' (H1 & F1). exists (fun k idx => f (c k idx)). split; [|split; [|split]].
    + intros k d Hd. exact (H1 k d Hd).
    + intros a Ha. apply F1. intros i d Hd Hc. apply Ha. exists i, d. auto.
    + auto.
    + intros Hf idx Hne. destruct (in_blk_dec sizes idx) as [(k & Hk)|Hno].
      * rewrite !(dense_in _ _ _ _ k) by auto. reflexivity.
      * rewrite !dense_out by auto. auto.
  - intros i d Hd. split; [apply rowmaj_inj'; apply contiguous_rowmaj; apply (proj2 (HB i d Hd))|]. split; [|split; [apply (HC i d Hd)|apply (HP i d Hd)]].
    destruct (HB i d Hd) as (D & _). rewrite D. unfold int_dims.
    assert (Hi : (i < length sizes)%nat) by (rewrite <- HL; apply nth_error_Some; congruence).
    apply Forall_forall. intros x Hx. apply repeat_spec in Hx. subst x.
    rewrite Forall_forall in HN, HM. split; [apply HN|apply HM]; apply nth_In; auto.
  - exact HS.
Qed.
Print Assumptions C91_block_partial.

(** ** What fails *)

Lemma one_thread : forall T (p : prog T unit) h h', run p h = Ok (tt, h') -> psteps ([p], h) ([PRet tt], h').
Proof.
  intros T p. induction p as [[]|a k IH|a v k IH]; intros h h' H.
  - inversion H; subst. constructor.
  - cbn [run] in H. destruct (h a) as [v|] eqn:E; [|discriminate]. eapply pss_step; [|apply (IH v); eauto].
    apply (ps_rd [PRd a k] h 0%nat a k v); auto.
  - cbn [run] in H. destruct (h a) as [w|] eqn:E; [|discriminate]. eapply pss_step; [|apply IH; eauto].
    apply (ps_wr [PWr a v k] h 0%nat a v k w); auto.
Qed.

Definition cells3 : heap Z := fun z => nth (Z.to_nat z) [Some 10; Some 20; Some 30] None.

(** C = elements 1 and 2 of a buffer, the other argument = elements 0 and 1,
    the operator returns its second argument.  Two iterations on two threads:
    the result depends on who is first. *)
Theorem C91_overlap_refuted :
  let C := mkDesc 1 [2] [1] in let A := mkDesc 0 [2] [1] in
  let f := fun (_ : Z) (vs : list Z) => nth 0 vs 0 in
  exists (pool : list (prog Z unit)) (h1 h2 : heap Z) (ps1 ps2 : list (prog Z unit)),
    element f C [A] [[[0]]; [[1]]] = Ok pool /\ Permutation (concat [[[0]]; [[1]]]) (transform_range C) /\
    psteps (pool, cells3) (ps1, h1) /\ pdone ps1 /\ psteps (pool, cells3) (ps2, h2) /\ pdone ps2 /\
    h1 2 = Some 10 /\ h2 2 = Some 20.
Proof.
  cbv zeta. eexists. do 4 eexists. split; [reflexivity|]. split; [apply Permutation_refl|].
  cbn [omp_for map pseq element_body preads subscript addr wrap_negative pbind ddims dstrides dbase dotp rev app].
  split.
  { eapply pss_step; [eapply (ps_rd _ _ 0%nat); reflexivity|]. eapply pss_step; [eapply (ps_rd _ _ 0%nat); reflexivity|].
    eapply pss_step; [eapply (ps_wr _ _ 0%nat); reflexivity|].
    eapply pss_step; [eapply (ps_rd _ _ 1%nat); reflexivity|]. eapply pss_step; [eapply (ps_rd _ _ 1%nat); reflexivity|].
    eapply pss_step; [eapply (ps_wr _ _ 1%nat); reflexivity|]. apply pss_refl. }
  split; [repeat constructor|]. split.
  { eapply pss_step; [eapply (ps_rd _ _ 1%nat); reflexivity|]. eapply pss_step; [eapply (ps_rd _ _ 1%nat); reflexivity|].
    eapply pss_step; [eapply (ps_wr _ _ 1%nat); reflexivity|].
    eapply pss_step; [eapply (ps_rd _ _ 0%nat); reflexivity|]. eapply pss_step; [eapply (ps_rd _ _ 0%nat); reflexivity|].
    eapply pss_step; [eapply (ps_wr _ _ 0%nat); reflexivity|]. apply pss_refl. }
  split; [repeat constructor|]. split; reflexivity.
Qed.
Print Assumptions C91_overlap_refuted.

(** Adding one to every element of a block tensor with two 1 x 1 blocks: the
    element (0, 1) reads as zero afterwards, not as one. *)
Definition two_blocks : bt := bt_ctor 2 9 [0; 1] [1; 1].
Definition two_cells : heap Z := fun z => if z =? 0 then Some 5 else if z =? 1 then Some 7 else if z =? 9 then Some 0 else None.
Theorem C91_block_refuted :
  (exists h2, bt_read (O := ZOps) two_blocks [0; 1] two_cells = Ok (0, h2)) /\
  turns_spec (bt_element_transform Z.succ two_blocks (fun _ => [[[0; 0]]])) two_cells (fun h' =>
    (exists h2, bt_read (O := ZOps) two_blocks [0; 0] h' = Ok (6, h2)) /\
    (exists h2, bt_read (O := ZOps) two_blocks [0; 1] h' = Ok (0, h2))) /\
  Z.succ 0 <> 0.
Proof.
  split; [eexists; reflexivity|]. split; [|discriminate].
  assert (OK : bt_ok 2 two_blocks [1; 1]).
  { split; [repeat constructor; lia|]. split; [reflexivity|]. split.
    - intros [|[|k]] d Hd; cbn in Hd; try (destruct k; discriminate); injection Hd as <-; split; try reflexivity;
        apply contiguous_rowmaj; reflexivity.
    - split; [reflexivity|]. split; [|reflexivity]. intros [|[|k]] Hk; try reflexivity. cbn in Hk. lia. }
  eapply turns_weaken; [|apply (C91_block_partial ZOps Z.succ 2 two_blocks [1; 1] (fun k _ => match k with 0%nat => 5 | _ => 7 end)
     (fun _ => [[[0; 0]]]) two_cells); auto; try lia].
  - intros h' (c' & HC & HF & HV & _).
    assert (E0 : h' 0 = Some 6).
    { specialize (HC 0%nat _ eq_refl [0; 0]). rewrite HV in HC. apply HC. repeat constructor; cbn; lia. }
    assert (E9 : h' 9 = Some 0).
    { rewrite HF; [reflexivity|]. intros (k & d & Hd & i & Hi & E).
      destruct k as [|[|k]]; cbn in Hd; try (destruct k; discriminate); injection Hd as <-;
      apply (in_indices) in Hi; cbn in Hi; destruct Hi as [<-|[]]; vm_compute in E; discriminate. }
    split.
    + exists h'. change (bt_read (O := ZOps) two_blocks [0; 0] h') with (bind (rd h' 0) (fun v => Ok (v, h'))).
      unfold rd. rewrite E0. reflexivity.
    + exists h'. change (bt_read (O := ZOps) two_blocks [0; 1] h') with
        (bind (bind (rd h' 9) (fun z => if z =? 0 then Ok (9, h') else bind (wr h' 9 0) (fun g => Ok (9, g))))
              (fun r => bind (rd (snd r) (fst r)) (fun v => Ok (v, snd r)))).
      unfold rd. rewrite E9. cbn [bind Z.eqb fst snd]. rewrite E9. reflexivity.
  - repeat constructor; lia.
  - intros [|[|i]] [|[|j]] d e Hd He Hn; cbn in Hd, He; try (destruct i; discriminate); try (destruct j; discriminate);
      try congruence; injection Hd as <-; injection He as <-; intros x y Hx Hy E;
      apply in_indices in Hx; apply in_indices in Hy; cbn in Hx, Hy; destruct Hx as [<-|[]]; destruct Hy as [<-|[]]; vm_compute in E; discriminate.
  - intros [|[|k]] d Hd; cbn in Hd; try (destruct k; discriminate); injection Hd as <-; intros x Hx;
      apply in_indices in Hx; cbn in Hx; destruct Hx as [<-|[]]; reflexivity.
  - intros [|[|k]] d Hd; cbn in Hd; try (destruct k; discriminate); injection Hd as <-; apply Permutation_refl.
Qed.
Print Assumptions C91_block_refuted.

(** A 2 x 2 tensor and a view of every other column of a 2 x 4 buffer, three threads. *)
Example C91_case :
  let C := mkDesc 0 [2; 2] [2; 1] in let A := mkDesc 10 [2; 2] [4; 2] in
  let h := fun z => if (0 <=? z) && (z <? 4) then Some (z + 1) else if (10 <=? z) && (z <? 18) then Some (10 * z) else None in
  inj C /\ int_dims (ddims C) /\ holds h C (fun i => dotp i [2; 1] + 1) /\
  holds h A (fun i => 100 + 10 * dotp i [4; 2]) /\ disj A C /\ same_cells C C /\
  Permutation (concat [[[1; 1]]; [[0; 0]; [0; 1]]; [[1; 0]]]) (transform_range C).
Proof.
  cbv zeta. split; [intros i j; apply (rm_inj 0 [2; 2])|]. split; [repeat constructor; cbn; lia|].
  split; [|split; [|split; [|split]]].
  - intros i Hi. apply in_indices in Hi. cbn in Hi. repeat destruct Hi as [<-|Hi]; try reflexivity. destruct Hi.
  - intros i Hi. apply in_indices in Hi. cbn in Hi. repeat destruct Hi as [<-|Hi]; try reflexivity. destruct Hi.
  - intros i j Hi Hj. apply in_indices in Hi. apply in_indices in Hj. cbn in Hi, Hj.
    repeat destruct Hi as [<-|Hi]; try destruct Hi; repeat destruct Hj as [<-|Hj]; try destruct Hj; vm_compute; discriminate.
  - split; auto.
  - change (transform_range _) with [[0; 0]; [0; 1]; [1; 0]; [1; 1]]. cbn [concat app].
    apply Permutation_sym. change ([1;1] :: [[0;0];[0;1];[1;0]]) with ([[1; 1]] ++ [[0;0];[0;1];[1;0]]).
    apply (Permutation_app_comm [[0;0];[0;1];[1;0]] [[1;1]]).
Qed.
