(** * L_BlockEinsum: lemmas for einsum on block-diagonal tensors. *)
From Coq Require Import List ZArith Lia Bool Permutation Ring.
From Verif Require Import Base Heap Conc M_Addr S_Addr L_Addr M_Elt L_Elt M_Einsum S_Einsum L_Einsum T_Einsum
  S_Blas M_Blas L_Blas M_Dispatch S_Dispatch L_Dispatch L_Paths T_Dispatch M_Block S_Block L_Block L_Tiled
  M_BlockEinsum S_BlockEinsum.
Import ListNotations.
Open Scope Z_scope.

(** ** One thread *)
Lemma par_run : forall T (p : prog T unit) h Q, par_spec [p] h Q -> exists h', run p h = Ok (Datatypes.tt, h') /\ Q h'.
Proof.
  induction p as [x|a k IH|a v k IH]; intros h Q (H1 & H2).
  - destruct x. exists h. split; auto. destruct (H1 _ _ (pss_refl _)) as (_ & _ & H). apply H. constructor; auto.
  - destruct (H1 _ _ (pss_refl _)) as (F & _ & _). destruct (h a) as [w|] eqn:E.
    + assert (S1 : pstep ([PRd a k], h) ([k w], h)) by apply (ps_rd [PRd a k] h 0 a k w eq_refl E).
      destruct (IH w h Q) as (h' & R & HQ).
      * split; [|inversion H2; auto]. intros ps' h' Hs. apply H1. econstructor; eauto.
      * exists h'. simpl. rewrite E. auto.
    + elim F. exists 0%nat. left. exists a, k. auto.
  - destruct (H1 _ _ (pss_refl _)) as (F & _ & _). destruct (h a) as [w|] eqn:E.
    + assert (S1 : pstep ([PWr a v k], h) ([k], upd h a v)) by apply (ps_wr [PWr a v k] h 0 a v k w eq_refl E).
      destruct (IH (upd h a v) Q) as (h' & R & HQ).
      * split; [|inversion H2; auto]. intros ps' h' Hs. apply H1. econstructor; eauto.
      * exists h'. simpl. rewrite E. auto.
    + elim F. exists 0%nat. right. exists a, v, k. auto.
Qed.

Lemma plan_run_spec : forall (O : Ops) r (Q : heap (car O) -> Prop), einsum_spec r Q ->
  exists h', plan_run r = Ok h' /\ Q h'.
Proof.
  intros O r Q (h1 & body & iters & -> & H). specialize (H [iters]). simpl in H. rewrite app_nil_r in H.
  destruct (par_run _ _ _ _ (H (Permutation_refl _))) as (h' & E & HQ). exists h'. split; auto.
  unfold plan_run. cbn [bind]. rewrite E. reflexivity.
Qed.

(** ** Sums restricted to a block *)
Section Sums.
  Context {O : Ops} (HR : is_ring O).
  Notation T := (car O).

  Lemma Sum_over_cong : forall L ext env env' (f g : (nat -> Z) -> T),
    (forall e e', (forall l, In l L -> e l = e' l /\ 0 <= e l < ext l) ->
       (forall l, ~ In l L -> e l = env l) -> (forall l, ~ In l L -> e' l = env' l) -> f e = g e') ->
    Sum_over L ext env f = Sum_over L ext env' g.
  Proof.
    induction L as [|l L IH]; intros ext env env' f g H; simpl.
    - apply H; simpl; tauto.
    - apply zsum_ext. intros v Hv. apply IH. intros e e' H1 H2 H3.
      apply H.
      + intros x Hx. destruct (in_dec Nat.eq_dec x L) as [Hi|Hi]; [auto|].
        destruct Hx as [<-|]; [|tauto]. rewrite H2, H3 by auto. unfold upde. rewrite Nat.eqb_refl. auto.
      + intros x Hx. simpl in Hx. rewrite H2 by tauto. unfold upde. destruct (Nat.eqb_spec x l); auto. subst. tauto.
      + intros x Hx. simpl in Hx. rewrite H3 by tauto. unfold upde. destruct (Nat.eqb_spec x l); auto. subst. tauto.
  Qed.

  Lemma Sum_over_0 : forall L ext env (f : (nat -> Z) -> T),
    (forall e, (forall l, ~ In l L -> e l = env l) -> f e = o0) -> Sum_over L ext env f = o0.
  Proof.
    induction L as [|l L IH]; intros ext env f H; simpl; auto.
    apply (L_Block.zsum_zero O HR). intros v Hv. apply IH. intros e He. apply H. intros x Hx. simpl in Hx.
    rewrite He by tauto. unfold upde. destruct (Nat.eqb_spec x l); auto. subst. tauto.
  Qed.

  Variable sizes : list Z.
  Hypothesis HN : Forall (fun n => 0 <= n) sizes.
  Notation N := (off sizes (length sizes)).
  (** [F] vanishes unless all labels of [S] lie in one block. *)
  Definition supp (S : list nat) (F : (nat -> Z) -> T) : Prop :=
    forall env, (forall k, ~ in_blk sizes k (map env S)) -> F env = o0.

  Lemma in_blk_at : forall k (S : list nat) (env : nat -> Z) (l : nat), in_blk sizes k (map env S) -> In l S -> off sizes k <= env l < off sizes (Datatypes.S k).
  Proof. intros k S env l (_ & H) Hl. rewrite Forall_forall in H. apply H. now apply in_map. Qed.

  Lemma sum_block : forall S F k c0, env_proper F -> supp S F -> (k < length sizes)%nat -> In c0 S ->
    forall L env, NoDup L -> incl L S -> ~ In c0 L -> 0 <= env c0 < nth k sizes 0 ->
    Sum_over L (fun _ => N) (fun l => off sizes k + env l) F =
    Sum_over L (fun _ => nth k sizes 0) env (fun e => F (fun l => off sizes k + e l)).
  Proof.
    intros S F k c0 HF HS Hk Hc0. induction L as [|l L IH]; intros env ND HI Hc He; simpl; auto.
    inversion ND; subst. destruct (off_bounds sizes k HN Hk) as (B1 & B2 & B3 & B4).
    rewrite (zsum_window O HR N (off sizes k) (nth k sizes 0)); auto.
    - apply zsum_ext. intros v Hv.
      transitivity (Sum_over L (fun _ => N) (fun x => off sizes k + upde env l v x) F).
      + apply Sum_over_cong. intros e e' H1' H2' H3'. apply HF. intros x.
        destruct (in_dec Nat.eq_dec x L) as [Hi|Hi]; [apply H1'; auto|]. rewrite H2', H3' by auto.
        unfold upde. destruct (Nat.eqb_spec x l); auto.
      + apply IH; auto.
        * intros x Hx. apply HI. simpl; auto.
        * simpl in Hc; tauto.
        * unfold upde. destruct (Nat.eqb_spec c0 l); [subst; simpl in Hc; tauto|auto].
    - intros p Hp Hnp. apply Sum_over_0. intros e Hee. apply HS. intros j Hj.
      assert (E1 : e c0 = off sizes k + env c0).
      { rewrite Hee by (simpl in Hc; tauto). unfold upde. destruct (Nat.eqb_spec c0 l); [subst; simpl in Hc; tauto|auto]. }
      assert (E2 : e l = p) by (rewrite Hee by auto; unfold upde; now rewrite Nat.eqb_refl).
      assert (G1 := in_blk_at j S e c0 Hj Hc0). assert (G2 := in_blk_at j S e l Hj (HI l (or_introl eq_refl))).
      assert (j = k). { apply (off_unique sizes (e c0)); auto. lia. }
      subst j. lia.
  Qed.

  (** Summing over all labels: block by block. *)
  Lemma sum_blocks : forall L F env, (forall e e', (forall l, In l L -> e l = e' l) -> F e = F e') ->
    supp L F -> NoDup L -> L <> [] ->
    Sum_over L (fun _ => N) env F =
    lsum (seq 0 (length sizes)) (fun k => Sum_over L (fun _ => nth k sizes 0) env (fun e => F (fun l => off sizes k + e l))).
  Proof.
    intros [|l L] F env HF HS ND Hne; [congruence|]. simpl. rewrite (zsum_split O HR) by auto.
    inversion ND; subst. apply lsum_ext. intros k Hk. apply in_seq in Hk. apply zsum_ext. intros v Hv.
    assert (HP : env_proper F) by (intros e1 e2 He; apply HF; auto).
    rewrite <- (sum_block (l :: L) F k l HP HS); simpl; auto; try lia.
    - apply Sum_over_cong. intros e e' H1' H2' H3'. apply HF. intros x [<-|Hx]; [|apply H1'; auto].
      rewrite H2', H3' by auto. unfold upde. now rewrite Nat.eqb_refl.
    - intros x Hx; simpl; auto.
    - unfold upde. rewrite Nat.eqb_refl. auto.
  Qed.
End Sums.

(** Products of dense factors are supported on the blocks. *)
Lemma supp_two : forall (O : Ops) (HR : is_ring O) sizes Ai Bi (a b : nat -> list Z -> car O) s,
  Forall (fun n => 0 <= n) sizes -> In s Ai -> In s Bi ->
  supp sizes (Ai ++ Bi) (fun e => omul (dense sizes a (map e Ai)) (dense sizes b (map e Bi))).
Proof.
  intros O HR sizes Ai Bi a b s HN SA SB env H.
  destruct (in_blk_dec sizes (map env Ai)) as [(i & Hi)|Hi]; [|rewrite dense_out by auto; apply (omul_0_l HR)].
  destruct (in_blk_dec sizes (map env Bi)) as [(j & Hj)|Hj]; [|rewrite (dense_out O sizes b) by auto; apply (omul_0_r HR)].
  exfalso. assert (i = j). { apply (off_unique sizes (env s)); auto; [apply (in_blk_at sizes i Ai)|apply (in_blk_at sizes j Bi)]; auto. }
  subst j. apply (H i). destruct Hi as (Hk & Hi), Hj as (_ & Hj). split; auto.
  rewrite map_app. apply Forall_app. auto.
Qed.

Lemma shift_map : forall o (e : nat -> Z) l, map (fun x => x - o) (map (fun i => o + e i) l) = map e l.
Proof. intros. rewrite map_map. apply map_ext. intros. lia. Qed.
Lemma in_blk_shift : forall sizes k (e : nat -> Z) (S : list nat), (k < length sizes)%nat -> (forall l, In l S -> 0 <= e l < nth k sizes 0) ->
  in_blk sizes k (map (fun l => off sizes k + e l) S).
Proof.
  intros sizes k e S Hk H. split; auto. rewrite Forall_forall. intros x Hx. apply in_map_iff in Hx as (l & <- & Hl).
  specialize (H l Hl). rewrite off_S. lia.
Qed.

(** ** The loop over the blocks *)
Lemma env_of_idx : forall (Ci : list nat) (idx : list Z), length idx = length Ci ->
  (exists env, idx = map env Ci) \/ (forall env, idx <> map env Ci).
Proof.
  intros Ci idx HL.
  set (env := fun l => nth (match find (fun p => Nat.eqb (nth p Ci 0%nat) l) (seq 0 (length Ci)) with Some p => p | None => 0%nat end) idx 0).
  destruct (list_eq_dec Z.eq_dec idx (map env Ci)) as [E|E]; [left; eauto|right].
  intros env' E'. apply E. rewrite E' at 1. apply map_ext_in. intros l Hl. unfold env.
  destruct (find (fun p => Nat.eqb (nth p Ci 0%nat) l) (seq 0 (length Ci))) as [p|] eqn:F.
  - apply find_some in F as (F1 & F2). apply in_seq in F1. apply Nat.eqb_eq in F2.
    rewrite E'. rewrite (nth_indep _ 0 (env' 0%nat)) by (rewrite map_length; lia). rewrite map_nth. now rewrite F2.
  - exfalso. apply In_nth with (d := 0%nat) in Hl as (p & Hp & Ep). apply find_none with (x := p) in F; [|apply in_seq; lia].
    rewrite Ep, Nat.eqb_refl in F. discriminate.
Qed.

Lemma inb_env : forall n (Ci : list nat) env, inb (map env Ci) (repeat n (length Ci)) <-> env_ok (fun _ => n) env Ci.
Proof.
  intros n Ci env. rewrite (inb_repeat n (length Ci)) by apply map_length. unfold env_ok. rewrite Forall_forall. split.
  - intros H l Hl. apply H. now apply in_map.
  - intros H x Hx. apply in_map_iff in Hx as (l & <- & Hl). auto.
Qed.

Section Loop.
  Context {O : Ops} (HR : is_ring O).
  Notation T := (car O).
  Add Ring ORing : (ir_rt O HR).

  Lemma block_loop_ok : forall (sizes : list Z) (C : bt) (Ci Ai Bi L : list nat) (cp ab : T)
      (a b : list Z -> T) (aK bK c : nat -> list Z -> T) (h : heap T) (f : nat -> heap T -> res (heap T)) order,
    Forall (fun n => 0 <= n) sizes -> bt_ok (length Ci) C sizes -> bt_sep C -> bt_holds h C c -> Ci <> [] ->
    contracted L Ci Ai Bi -> incl Ci (Ai ++ Bi) ->
    supp sizes (Ai ++ Bi) (fun e => omul (a (map e Ai)) (b (map e Bi))) ->
    (forall k e, (k < length sizes)%nat -> (forall l, In l (Ai ++ Bi) -> 0 <= e l < nth k sizes 0) ->
       a (map (fun l => off sizes k + e l) Ai) = aK k (map e Ai) /\ b (map (fun l => off sizes k + e l) Bi) = bK k (map e Bi)) ->
    Permutation order (seq 0 (length sizes)) ->
    (forall k d h1, (k < length sizes)%nat -> nth_error (bt_blocks C) k = Some d ->
       (forall z, cell d z \/ ~ bt_cell C z -> h1 z = h z) ->
       exists h2, f k h1 = Ok h2 /\
         einsum_result (fun _ => nth k sizes 0) Ci Ai Bi L cp ab d (aK k) (bK k) (c k) h1 h2) ->
    exists h', forM order f h = Ok h' /\ block_result sizes Ci Ai Bi L cp ab C a b c h h'.
  Proof.
    intros sizes C Ci Ai Bi L cp ab a b aK bK c h f order HN OC SC HC Hne HL HCi HS Hloc HP Hstep.
    set (own := fun k z => exists d, nth_error (bt_blocks C) k = Some d /\ cell d z).
    set (P := fun k (h' : heap T) => forall d, nth_error (bt_blocks C) k = Some d ->
           (forall env, env_ok (fun _ => nth k sizes 0) env Ci ->
              h' (addr d (map env Ci)) =
              Some (oadd (omul cp (c k (map env Ci))) (omul ab (einstein L Ai Bi (fun _ => nth k sizes 0) (aK k) (bK k) env)))) /\
           (forall idx, inb idx (ddims d) -> (forall env, idx <> map env Ci) -> h' (addr d idx) = h (addr d idx))).
    assert (Hin : forall k, In k order -> (k < length sizes)%nat).
    { intros k Hk. apply (Permutation_in _ HP), in_seq in Hk. lia. }
    assert (Inj : forall k d, nth_error (bt_blocks C) k = Some d -> inj d /\ ddims d = repeat (nth k sizes 0) (length Ci)).
    { intros k d E. destruct OC as (_ & _ & OC & _). destruct (OC k d E) as (D1 & D2). split; auto.
      apply contiguous_rowmaj in D2. intros i j Hi Hj Ha. unfold addr in Ha. rewrite D2 in Ha.
      apply (rm_inj 0 (ddims d)); auto. unfold addr. simpl. lia. }
    destruct (forM_regions nat T own P f order h) as (h' & E & H1 & H2).
    - eapply Permutation_NoDup; [apply Permutation_sym; eauto|apply seq_NoDup].
    - intros i j z Hi Hj (d & Ed & (p & Hp & Ep)) (e & Ee & (q & Hq & Eq)).
      destruct (Nat.eq_dec i j); auto. exfalso. apply (SC i j d e Ed Ee n p q); auto. congruence.
    - intros k h1 h2 Hk Hag HPk d Ed. destruct (HPk d Ed) as (G1 & G2).
      assert (A : forall idx, inb idx (ddims d) -> h1 (addr d idx) = h2 (addr d idx)).
      { intros idx Hi. apply Hag. exists d. split; auto. exists idx; auto. }
      split; intros.
      + rewrite <- A; auto. destruct (Inj k d Ed) as (_ & ->). now apply inb_env.
      + rewrite <- A; auto.
    - intros k h1 Hk Hag. assert (Hk' := Hin k Hk).
      destruct (bt_block (length Ci) C sizes k OC Hk') as (d & Ed & Dd & Rd).
      destruct (Hstep k d h1 Hk' Ed) as (h2 & E2 & R1 & R2).
      + intros z [Hz|Hz]; apply Hag.
        * left. exists d; auto.
        * right. intros y Hy (e & Ee & He). apply Hz. exists y, e. auto.
      + exists h2. split; auto. split.
        * intros d' Ed'. rewrite Ed in Ed'. injection Ed' as <-. split; auto.
          intros idx Hi Hno. rewrite R2.
          -- apply Hag. left. exists d. split; auto. exists idx; auto.
          -- intros env He Ea. apply (Hno env). destruct (Inj k d Ed) as (I & D). apply I; auto. rewrite D. now apply inb_env.
        * intros z Hz. apply R2. intros env He ->. apply Hz. exists d. split; auto. exists (map env Ci). split; auto.
          rewrite Dd. now apply inb_env.
    - exists h'. split; auto.
      set (c' := fun k idx => match nth_error (bt_blocks C) k with
                   | Some d => match h' (addr d idx) with Some v => v | None => o0 end | None => o0 end).
      assert (AllP : forall k d, nth_error (bt_blocks C) k = Some d -> P k h' /\ (k < length sizes)%nat).
      { intros k d Ed. assert (Hk : (k < length sizes)%nat).
        { destruct OC as (_ & Lc & _). rewrite <- Lc. apply nth_error_Some. congruence. }
        split; auto. apply H1. apply (Permutation_in _ (Permutation_sym HP)), in_seq. lia. }
      assert (Hc' : bt_holds h' C c').
      { intros k d Ed idx Hi. unfold c'. rewrite Ed. destruct (AllP k d Ed) as (Pk & _). destruct (Pk d Ed) as (G1 & G2).
        destruct (Inj k d Ed) as (_ & Dd). assert (HLen : length idx = length Ci).
        { apply inb_length in Hi. rewrite Hi, Dd, repeat_length. auto. }
        destruct (env_of_idx Ci idx HLen) as [(env & ->)|Hno].
        - rewrite Dd in Hi. apply inb_env in Hi. rewrite G1; auto.
        - rewrite G2; auto. now rewrite (HC k d Ed idx Hi). }
      assert (HCne : forall env, map env Ci <> [] :> list Z) by (intros env E0; apply map_eq_nil in E0; auto).
      destruct HL as (ND & HLin).
      exists c'. split; auto. split; [|split].
      + intros env He. destruct (in_blk_dec sizes (map env Ci)) as [(k & Hk)|Hno].
        * assert (Hk' : (k < length sizes)%nat) by (destruct Hk; auto).
          destruct (bt_block (length Ci) C sizes k OC Hk') as (d & Ed & Dd & Rd).
          rewrite !(dense_in O sizes _ _ k) by auto.
          set (env' := fun l => env l - off sizes k).
          assert (EM : map (fun x => x - off sizes k) (map env Ci) = map env' Ci) by (rewrite map_map; reflexivity).
          rewrite EM. assert (He' : env_ok (fun _ => nth k sizes 0) env' Ci).
          { apply inb_env. rewrite <- EM. apply in_blk_inb; auto. apply map_length. }
          destruct (AllP k d Ed) as (Pk & _). destruct (Pk d Ed) as (G1 & _).
          unfold c'. rewrite Ed, (G1 env' He'). f_equal. f_equal.
          unfold einstein. destruct Ci as [|c0 Ci']; [congruence|].
          assert (Hc0L : ~ In c0 L) by (intros Hc0; apply HLin in Hc0 as (_ & Hc0); simpl in Hc0; tauto).
          transitivity (Sum_over L (fun _ => nth k sizes 0) env'
             (fun e => omul (a (map (fun l => off sizes k + e l) Ai)) (b (map (fun l => off sizes k + e l) Bi)))).
          -- apply Sum_over_cong. intros e e' Q1 Q2 Q3.
             assert (Ee : forall l, e l = e' l).
             { intros l. destruct (in_dec Nat.eq_dec l L); [apply Q1; auto|]. rewrite Q2, Q3; auto. }
             destruct (Hloc k e' Hk') as (-> & ->).
             ++ intros l Hl. rewrite <- Ee. destruct (in_dec Nat.eq_dec l L) as [Hi|Hi]; [apply Q1; auto|].
                rewrite Q2 by auto. apply He'. destruct (in_dec Nat.eq_dec l (c0 :: Ci')) as [|Hx]; auto. elim Hi.
                apply HLin. rewrite in_app_iff in Hl. tauto.
             ++ f_equal; f_equal; apply map_ext; auto.
          -- symmetry. rewrite <- (sum_block HR sizes HN (Ai ++ Bi)
               (fun e => omul (a (map e Ai)) (b (map e Bi))) k c0) with (L := L) (env := env'); auto.
             ++ apply Sum_over_cong. intros e e' Q1 Q2 Q3.
                assert (Ee : forall l, e l = e' l).
                { intros l. destruct (in_dec Nat.eq_dec l L); [apply Q1; auto|]. rewrite Q2, Q3; auto. unfold env'. lia. }
                f_equal; f_equal; apply map_ext; auto.
             ++ intros e1 e2 Ee. f_equal; f_equal; apply map_ext; auto.
             ++ apply HCi. simpl; auto.
             ++ intros l Hl. apply HLin in Hl. rewrite in_app_iff. tauto.
             ++ apply He'. simpl; auto.
        * rewrite !dense_out by auto. unfold einstein. rewrite (Sum_over_0 HR); [ring|].
          intros e He'. apply HS. intros k Hk. apply (Hno k). destruct Hk as (Hk & HF). split; auto.
          rewrite Forall_forall in *. intros x Hx. apply in_map_iff in Hx as (l & <- & Hl).
          rewrite <- He' by (intros Hi; apply HLin in Hi; tauto). apply HF. apply in_map. auto.
      + intros idx HLen Hno. destruct (in_blk_dec sizes idx) as [(k & Hk)|Hnb].
        * assert (Hk' : (k < length sizes)%nat) by (destruct Hk; auto).
          destruct (bt_block (length Ci) C sizes k OC Hk') as (d & Ed & Dd & Rd).
          assert (idx <> []) by (intros ->; destruct Ci; [congruence|discriminate]).
          rewrite !(dense_in O sizes _ _ k) by auto. unfold c'. rewrite Ed.
          destruct (AllP k d Ed) as (Pk & _). destruct (Pk d Ed) as (_ & G2).
          assert (Hi : inb (map (fun x => x - off sizes k) idx) (ddims d)) by (rewrite Dd; apply in_blk_inb; auto).
          rewrite G2; auto.
          -- now rewrite (HC k d Ed _ Hi).
          -- intros env Ee. apply (Hno (fun l => off sizes k + env l)).
             rewrite <- (shift_forth (off sizes k) idx), Ee, map_map. reflexivity.
        * now rewrite !dense_out by auto.
      + intros z Hz. apply H2. intros k Hk (d & Ed & Hd). apply Hz. exists k, d. auto.
  Qed.
End Loop.
