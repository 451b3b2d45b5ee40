(** * L_Red: lemmas for reductions and element-wise functions. *)
From Coq Require Import List ZArith Lia Bool Permutation.
From Verif Require Import Base Heap Conc M_Addr S_Addr L_Addr M_Elt L_Elt M_Einsum S_Einsum L_Einsum S_Blas L_Blas
  M_Block S_Block L_Block M_Tiled L_Tiled2 M_Red S_Red.
Import ListNotations.
Open Scope Z_scope.

(** ** Element order of the loops *)
Lemma flat_offset_eq : forall ss ds q, length ss = length ds -> flat_offset ss ds q = dotp (col_decode ds q) ss.
Proof.
  induction ss as [|s ss IH]; intros [|d ds] q H; simpl in *; try discriminate; auto.
  rewrite IH by lia. lia.
Qed.

Lemma flat_addr_eq : forall d q, length (dstrides d) = length (ddims d) ->
  flat_addr d q = addr d (col_decode (ddims d) q).
Proof. intros. unfold flat_addr, addr. now rewrite flat_offset_eq. Qed.

(** The elements in loop order are all the elements, once each. *)
Lemma col_perm : forall dims, Forall (fun d => 0 <= d) dims ->
  Permutation (map (col_decode dims) (zrange (zprod dims))) (indices dims).
Proof.
  intros dims HN. apply NoDup_Permutation.
  - assert (G : forall l, NoDup l -> (forall x, In x l -> 0 <= x < zprod dims) -> NoDup (map (col_decode dims) l)).
    { induction l as [|x l IH]; intros Hd Hb; simpl; [constructor|]. inversion Hd as [|y m Hx Hd']; subst y m.
      constructor; [|apply IH; auto; intros; apply Hb; now right].
      intros Hin. apply in_map_iff in Hin as (y & E & Hy). apply Hx.
      assert (B1 := Hb x (or_introl eq_refl)). assert (B2 := Hb y (or_intror Hy)).
      replace x with y; auto.
      rewrite <- (proj2 (col_code_decode dims x HN B1)), <- E. symmetry. now apply col_code_decode. }
    apply G; [apply zrange_NoDup|]. intros x Hx. now apply zrange_in in Hx.
  - apply indices_NoDup.
  - intros c. rewrite in_map_iff, in_indices. split.
    + intros (n & <- & Hn). apply zrange_in in Hn. now apply col_code_decode.
    + intros Hc. exists (col_code dims c). split; [now apply col_decode_code|]. apply zrange_in. now apply col_code_range.
Qed.

(** ** Sums *)
Lemma sum_part_spec : forall (O : Ops) d (h : heap (car O)) (g : Z -> car O) part acc,
  (forall i, In i part -> h (flat_addr d i) = Some (g i)) ->
  forM part (fun i acc => v <- rd h (flat_addr d i) ;; Ok (oadd acc v)) acc = Ok (fold_left (fun s i => oadd s (g i)) part acc).
Proof.
  intros O d h g part. induction part as [|i part IH]; intros acc Hg; simpl; auto.
  rewrite (rd_some _ _ _ _ (Hg i (or_introl eq_refl))). simpl. apply IH. intros. apply Hg. now right.
Qed.

Lemma sum_parts_spec : forall (O : Ops), is_ring O -> forall d (h : heap (car O)) (g : Z -> car O) parts acc,
  (forall i, In i (concat parts) -> h (flat_addr d i) = Some (g i)) ->
  forM parts (fun part out => s <- sum_part d h part ;; Ok (oadd out s)) acc = Ok (oadd acc (lsum (concat parts) g)).
Proof.
  intros O HR d h g parts. assert (R := ir_rt O HR). induction parts as [|p parts IH]; intros acc Hg; simpl.
  - f_equal. change (lsum [] g) with (@o0 O). now rewrite (Radd_comm R), (Radd_0_l R).
  - unfold sum_part at 1. rewrite (sum_part_spec O d h g) by (intros; apply Hg; simpl; apply in_or_app; auto). simpl.
    rewrite IH by (intros; apply Hg; simpl; apply in_or_app; auto). f_equal.
    rewrite (fold_left_lsum O HR), (lsum_app O HR). rewrite (Radd_0_l R), (Radd_assoc R). reflexivity.
Qed.

Lemma sum_spec : forall (O : Ops), is_ring O -> forall d parts (h : heap (car O)) f,
  length (dstrides d) = length (ddims d) -> Forall (fun n => 0 <= n) (ddims d) -> zprod (ddims d) < 2 ^ 31 ->
  Permutation (concat parts) (zrange (size_model (ddims d))) ->
  holds h d f ->
  sum d parts h = Ok (lsum (indices (ddims d)) f).
Proof.
  intros O HR d parts h f HL HN HS HP Hh. rewrite size_model_correct in HP by auto.
  unfold sum. assert (R := ir_rt O HR).
  rewrite (sum_parts_spec O HR d h (fun i => f (col_decode (ddims d) i))).
  - f_equal. rewrite (Radd_0_l R). rewrite (lsum_perm O HR _ _ _ _ HP).
    rewrite <- (lsum_perm O HR _ _ _ f (col_perm (ddims d) HN)). now rewrite (lsum_map O).
  - intros i Hi. apply (Permutation_in _ HP) in Hi. apply zrange_in in Hi.
    rewrite flat_addr_eq by auto. apply Hh. now apply col_code_decode.
Qed.

(** ** The thread-strided loop *)
Lemma strided_loop_spec : forall fuel i nt size, 0 < nt -> size - i <= Z.of_nat fuel ->
  (forall x, i <= x < size -> (x - i) mod nt = 0 -> x + nt <= int_max) ->
  exists l, strided_loop fuel i nt size = Ok l /\ NoDup l /\
    (forall x, In x l <-> i <= x < size /\ (x - i) mod nt = 0).
Proof.
  induction fuel as [|fuel IH]; intros i nt size Hn Hf Hb; simpl.
  - exists []. split; [auto|]. split; [constructor|]. intros x. split; [intros []|]. lia.
  - destruct (Z.ltb_spec i size) as [L|L].
    2:{ exists []. split; [auto|]. split; [constructor|]. intros x. split; [intros []|]. lia. }
    assert (B := Hb i ltac:(lia) ltac:(rewrite Z.sub_diag; reflexivity)).
    destruct (Z.ltb_spec int_max (i + nt)) as [M|M]; [lia|].
    assert (Sh : forall x, (x - (i + nt)) mod nt = (x - i) mod nt).
    { intros x. replace (x - i) with (x - (i + nt) + 1 * nt) by lia. rewrite Z.mod_add by lia. auto. }
    destruct (IH (i + nt) nt size Hn) as (l & E & Nd & Hl); [lia| |].
    { intros x Hx Hm. apply Hb; [lia|]. rewrite <- Sh. auto. }
    rewrite E. simpl. exists (i :: l). split; [auto|]. split.
    + constructor; auto. rewrite Hl. lia.
    + intros x. simpl. rewrite Hl, Sh. split.
      * intros [<-|((H1 & H2) & H3)]; [split; [lia|]; rewrite Z.sub_diag; reflexivity|]. split; auto. lia.
      * intros (H1 & H2). destruct (Z.eq_dec x i) as [->|Ne]; [left; auto|]. right. split; auto. split; [|lia].
        apply Z.mod_divide in H2 as (q & Hq); [|lia]. assert (0 < q) by nia. nia.
Qed.

Lemma strided_loop_ok : forall fuel i nt size l, 0 < nt -> size - i <= Z.of_nat fuel ->
  strided_loop fuel i nt size = Ok l -> forall x, i <= x < size -> (x - i) mod nt = 0 -> x + nt <= int_max.
Proof.
  induction fuel as [|fuel IH]; intros i nt size l Hn Hf E x Hx Hm; simpl in E; [lia|].
  destruct (Z.ltb_spec i size) as [L|L]; [|lia].
  destruct (Z.ltb_spec int_max (i + nt)) as [M|M]; [discriminate|].
  destruct (strided_loop fuel (i + nt) nt size) as [r| |] eqn:Er; try discriminate.
  destruct (Z.eq_dec x i) as [->|Ne]; [lia|].
  apply Z.mod_divide in Hm as (q & Hq); [|lia].
  assert (0 < q) by nia. apply (IH (i + nt) nt size r Hn); auto; [lia|nia|].
  apply Z.mod_divide; [lia|]. exists (q - 1). lia.
Qed.

Lemma strided_spec : forall tid nt size, 0 <= tid < nt -> size + nt <= 2 ^ 31 ->
  exists l, strided tid nt size = Ok l /\ NoDup l /\ (forall x, In x l <-> 0 <= x < size /\ x mod nt = tid).
Proof.
  intros tid nt size Ht Hs.
  destruct (strided_loop_spec (Z.to_nat size) tid nt size) as (l & E & Nd & Hl); [lia|lia| |].
  { intros x Hx _. unfold int_max. lia. }
  exists l. split; [auto|]. split; [auto|]. intros x. rewrite Hl.
  assert (M : forall x, x mod nt = tid <-> (x - tid) mod nt = 0).
  { intros y. split; intros H.
    - rewrite <- H. rewrite Zminus_mod_idemp_r. now rewrite Z.sub_diag.
    - apply Z.mod_divide in H as (q & Hq); [|lia]. replace y with (tid + q * nt) by lia.
      rewrite Z.mod_add by lia. apply Z.mod_small. lia. }
  rewrite M. split; intros (H1 & H2); split; auto; try lia.
  apply M in H2. assert (x mod nt <= x) by (apply Z.mod_le; lia). lia.
Qed.

Lemma mapR_spec : forall A B (f : A -> res B) l, (forall x, In x l -> exists y, f x = Ok y) ->
  exists m, mapR f l = Ok m /\ Forall2 (fun x y => f x = Ok y) l m.
Proof.
  intros A B f. induction l as [|x l IH]; intros H; simpl.
  - exists []. split; [auto|constructor].
  - destruct (H x (or_introl eq_refl)) as (y & Ey). rewrite Ey. simpl.
    destruct IH as (m & Em & HF); [intros; apply H; now right|]. rewrite Em. simpl. exists (y :: m). split; [auto|]. constructor; auto.
Qed.

(** The team processes every element exactly once. *)
Lemma team_spec : forall nt size, 0 < nt -> size + nt <= 2 ^ 31 ->
  exists l, team nt size = Ok l /\ length l = Z.to_nat nt /\
    (forall k, 0 <= k < nt -> exists p, nth_error l (Z.to_nat k) = Some p /\ NoDup p /\
       (forall x, In x p <-> 0 <= x < size /\ x mod nt = k)) /\
    Permutation (concat l) (zrange size).
Proof.
  intros nt size Hn Hs. unfold team.
  destruct (mapR_spec _ _ (fun tid => strided tid nt size) (zrange nt)) as (l & El & HF).
  { intros tid Ht. apply zrange_in in Ht. destruct (strided_spec tid nt size Ht Hs) as (p & Ep & _). eauto. }
  assert (HL : length l = Z.to_nat nt).
  { rewrite <- (zrange_length nt). clear El. induction HF; simpl; auto. }
  assert (HK : forall k, 0 <= k < nt -> exists p, nth_error l (Z.to_nat k) = Some p /\ NoDup p /\
       (forall x, In x p <-> 0 <= x < size /\ x mod nt = k)).
  { intros k Hk. assert (G : forall m l, Forall2 (fun x y => strided x nt size = Ok y) m l ->
       forall i x, nth_error m i = Some x -> exists y, nth_error l i = Some y /\ strided x nt size = Ok y).
    { induction 1; intros [|i] z Hz; simpl in *; try discriminate; eauto. injection Hz as <-. eauto. }
    destruct (G _ _ HF (Z.to_nat k) k) as (p & Hp & Ep).
    { assert (N := zrange_nth nt k 0 Hk). rewrite <- N at 2. apply nth_error_nth'. rewrite zrange_length. lia. }
    destruct (strided_spec k nt size Hk Hs) as (p' & Ep' & Hd & Hin). rewrite Ep in Ep'. injection Ep' as <-.
    exists p. auto. }
  exists l. split; [auto|]. split; [auto|]. split; [auto|].
  apply NoDup_Permutation.
  - assert (G : forall m i, (forall k, (i <= k < i + length m)%nat -> nth_error l k = nth_error m (k - i)) ->
        (i + length m <= Z.to_nat nt)%nat -> NoDup (concat m)).
    { induction m as [|p m IH]; intros i Hm Hlen; simpl; [constructor|]. simpl in Hlen, Hm.
      assert (Hp : nth_error l i = Some p) by (rewrite Hm by lia; now rewrite Nat.sub_diag).
      destruct (HK (Z.of_nat i) ltac:(lia)) as (p' & Hp' & Hd & Hin). rewrite Nat2Z.id, Hp in Hp'. injection Hp' as <-.
      apply NoDup_app_disj; auto.
      - apply (IH (S i)); [|lia]. intros k Hk. rewrite Hm by lia. now replace (k - i)%nat with (S (k - S i)) by lia.
      - intros x Hx Hc. apply in_concat in Hc as (q & Hq & Hxq). apply In_nth_error in Hq as (j & Hj).
        assert (Hlt : (j < length m)%nat) by (apply nth_error_Some; congruence).
        assert (Hq : nth_error l (S i + j) = Some q) by (rewrite Hm by lia; replace (S i + j - i)%nat with (S j) by lia; auto).
        destruct (HK (Z.of_nat (S i + j)) ltac:(lia)) as (q' & Hq' & _ & Hin'). rewrite Nat2Z.id, Hq in Hq'. injection Hq' as <-.
        apply Hin in Hx. apply Hin' in Hxq. lia. }
    apply (G l 0%nat); [|lia]. intros k Hk. now rewrite Nat.sub_0_r.
  - apply zrange_NoDup.
  - intros x. rewrite in_concat, zrange_in. split.
    + intros (p & Hp & Hx). apply In_nth_error in Hp as (j & Hj).
      assert (Hlt : (j < length l)%nat) by (apply nth_error_Some; congruence).
      destruct (HK (Z.of_nat j) ltac:(lia)) as (q & Hq & _ & Hin). rewrite Nat2Z.id, Hj in Hq. injection Hq as <-.
      now apply Hin in Hx.
    + intros Hx. assert (Hm := Z.mod_pos_bound x nt Hn). destruct (HK (x mod nt) Hm) as (p & Hp & _ & Hin).
      exists p. split; [eapply nth_error_In; eauto|]. now apply Hin.
Qed.

(** ** Extrema *)
Section Ext.
  Context {T : Type} (P : T -> Prop) (better : T -> T -> bool).
  Hypothesis HW : weak_order P better.

  Definition pick (m x : T) : T := if better m x then m else x.

  (** Folding [pick]: the result is one of the values and none is better. *)
  Lemma pick_fold : forall (g : Z -> T) l m, P m -> (forall i, In i l -> P (g i)) ->
    let r := fold_left (fun m i => pick m (g i)) l m in
    P r /\ (r = m \/ exists i, In i l /\ r = g i) /\ better m r = false /\ (forall i, In i l -> better (g i) r = false).
  Proof.
    destruct HW as (W1 & W2 & W3).
    intros g l. induction l as [|i l IH]; intros m Hm Hg; simpl.
    - split; [auto|]. split; [auto|]. split; [auto|]. intros ? [].
    - assert (Hi : P (g i)) by (apply Hg; now left).
      assert (Hp : P (pick m (g i))) by (unfold pick; destruct (better m (g i)); auto).
      assert (G : better m (pick m (g i)) = false /\ better (g i) (pick m (g i)) = false).
      { unfold pick. destruct (better m (g i)) eqn:E; auto. }
      destruct G as (G1 & G2).
      destruct (IH (pick m (g i)) Hp) as (R1 & R2 & R3 & R4); [intros; apply Hg; now right|].
      set (r := fold_left _ l _) in *. split; [auto|]. split; [|split].
      + destruct R2 as [R2|(j & Hj & R2)].
        * unfold pick in R2. destruct (better m (g i)); [left; auto|right; exists i; auto].
        * right. exists j. auto.
      + apply (W3 m (pick m (g i)) r); auto.
      + intros j [<-|Hj]; auto. apply (W3 (g i) (pick m (g i)) r); auto.
  Qed.

  (** [std::max_element] over the array. *)
  Lemma best_entry_spec : forall arr maxt (h : heap T) (e : Z -> T), 0 < maxt ->
    (forall k, 0 <= k < maxt -> h (arr + k) = Some (e k) /\ P (e k)) ->
    exists r, best_entry better arr maxt h = Ok r /\ P r /\ (exists k, 0 <= k < maxt /\ r = e k) /\
      (forall k, 0 <= k < maxt -> better (e k) r = false).
  Proof.
    destruct HW as (W1 & W2 & W3).
    intros arr maxt h e Hm He. unfold best_entry. destruct (Z.leb_spec maxt 0); [lia|].
    assert (H0 := He 0 ltac:(lia)). rewrite Z.add_0_r in H0. rewrite (rd_some _ _ _ _ (proj1 H0)). simpl.
    assert (G : forall l m, (forall k, In k l -> 0 <= k < maxt - 1) -> P m ->
       exists r, forM l (fun k m => x <- rd h (arr + 1 + k) ;; Ok (if better x m then x else m)) m = Ok r /\ P r /\
         (r = m \/ exists k, In k l /\ r = e (1 + k)) /\ better m r = false /\ (forall k, In k l -> better (e (1 + k)) r = false)).
    { induction l as [|k l IH]; intros m Hl Pm; simpl.
      - exists m. split; [auto|]. split; [auto|]. split; [auto|]. split; [auto|]. intros ? [].
      - assert (Bk := Hl k (or_introl eq_refl)). destruct (He (1 + k) ltac:(lia)) as (Hk & Pk).
        replace (arr + 1 + k) with (arr + (1 + k)) by lia. rewrite (rd_some _ _ _ _ Hk). simpl.
        set (m' := if better (e (1 + k)) m then e (1 + k) else m).
        assert (Pm' : P m') by (unfold m'; destruct (better (e (1 + k)) m); auto).
        assert (B : better m m' = false /\ better (e (1 + k)) m' = false).
        { unfold m'. destruct (better (e (1 + k)) m) eqn:E; auto. }
        destruct B as (B1 & B2).
        destruct (IH m') as (r & E & Pr & R1 & R2 & R3); [intros; apply Hl; now right|auto|].
        exists r. split; [auto|]. split; [auto|]. split; [|split].
        + destruct R1 as [R1|(j & Hj & R1)]; [|right; exists j; simpl; auto].
          unfold m' in R1. destruct (better (e (1 + k)) m); [right; exists k; simpl; auto|left; auto].
        + apply (W3 m m' r); auto.
        + intros j [<-|Hj]; auto. apply (W3 (e (1 + k)) m' r); auto. }
    destruct (G (zrange (maxt - 1)) (e 0)) as (r & E & Pr & R1 & R2 & R3).
    { intros k Hk. now apply zrange_in in Hk. } { apply H0. }
    exists r. split; [auto|]. split; [auto|]. split.
    - destruct R1 as [R1|(k & Hk & R1)]; [exists 0; split; auto; lia|]. apply zrange_in in Hk. exists (1 + k). split; auto. lia.
    - intros k Hk. destruct (Z.eq_dec k 0) as [->|Ne]; auto. replace k with (1 + (k - 1)) by lia. apply R3.
      apply zrange_in. lia.
  Qed.

  (** One thread. *)
  Lemma ext_thread : forall d arr tid (g : Z -> T) l h m,
    h (arr + tid) = Some m ->
    (forall i, In i l -> h (flat_addr d i) = Some (g i) /\ flat_addr d i <> arr + tid) ->
    psafe (fun a => a = arr + tid) (fun a => exists i, In i l /\ a = flat_addr d i) (pseq l (ext_body better d arr tid)) h /\
    exists h', run (pseq l (ext_body better d arr tid)) h = Ok (Datatypes.tt, h') /\
      h' (arr + tid) = Some (fold_left (fun m i => pick m (g i)) l m).
  Proof.
    intros d arr tid g l. induction l as [|i l IH]; intros h m Hm Hg; simpl.
    - split; auto. exists h. auto.
    - destruct (Hg i (or_introl eq_refl)) as (Hi & Hne).
      destruct (IH (upd h (arr + tid) (pick m (g i))) (pick m (g i))) as (S2 & h' & E & V).
      { apply upd_same. }
      { intros j Hj. destruct (Hg j (or_intror Hj)) as (H1 & H2). split; auto. now rewrite upd_other. }
      split.
      + split; [now left|]. exists m. split; [auto|]. split; [right; exists i; auto|]. exists (g i). split; [auto|].
        split; [auto|]. split; [eauto|].
        eapply psafe_mono; [| |exact S2]; simpl; auto. intros a (j & Hj & ->). left. eauto.
      + rewrite Hm, Hi. exists h'. auto.
  Qed.
End Ext.
