(** * T_Tucker: C112 and C113. *)
From Coq Require Import List ZArith Lia Bool Permutation QArith Qcanon.
From Verif Require Import Base Heap Num M_Addr S_Addr L_Addr M_Elt S_Fold L_Fold L_Generic M_Lapack S_Lapack S_Decomp L_Decomp M_Als T_Als M_Tucker S_Tucker.
Import ListNotations.
Open Scope Z_scope.

Section P.
  Context {O : Ops} (HR : is_ring O).
  Notation T := (car O).
  Notation ten := (list Z -> car O).
  Add Ring R : (ir_rt O HR).

  Lemma set_at_app : forall p s x l, set_at (length p) s (p ++ x :: l) = p ++ s :: l.
  Proof. induction p; intros; simpl; f_equal; auto. Qed.
  Lemma nth_app_mid : forall (p : list Z) x l, nth (length p) (p ++ x :: l) 0 = x.
  Proof. induction p; intros; simpl; auto. Qed.

  Lemma passes_seg : forall skip ds Fs r p z (t : ten), length Fs = length ds -> length r = length ds ->
    (forall k, (length p <= k < length p + length ds)%nat -> skip <> Some k) ->
    passes skip (length p) ds Fs t (p ++ r ++ z) = lsum (indices ds) (fun i => omul (t (p ++ i ++ z)) (elems_prod Fs i r)).
  Proof.
    intros skip. induction ds as [|d ds IH]; intros Fs r p z t L1 L2 Hs.
    - destruct Fs; [|discriminate]. destruct r; [|discriminate]. simpl. ring.
    - destruct Fs as [|F Fs]; [discriminate|]. destruct r as [|a r]; [discriminate|]. injection L1 as L1. injection L2 as L2.
      cbn [passes].
      replace (match skip with Some n => Nat.eqb (length p) n | None => false end) with false.
      2:{ destruct skip as [n|]; auto. symmetry. apply Nat.eqb_neq. intros E. apply (Hs (length p)); [simpl; lia|congruence]. }
      replace (S (length p)) with (length (p ++ [a])) by (rewrite app_length; simpl; lia).
      replace (p ++ (a :: r) ++ z) with ((p ++ [a]) ++ r ++ z) by (rewrite <- app_assoc; reflexivity).
      rewrite IH by (auto; intros k Hk; apply Hs; rewrite app_length in Hk; simpl in *; lia).
      rewrite (lsum_indices_cons O HR). unfold zsum. rewrite (lsum_swap O HR _ _ (zrange d)).
      apply (lsum_ext O). intros i _. unfold mode_pass, zsum. rewrite <- (lsum_mul_r O HR). apply (lsum_ext O). intros s _.
      rewrite <- !app_assoc. cbn [app]. rewrite set_at_app, nth_app_mid. cbn [elems_prod]. ring.
  Qed.
  Lemma passes_app : forall skip ds es Fs Gs j (t : ten), length Fs = length ds ->
    passes skip j (ds ++ es) (Fs ++ Gs) t = passes skip (j + length ds) es Gs (passes skip j ds Fs t).
  Proof.
    intros skip. induction ds as [|d ds IH]; intros es Fs Gs j t L.
    - destruct Fs; [|discriminate]. simpl. now rewrite Nat.add_0_r.
    - destruct Fs as [|F Fs]; [discriminate|]. injection L as L. cbn [app passes length]. rewrite IH by auto. f_equal. lia.
  Qed.

  Lemma core_passes : forall dims Fs (t : ten) r, length Fs = length dims -> length r = length dims ->
    passes None 0 dims Fs t r = core_value dims t Fs r.
  Proof.
    intros dims Fs t r L1 L2. assert (H := passes_seg None dims Fs r [] [] t L1 L2). cbn [length app] in H. rewrite app_nil_r in H.
    rewrite H by discriminate. unfold core_value. apply (lsum_ext O). intros i _. now rewrite app_nil_r.
  Qed.

  Lemma lsum_indices_app : forall a b (f : list Z -> T),
    lsum (indices (a ++ b)) f = lsum (indices a) (fun i => lsum (indices b) (fun j => f (i ++ j))).
  Proof.
    induction a as [|d a IH]; intros b f.
    - transitivity (oadd (lsum (indices b) f) o0); [cbn [app]; ring|reflexivity].
    - cbn [app]. rewrite !(lsum_indices_cons O HR). apply (zsum_ext O). intros k _. rewrite IH. reflexivity.
  Qed.

  Lemma without_mid : forall A (p : list A) x q, without (length p) (p ++ x :: q) = p ++ q.
  Proof.
    intros. unfold without. rewrite firstn_app, Nat.sub_diag, firstn_all. simpl firstn. rewrite app_nil_r. f_equal.
    induction p; simpl; auto.
  Qed.
  Lemma at_position_mid : forall n i (p q : list Z), length p = n -> at_position n i (p ++ q) = p ++ i :: q.
  Proof.
    intros n i p q <-. unfold at_position. rewrite firstn_app, Nat.sub_diag, firstn_all. simpl firstn. rewrite app_nil_r.
    rewrite skipn_app, Nat.sub_diag, skipn_all. reflexivity.
  Qed.

  Lemma indices_len : forall ds i, In i (indices ds) -> length i = length ds.
  Proof. intros ds i H. apply in_indices in H. now apply inb_length. Qed.

  Lemma skip_passes : forall n dims Fs (t : ten) idx, (n < length dims)%nat -> length Fs = length dims -> length idx = length dims ->
    passes (Some n) 0 dims Fs t idx = contracted n dims t Fs idx.
  Proof.
    intros n dims Fs t idx Hn L1 L2.
    destruct (split_at _ n dims Hn) as (pd & d & qd & -> & Lp).
    destruct (split_at _ n Fs ltac:(lia)) as (pf & F & qf & -> & Lpf).
    destruct (split_at _ n idx ltac:(lia)) as (pi & x & qi & -> & Lpi).
    rewrite !app_length in *. cbn [length] in *.
    assert (E1 : without n (pd ++ d :: qd) = pd ++ qd) by (rewrite <- Lp; apply without_mid).
    assert (E2 : without n (pf ++ F :: qf) = pf ++ qf) by (rewrite <- Lpf; apply without_mid).
    assert (E3 : without n (pi ++ x :: qi) = pi ++ qi) by (rewrite <- Lpi; apply without_mid).
    assert (E4 : nth n (pi ++ x :: qi) 0 = x) by (rewrite <- Lpi; apply nth_app_mid).
    unfold contracted. rewrite E1, E2, E3, E4. subst n.
    rewrite passes_app by lia. cbn [passes Nat.add]. rewrite Nat.eqb_refl.
    replace (S (length pd)) with (length (pi ++ [x])) by (rewrite app_length; simpl; lia).
    replace (pi ++ x :: qi) with ((pi ++ [x]) ++ qi ++ []) by (rewrite app_nil_r, <- app_assoc; reflexivity).
    rewrite passes_seg; [|lia|lia|intros k Hk E; injection E as E; rewrite app_length in Hk; simpl in Hk; lia].
    rewrite lsum_indices_app, (lsum_swap O HR). apply (lsum_ext O). intros j Hj. apply indices_len in Hj.
    rewrite app_nil_r.
    assert (H := passes_seg (Some (length pd)) pd pf pi [] (x :: j) t ltac:(lia) ltac:(lia)). cbn [app length] in H.
    rewrite <- app_assoc. cbn [app]. rewrite H by (intros k Hk E; injection E as E; lia).
    rewrite <- (lsum_mul_r O HR). apply (lsum_ext O). intros i Hi. apply indices_len in Hi.
    rewrite at_position_mid by auto. rewrite (elems_prod_app HR) by lia. ring.
  Qed.

  (** ** Gram matrices of unfoldings *)
  Lemma unfolded_gram : forall exts (u : ten) n i i', Forall (fun d => 0 <= d) (without n exts) ->
    zsum (zprod (without n exts)) (fun z => omul (unfolded exts u n [i; z]) (unfolded exts u n [i'; z])) = slices n exts u i i'.
  Proof.
    intros exts u n i i' HN. unfold slices. rewrite <- (lsum_perm O HR _ _ _ _ (dec_perm _ HN)). rewrite (lsum_map O). reflexivity.
  Qed.

  Lemma leading_ext : forall lt d k W W' (F : ten), (forall i j, 0 <= i < d -> 0 <= j < d -> W i j = W' i j) ->
    leading lt d k W F -> leading lt d k W' F.
  Proof.
    intros lt d k W W' F HW (Hk & V & w & H1 & H2 & H3 & H4 & H5). split; auto. exists V, w. repeat split; auto.
    intros i c Hi Hc. rewrite <- H3 by auto. apply (zsum_ext O). intros j Hj. now rewrite HW.
  Qed.
  Lemma leading_less : forall lt d k W (F : ten), k <= d -> leading lt d d W F -> leading lt d k W F.
  Proof.
    intros lt d k W F Hk (_ & V & w & H1 & H2 & H3 & H4 & H5). split; auto. exists V, w. repeat split; auto.
    intros i c Hi Hc. apply H5; lia.
  Qed.
  Lemma leading_columns : forall lt d k W (F : ten), leading lt d k W F -> columns_orthonormal d k F.
  Proof.
    intros lt d k W F (Hk & V & w & H1 & H2 & H3 & H4 & H5) a b Ha Hb. rewrite <- H1 by lia.
    apply (zsum_ext O). intros i Hi. rewrite !H5 by lia. reflexivity.
  Qed.
  Lemma leading_rows : forall lt d W (F : ten), leading lt d d W F ->
    forall a b, 0 <= a < d -> 0 <= b < d -> zsum d (fun c => omul (F [a; c]) (F [b; c])) = if a =? b then o1 else o0.
  Proof.
    intros lt d W F (Hk & V & w & H1 & H2 & H3 & H4 & H5) a b Ha Hb. rewrite <- H2 by lia.
    apply (zsum_ext O). intros i Hi. rewrite !H5 by lia. reflexivity.
  Qed.

  Lemma each_imp : forall (P Q : nat -> Z -> Z -> ten -> Prop) dims ranks fs, each P dims ranks fs ->
    (forall n, (n < length dims)%nat -> forall f, P n (nth n dims 0) (nth n ranks 0) f -> Q n (nth n dims 0) (nth n ranks 0) f) ->
    each Q dims ranks fs.
  Proof. intros P Q dims ranks fs (L1 & L2 & H) HQ. repeat split; auto. Qed.

  (** ** The starting factors *)
  Lemma init_spec : forall (svd : Z -> Z -> ten -> res ten) ds rs folds Fs, length rs = length ds -> init_tucker svd ds rs folds = Ok Fs ->
    length Fs = length ds /\ (length ds <= length folds)%nat /\
    forall n, (n < length ds)%nat -> nth n rs 0 <= nth n ds 0 /\
      let cf := nth n folds (0, fun _ => o0) in svd (nth n ds 0) (fst cf) (snd cf) = Ok (nth n Fs (fun _ => o0)).
  Proof.
    intros svd. induction ds as [|d ds IH]; intros rs folds Fs L E.
    - cbn [init_tucker] in E. injection E as <-. simpl. repeat split; auto; lia.
    - destruct rs as [|r rs]; [discriminate|]. destruct folds as [|(c, f) folds]; [discriminate|]. injection L as L.
      cbn [init_tucker] in E. destruct (svd d c f) as [U| |] eqn:EU; try discriminate. cbn [bind] in E.
      destruct (Z.ltb_spec d r); [discriminate|].
      destruct (init_tucker svd ds rs folds) as [Fs'| |] eqn:EF; try discriminate. cbn [bind] in E. injection E as <-.
      destruct (IH rs folds Fs' L EF) as (L1 & L2 & H1). simpl. repeat split; try lia.
      + destruct n; [auto|]. apply H1. lia.
      + destruct n; [auto|]. apply H1. lia.
  Qed.
  Lemma init_each : forall lt (svd : Z -> Z -> ten -> res ten) dims ranks folds Fs (W : nat -> Z -> Z -> T), svd_contract lt svd -> length ranks = length dims ->
    init_tucker svd dims ranks folds = Ok Fs ->
    (forall n, (n < length dims)%nat -> forall i i', 0 <= i < nth n dims 0 -> 0 <= i' < nth n dims 0 ->
       let cf := nth n folds (0, fun _ => o0) in zsum (fst cf) (fun z => omul (snd cf [i; z]) (snd cf [i'; z])) = W n i i') ->
    each (fun n d k => leading lt d k (W n)) dims ranks Fs.
  Proof.
    intros lt svd dims ranks folds Fs W HC L E HW. destruct (init_spec svd dims ranks folds Fs L E) as (L1 & L2 & H).
    split; [auto|split; [auto|]]. intros n Hn. destruct (H n Hn) as (Hr & Hs). apply HC in Hs. apply leading_less; auto.
    eapply leading_ext; [|exact Hs]. intros i j Hi Hj. apply HW; auto.
  Qed.

  Lemma nth_map_seq : forall A (f : nat -> A) k n d, (n < k)%nat -> nth n (map f (seq 0 k)) d = f n.
  Proof. intros. rewrite nth_indep with (d' := f 0%nat) by (now rewrite map_length, seq_length). rewrite map_nth, seq_nth by lia. reflexivity. Qed.
  Lemma without_nn : forall n l, Forall (fun d => 0 <= d) l -> Forall (fun d => 0 <= d) (without n l).
  Proof.
    intros n l H. unfold without. apply Forall_app. rewrite Forall_forall in H. split; apply Forall_forall; intros x Hx; apply H.
    - rewrite <- (firstn_skipn n l). apply in_or_app. auto.
    - rewrite <- (firstn_skipn (S n) l). apply in_or_app. auto.
  Qed.

  Section Loop.
    Variables (lt : T -> T -> bool) (svd : Z -> Z -> ten -> res ten) (dims ranks : list Z) (t : ten).
    Hypotheses (HC : svd_contract lt svd) (L : length ranks = length dims)
      (ND : Forall (fun d => 0 <= d) dims) (NR : Forall (fun d => 0 <= d) ranks).

    Lemma ho_svd_start : forall G Fs, ho_svd svd dims ranks t [] = Ok (G, Fs) ->
      iterate lt dims ranks t 0 Fs /\ forall r, length r = length dims -> G r = core_value dims t Fs r.
    Proof.
      intros G Fs E. unfold ho_svd in E. destruct (init_tucker svd dims ranks (own_folds dims t)) as [Fs'| |] eqn:EI; try discriminate.
      cbn [bind] in E. injection E as <- <-.
      destruct (init_spec _ _ _ _ _ L EI) as (LF & _ & _). split.
      - constructor. apply (init_each lt svd dims ranks (own_folds dims t) Fs' (fun n => slices n dims t)); auto.
        intros n Hn i i' Hi Hi'. cbv zeta. unfold own_folds. rewrite nth_map_seq by auto. cbn [fst snd]. apply unfolded_gram. now apply without_nn.
      - intros r Hr. apply core_passes; auto.
    Qed.
    Lemma ho_svd_step : forall m Fs0 folds G Fs, iterate lt dims ranks t m Fs0 -> length Fs0 = length dims ->
      new_folds dims ranks t Fs0 = Ok folds -> ho_svd svd dims ranks t folds = Ok (G, Fs) ->
      iterate lt dims ranks t (S m) Fs /\ length Fs = length dims /\ forall r, length r = length dims -> G r = core_value dims t Fs r.
    Proof.
      intros m Fs0 folds G Fs HI L0 EF E. unfold new_folds in EF. destruct (Nat.leb_spec (length dims) 1) as [|H1]; [discriminate|].
      injection EF as <-. unfold ho_svd in E. set (folds := map _ _) in E.
      assert (Ef : match folds with [] => own_folds dims t | _ => folds end = folds).
      { unfold folds. destruct (length dims); [lia|]. reflexivity. }
      rewrite Ef in E. clear Ef.
      destruct (init_tucker svd dims ranks folds) as [Fs'| |] eqn:EI; try discriminate. cbn [bind] in E. injection E as <- <-.
      destruct (init_spec _ _ _ _ _ L EI) as (LF & _ & _). split; [|split; auto; intros r Hr; apply core_passes; auto].
      econstructor; [exact HI|].
      apply (init_each lt svd dims ranks folds Fs' (fun n => slices n ranks (contracted n dims t Fs0))); auto.
      intros n Hn i i' Hi Hi'. cbv zeta. unfold folds. rewrite nth_map_seq by auto. cbn [fst snd]. rewrite unfolded_gram by (now apply without_nn).
      unfold slices. apply (lsum_ext O). intros j Hj. apply indices_len in Hj. rewrite without_length in Hj by lia.
      assert (LA : forall x, length (at_position n x j) = length dims).
      { intros x. unfold at_position. rewrite app_length. cbn [length]. rewrite firstn_length, skipn_length. lia. }
      rewrite !skip_passes by auto. reflexivity.
    Qed.

    Variables (sq : T -> T) (num : Z -> T) (tol : T).
    Lemma loop_spec : forall fuel m G0 Fs0 conv G Fs, iterate lt dims ranks t m Fs0 -> length Fs0 = length dims ->
      (forall r, length r = length dims -> G0 r = core_value dims t Fs0 r) ->
      ho_oi_loop svd dims ranks t sq num lt tol fuel G0 Fs0 = Ok (conv, G, Fs) ->
      (conv = false /\ iterate lt dims ranks t (m + fuel) Fs /\ (forall r, length r = length dims -> G r = core_value dims t Fs r)) \/
      (conv = true /\ exists k G1 Fs1, (k < fuel)%nat /\ iterate lt dims ranks t (m + k) Fs1 /\ iterate lt dims ranks t (m + S k) Fs /\
         length Fs1 = length dims /\ length Fs = length dims /\
         (forall r, length r = length dims -> G1 r = core_value dims t Fs1 r) /\
         (forall r, length r = length dims -> G r = core_value dims t Fs r) /\
         lt (rms_max sq num lt (rms sq num ranks G G1) dims ranks Fs Fs1) tol = true).
    Proof.
      induction fuel as [|fuel IH]; intros m G0 Fs0 conv G Fs HI L0 HG E.
      - cbn [ho_oi_loop] in E. injection E as <- <- <-. left. rewrite Nat.add_0_r. auto.
      - cbn [ho_oi_loop] in E. destruct (new_folds dims ranks t Fs0) as [folds| |] eqn:EF; try discriminate. cbn [bind] in E.
        destruct (ho_svd svd dims ranks t folds) as [(G1, Fs1)| |] eqn:ES; try discriminate. cbn [bind fst snd] in E.
        destruct (ho_svd_step m Fs0 folds G1 Fs1 HI L0 EF ES) as (HI1 & L1 & HG1).
        destruct (lt _ tol) eqn:EL.
        + injection E as <- <- <-. right. split; auto. exists 0%nat, G0, Fs0. rewrite Nat.add_0_r, Nat.add_1_r. repeat split; auto. lia.
        + destruct (IH (S m) G1 Fs1 conv G Fs HI1 L1 HG1 E) as [(C & A & B)|(C & k & G2 & Fs2 & Hk & A)].
          * left. replace (m + S fuel)%nat with (S m + fuel)%nat by lia. auto.
          * right. split; auto. exists (S k), G2, Fs2. replace (m + S k)%nat with (S m + k)%nat by lia.
            replace (m + S (S k))%nat with (S m + S k)%nat by lia. split; [lia|auto].
    Qed.
  End Loop.
End P.

(** ** C112: the Tucker decompositions *)

(** The core returned is the tensor contracted with the factors returned; the
    factors are those of a number of iterations, at most [n_iter_max], and fewer only if the last one
    changed core and factors by less than the tolerance. *)
Theorem C112_iterations : forall (O : Ops), is_ring O -> forall lt svd sq num tol dims ranks t n_iter_max conv G Fs,
  svd_contract lt svd -> length ranks = length dims -> Forall (fun d => 0 <= d) dims -> Forall (fun d => 0 <= d) ranks ->
  ho_oi (O := O) svd dims ranks t sq num lt tol n_iter_max = Ok (conv, G, Fs) ->
  (forall r, inb r ranks -> G r = core_value dims t Fs r) /\
  if conv then
    exists m Fs0, Z.of_nat m < n_iter_max /\ iterate lt dims ranks t m Fs0 /\ iterate lt dims ranks t (S m) Fs /\
      ((forall a b c, lt a b = true -> lt b c = true -> lt a c = true) ->
       (forall a b c, lt a c = true -> lt a b = false -> lt b c = true) ->
       lt (rms_distance sq num ranks (core_value dims t Fs) (core_value dims t Fs0)) tol = true /\
       forall n, (n < length dims)%nat ->
         lt (rms_distance sq num [nth n dims 0; nth n ranks 0] (nth n Fs (fun _ => o0)) (nth n Fs0 (fun _ => o0))) tol = true)
  else iterate lt dims ranks t (Z.to_nat n_iter_max) Fs.
Proof.
  intros O HR lt svd sq num tol dims ranks t n conv G Fs HC L ND NR E. unfold ho_oi in E.
  destruct (ho_svd svd dims ranks t []) as [(G0, Fs0)| |] eqn:E0; try discriminate. cbn [bind fst snd] in E.
  destruct (ho_svd_start HR lt svd dims ranks t HC L ND G0 Fs0 E0) as (I0 & H0).
  assert (L0 : length Fs0 = length dims) by (inversion I0 as [fs (_ & A & _)|]; auto).
  destruct (loop_spec HR lt svd dims ranks t HC L NR sq num tol _ 0 G0 Fs0 conv G Fs I0 L0 H0 E)
    as [(-> & I & H)|(-> & k & G1 & Fs1 & Hk & I1 & I & L1 & LF & H1 & H & HL)].
  - split; [|exact I]. intros r Hr. apply H. rewrite (inb_length _ _ Hr). auto.
  - split. { intros r Hr. apply H. rewrite (inb_length _ _ Hr). auto. }
    exists k, Fs1. split; [lia|]. split; [exact I1|]. split; [exact I|]. intros T1 T2.
    assert (M : forall ds rs (A B : list (list Z -> car O)) m, length rs = length ds -> length A = length ds -> length B = length ds ->
       lt (rms_max sq num lt m ds rs A B) tol = true ->
       lt m tol = true /\ forall n, (n < length ds)%nat ->
         lt (rms sq num [nth n ds 0; nth n rs 0] (nth n A (fun _ => o0)) (nth n B (fun _ => o0))) tol = true).
    { induction ds as [|d ds IH]; intros rs A B m E1 E2 E3 Hl.
      - split; [exact Hl|]. simpl. lia.
      - destruct rs; [discriminate|]. destruct A as [|F A]; [discriminate|]. destruct B as [|F' B]; [discriminate|].
        cbn [rms_max] in Hl. injection E1 as E1. injection E2 as E2. injection E3 as E3. apply IH in Hl as (Hm & Hl); auto.
        destruct (lt m (rms sq num [d; z] F F')) eqn:Em.
        + split; [eapply T1; eauto|]. intros [|j] Hj; [exact Hm|]. apply Hl. simpl in Hj. lia.
        + split; [exact Hm|]. intros [|j] Hj; [exact (T2 _ _ _ Hm Em)|]. apply Hl. simpl in Hj. lia. }
    destruct (M dims ranks Fs Fs1 _ L LF L1 HL) as (A & B). split; [|exact B].
    rewrite <- A. f_equal. unfold rms_distance, rms, norm2, square. f_equal. f_equal. apply (lsum_ext O). intros i Hi.
    apply indices_len in Hi. rewrite H, H1 by congruence. reflexivity.
Qed.
Print Assumptions C112_iterations.

(** [tucker_ho_svd]: no iteration. *)
Theorem C112_start : forall (O : Ops), is_ring O -> forall lt svd dims ranks t G Fs,
  svd_contract lt svd -> length ranks = length dims -> Forall (fun d => 0 <= d) dims -> Forall (fun d => 0 <= d) ranks ->
  ho_svd (O := O) svd dims ranks t [] = Ok (G, Fs) ->
  iterate lt dims ranks t 0 Fs /\ forall r, inb r ranks -> G r = core_value dims t Fs r.
Proof.
  intros O HR lt svd dims ranks t G Fs HC L ND NR E.
  destruct (ho_svd_start HR lt svd dims ranks t HC L ND G Fs E) as (I & H). split; auto.
  intros r Hr. apply H. rewrite (inb_length _ _ Hr). auto.
Qed.
Print Assumptions C112_start.

Section F.
  Context {O : Ops} (HR : is_ring O).
  Notation T := (car O).
  Notation ten := (list Z -> car O).
  Add Ring R2 : (ir_rt O HR).

  Lemma iterate_columns : forall lt dims ranks (t : ten) m fs, iterate lt dims ranks t m fs ->
    each (fun _ d k => columns_orthonormal d k) dims ranks fs.
  Proof. intros lt dims ranks t m fs H. inversion H as [fs' E|? ? ? ? E]; subst; refine (each_imp _ _ _ _ _ E _); intros n _ f Hf; exact (leading_columns _ _ _ _ _ Hf). Qed.
  Lemma iterate_rows : forall lt dims (t : ten) m fs, iterate lt dims dims t m fs ->
    each (fun _ d k f => forall a b, 0 <= a < d -> 0 <= b < d -> zsum d (fun c => omul (f [a; c]) (f [b; c])) = if a =? b then o1 else o0) dims dims fs.
  Proof. intros lt dims t m fs H. inversion H as [fs' E|? ? ? ? E]; subst; refine (each_imp _ _ _ _ _ E _); intros n _ f Hf; exact (leading_rows _ _ _ _ Hf). Qed.

  Lemma columns_flip : forall dims ranks (fs : list ten), each (fun _ d k => columns_orthonormal d k) dims ranks fs ->
    orthonormal ranks dims (map (fun f l => f (rev l)) fs).
  Proof.
    induction dims as [|d dims IH]; intros ranks fs (L1 & L2 & H).
    - destruct ranks; [|discriminate]. destruct fs; [|discriminate]. constructor.
    - destruct ranks as [|k ranks]; [discriminate|]. destruct fs as [|f fs]; [discriminate|]. cbn [map]. constructor.
      + exact (H 0%nat ltac:(simpl; lia)).
      + apply IH. injection L1 as L1. injection L2 as L2. split; [auto|split; [auto|]]. intros n Hn. exact (H (S n) ltac:(simpl; lia)).
  Qed.
  Lemma rows_ortho : forall dims (fs : list ten),
    each (fun _ d k f => forall a b, 0 <= a < d -> 0 <= b < d -> zsum d (fun c => omul (f [a; c]) (f [b; c])) = if a =? b then o1 else o0) dims dims fs ->
    orthonormal dims dims fs.
  Proof.
    induction dims as [|d dims IH]; intros fs (L1 & L2 & H).
    - destruct fs; [|discriminate]. constructor.
    - destruct fs as [|f fs]; [discriminate|]. constructor.
      + exact (H 0%nat ltac:(simpl; lia)).
      + apply IH. injection L2 as L2. split; [auto|split; [auto|]]. intros n Hn. exact (H (S n) ltac:(simpl; lia)).
  Qed.

  Lemma columns_sum : forall dims ranks (fs : list ten), each (fun _ d k => columns_orthonormal d k) dims ranks fs ->
    forall r s, inb r ranks -> inb s ranks ->
    lsum (indices dims) (fun i => omul (elems_prod fs i r) (elems_prod fs i s)) = if list_eq_dec Z.eq_dec r s then o1 else o0.
  Proof.
    intros dims ranks fs H r s Hr Hs. assert (H' := H). destruct H' as (L1 & L2 & _).
    rewrite <- (orthonormal_sum HR ranks dims _ (columns_flip dims ranks fs H) r s Hr Hs).
    apply (lsum_ext O). intros i Hi. apply in_indices in Hi. rewrite !(elems_prod_flip dims ranks) by (auto; congruence). reflexivity.
  Qed.

  (** <recon c, recon c'> = <c, c'> *)
  Lemma recon_inner : forall dims ranks (fs : list ten) (c c' : ten), each (fun _ d k => columns_orthonormal d k) dims ranks fs ->
    lsum (indices dims) (fun i => omul (tucker_value ranks c fs i) (tucker_value ranks c' fs i)) = lsum (indices ranks) (fun r => omul (c r) (c' r)).
  Proof.
    intros dims ranks fs c c' H. unfold tucker_value.
    rewrite (lsum_ext O _ (indices dims) _ (fun i => lsum (indices ranks) (fun r => lsum (indices ranks) (fun s =>
       omul (omul (c r) (c' s)) (omul (elems_prod fs i r) (elems_prod fs i s)))))).
    - rewrite (lsum_swap O HR). apply (lsum_ext O). intros r Hr. rewrite (lsum_swap O HR).
      rewrite (lsum_ext O _ (indices ranks) _ (fun s => if list_eq_dec Z.eq_dec r s then omul (c r) (c' s) else o0)).
      + rewrite (lsum_single O HR _ (indices ranks) r _ (indices_NoDup _)); auto.
        * destruct (list_eq_dec Z.eq_dec r r); [auto|congruence].
        * intros s _ Hn. destruct (list_eq_dec Z.eq_dec r s); [congruence|auto].
      + intros s Hs. rewrite (lsum_mul_l O HR), (columns_sum dims ranks fs H) by (now apply in_indices).
        destruct (list_eq_dec Z.eq_dec r s); ring.
    - intros i _. rewrite <- (lsum_mul_r O HR). apply (lsum_ext O). intros r _. rewrite <- (lsum_mul_l O HR). apply (lsum_ext O). intros s _. ring.
  Qed.
  (** <t, recon c> = <core t, c> *)
  Lemma recon_adjoint : forall dims ranks (fs : list ten) (t c : ten),
    lsum (indices dims) (fun i => omul (t i) (tucker_value ranks c fs i)) = lsum (indices ranks) (fun r => omul (core_value dims t fs r) (c r)).
  Proof.
    intros dims ranks fs t c. unfold tucker_value, core_value.
    rewrite (lsum_ext O _ (indices dims) _ (fun i => lsum (indices ranks) (fun r => omul (omul (t i) (elems_prod fs i r)) (c r)))).
    - rewrite (lsum_swap O HR). apply (lsum_ext O). intros r _. now rewrite (lsum_mul_r O HR).
    - intros i _. rewrite <- (lsum_mul_l O HR). apply (lsum_ext O). intros r _. ring.
  Qed.
  Lemma lsum_expand : forall A (l : list A) (a b : A -> T),
    oadd (lsum l (fun i => square (osub (a i) (b i)))) (oadd (lsum l (fun i => omul (a i) (b i))) (lsum l (fun i => omul (a i) (b i)))) =
    oadd (lsum l (fun i => square (a i))) (lsum l (fun i => square (b i))).
  Proof.
    intros A l a b. rewrite <- !(lsum_add O HR). apply (lsum_ext O). intros i _. unfold square. ring.
  Qed.
  Lemma oadd_cancel : forall a b c : T, oadd a c = oadd b c -> a = b.
  Proof. intros a b c H. replace a with (osub (oadd a c) c) by ring. rewrite H. ring. Qed.

  Lemma fit : forall dims ranks (fs : list ten) (t c : ten), each (fun _ d k => columns_orthonormal d k) dims ranks fs ->
    oadd (tucker_misfit dims ranks t c fs) (norm2 ranks (core_value dims t fs)) =
    oadd (norm2 dims t) (norm2 ranks (fun r => osub (core_value dims t fs r) (c r))).
  Proof.
    intros dims ranks fs t c H. unfold tucker_misfit, norm2.
    assert (E1 := lsum_expand _ (indices dims) t (tucker_value ranks c fs)).
    assert (E2 := lsum_expand _ (indices ranks) (core_value dims t fs) c).
    rewrite recon_adjoint in E1. assert (E3 := recon_inner dims ranks fs c c H). fold (square (O := O)) in E3.
    change (lsum (indices dims) (fun i => square (tucker_value ranks c fs i)) = lsum (indices ranks) (fun r => square (c r))) in E3.
    rewrite E3 in E1. set (x := lsum (indices ranks) (fun i => omul (core_value dims t fs i) (c i))) in *.
    set (a := lsum (indices dims) (fun i => square (osub _ _))) in *.
    set (b := lsum (indices ranks) (fun i => square (osub _ _))) in *.
    set (n1 := lsum (indices dims) (fun i => square (t i))) in *.
    set (n2 := lsum (indices ranks) (fun i => square (c i))) in *.
    set (n3 := lsum (indices ranks) (fun i => square (core_value dims t fs i))) in *.
    apply (oadd_cancel _ _ (oadd (oadd x x) n2)).
    replace (oadd (oadd a n3) (oadd (oadd x x) n2)) with (oadd (oadd a (oadd x x)) (oadd n3 n2)) by ring. rewrite E1, <- E2. ring.
  Qed.

  Lemma zero_square : omul o0 o0 = o0 :> T.
  Proof. ring. Qed.
  Lemma zsum_pick : forall n c (f : Z -> T), 0 <= c < n -> (forall k, 0 <= k < n -> k <> c -> f k = o0) -> zsum n f = f c.
  Proof.
    intros n c f Hc H. unfold zsum. apply (lsum_single O HR); auto.
    - apply zrange_NoDup.
    - now apply zrange_in.
    - intros k Hk Hn. apply H; auto. now apply zrange_in.
  Qed.
  Lemma zsum_zero : forall n (f : Z -> T), (forall k, 0 <= k < n -> f k = o0) -> zsum n f = o0.
  Proof.
    intros n f H. rewrite (zsum_ext O n f (fun _ => o0)) by auto. apply (lsum_0 O HR).
  Qed.
  Lemma left_vectors : forall m n (A U : Z -> Z -> T) s VT,
    agree m m (mmul m (trn U) U) ident -> agree n n (mmul n VT (trn VT)) ident ->
    (forall i j, 0 <= i < m -> 0 <= j < n -> A i j = zsum (Z.min m n) (fun k => omul (U i k) (omul (s k) (VT k j)))) ->
    forall i c, 0 <= i < m -> 0 <= c < m ->
    zsum m (fun j => omul (zsum n (fun z => omul (A i z) (A j z))) (U j c)) =
    omul (if c <? Z.min m n then omul (s c) (s c) else o0) (U i c).
  Proof.
    intros m n A U s VT HU HV HA i c Hi Hc.
    assert (K : forall z, 0 <= z < n -> zsum m (fun j => omul (A j z) (U j c)) = if c <? Z.min m n then omul (s c) (VT c z) else o0).
    { intros z Hz.
      rewrite (zsum_ext O m _ (fun j => zsum (Z.min m n) (fun k => omul (omul (s k) (VT k z)) (omul (U j k) (U j c))))).
      2:{ intros j Hj. rewrite HA by auto. unfold zsum. rewrite <- (lsum_mul_r O HR). apply (lsum_ext O). intros k _. ring. }
      unfold zsum. rewrite (lsum_swap O HR).
      fold (zsum (O := O) (Z.min m n) (fun k => lsum (zrange m) (fun j => omul (omul (s k) (VT k z)) (omul (U j k) (U j c))))).
      assert (D : forall k, 0 <= k < Z.min m n -> lsum (zrange m) (fun j => omul (omul (s k) (VT k z)) (omul (U j k) (U j c))) =
                    if k =? c then omul (s k) (VT k z) else o0).
      { intros k Hk. rewrite (lsum_mul_l O HR). assert (E := HU k c ltac:(lia) Hc). unfold mmul, trn, ident, zsum in E. rewrite E.
        destruct (k =? c); ring. }
      destruct (Z.ltb_spec c (Z.min m n)).
      - rewrite (zsum_pick _ c); [|lia|].
        + rewrite D by lia. now rewrite Z.eqb_refl.
        + intros k Hk Hn. rewrite D by auto. destruct (Z.eqb_spec k c); [congruence|auto].
      - apply zsum_zero. intros k Hk. rewrite D by auto. destruct (Z.eqb_spec k c); [lia|auto]. }
    rewrite (zsum_ext O m _ (fun j => zsum n (fun z => omul (A i z) (omul (A j z) (U j c))))).
    2:{ intros j Hj. unfold zsum. rewrite <- (lsum_mul_r O HR). apply (lsum_ext O). intros z _. ring. }
    unfold zsum at 1 2. rewrite (lsum_swap O HR).
    fold (zsum (O := O) n (fun z => lsum (zrange m) (fun j => omul (A i z) (omul (A j z) (U j c))))).
    rewrite (zsum_ext O n _ (fun z => if c <? Z.min m n then omul (s c) (omul (A i z) (VT c z)) else o0)).
    2:{ intros z Hz. rewrite (lsum_mul_l O HR). fold (zsum (O := O) m (fun j => omul (A j z) (U j c))). rewrite K by auto.
        destruct (c <? Z.min m n); ring. }
    destruct (Z.ltb_spec c (Z.min m n)) as [Hm|Hm]; [|rewrite zsum_zero by auto; ring].
    unfold zsum. rewrite (lsum_mul_l O HR). fold (zsum (O := O) n (fun z => omul (A i z) (VT c z))).
    assert (E : zsum n (fun z => omul (A i z) (VT c z)) = omul (U i c) (s c)).
    { rewrite (zsum_ext O n _ (fun z => zsum (Z.min m n) (fun k => omul (omul (U i k) (s k)) (omul (VT k z) (VT c z))))).
      2:{ intros z Hz. rewrite HA by auto. unfold zsum. rewrite <- (lsum_mul_r O HR). apply (lsum_ext O). intros k _. ring. }
      unfold zsum. rewrite (lsum_swap O HR).
      fold (zsum (O := O) (Z.min m n) (fun k => lsum (zrange n) (fun z => omul (omul (U i k) (s k)) (omul (VT k z) (VT c z))))).
      assert (D : forall k, 0 <= k < Z.min m n -> lsum (zrange n) (fun z => omul (omul (U i k) (s k)) (omul (VT k z) (VT c z))) =
                    if k =? c then omul (U i k) (s k) else o0).
      { intros k Hk. rewrite (lsum_mul_l O HR). assert (E := HV k c ltac:(lia) ltac:(lia)). unfold mmul, trn, ident, zsum in E. rewrite E.
        destruct (k =? c); ring. }
      rewrite (zsum_pick _ c); [|lia|].
      - rewrite D by lia. now rewrite Z.eqb_refl.
      - intros k Hk Hn. rewrite D by auto. destruct (Z.eqb_spec k c); [congruence|auto]. }
    rewrite E. ring.
  Qed.
End F.

(** Quality of the fit after any number of iterations.  The factors have
    orthonormal columns; for a core [c] the squared distance to the tensor is |t|^2 - |G|^2 + |G - c|^2,
    where G is the tensor contracted with the factors: no core fits better, and the squared error of the
    decomposition is |t|^2 - |G|^2. *)
Theorem C112_fit : forall (O : Ops), is_ring O -> forall lt dims ranks t m fs,
  iterate (O := O) lt dims ranks t m fs ->
  each (fun _ d k => columns_orthonormal d k) dims ranks fs /\
  forall c, oadd (tucker_misfit dims ranks t c fs) (norm2 ranks (core_value dims t fs)) =
            oadd (norm2 dims t) (norm2 ranks (fun r => osub (core_value dims t fs r) (c r))).
Proof.
  intros O HR lt dims ranks t m fs H. assert (C := iterate_columns lt dims ranks t m fs H). split; auto.
  intros c. apply (fit HR); auto.
Qed.
Print Assumptions C112_fit.

(** Full ranks: reconstruction gives the tensor back. *)
Theorem C112_exact : forall (O : Ops), is_ring O -> forall lt dims t G m fs,
  iterate (O := O) lt dims dims t m fs -> (forall r, inb r dims -> G r = core_value dims t fs r) ->
  forall i, inb i dims -> tucker_value dims G fs i = t i.
Proof.
  intros O HR lt dims t G m fs H HG i Hi.
  rewrite <- (orthonormal_back HR dims dims fs t (rows_ortho dims fs (iterate_rows lt dims t m fs H)) i Hi) at 1.
  unfold tucker_value. apply (lsum_ext O). intros r Hr. rewrite HG by (now apply in_indices). reflexivity.
Qed.
Print Assumptions C112_exact.

(** Two or more positions, ranks within the extents, no failing decomposition:
    both functions return. *)
Theorem C112_returns_partial : forall (O : Ops) (svd : Z -> Z -> (list Z -> car O) -> res (list Z -> car O)) sq num lt tol dims ranks t n_iter_max,
  (2 <= length dims)%nat -> Forall2 (fun r d => r <= d) ranks dims ->
  (forall m n A, exists U, svd m n A = Ok U) ->
  (exists G Fs, ho_svd svd dims ranks t [] = Ok (G, Fs)) /\
  exists conv G Fs, ho_oi svd dims ranks t sq num lt tol n_iter_max = Ok (conv, G, Fs).
Proof.
  intros O svd sq num lt tol dims ranks t n Hd HF HS.
  assert (I : forall folds, length folds = length dims -> exists Fs, init_tucker svd dims ranks folds = Ok Fs).
  { clear Hd t. induction HF as [|r d rs ds Hr HF IH]; intros folds Lf.
    - eexists. reflexivity.
    - destruct folds as [|(c, f) folds]; [discriminate|]. injection Lf as Lf. cbn [init_tucker].
      destruct (HS d c f) as (U & ->). cbn [bind]. destruct (Z.ltb_spec d r); [lia|]. destruct (IH folds Lf) as (Fs & ->).
      eexists. reflexivity. }
  assert (H0 : exists G Fs, ho_svd svd dims ranks t [] = Ok (G, Fs)).
  { unfold ho_svd. destruct (I (own_folds dims t)) as (Fs & ->); [unfold own_folds; now rewrite map_length, seq_length|].
    eexists. eexists. reflexivity. }
  split; auto. destruct H0 as (G & Fs & E). unfold ho_oi. rewrite E. cbn [bind fst snd]. clear E.
  revert G Fs. induction (Z.to_nat n) as [|k IH]; intros G Fs.
  - eexists. eexists. eexists. reflexivity.
  - cbn [ho_oi_loop]. unfold new_folds. destruct (Nat.leb_spec (length dims) 1); [lia|]. cbn [bind]. unfold ho_svd.
    set (folds := map _ _). assert (Lf : length folds = length dims) by (unfold folds; now rewrite map_length, seq_length).
    assert (Em : forall l X : list (Z * (list Z -> car O)), (2 <= length l)%nat -> match l with [] => X | _ => l end = l)
      by (intros [|] ? ?; [simpl in *; lia|reflexivity]).
    rewrite Em by lia. destruct (I folds Lf) as (Fs' & ->). cbn [bind fst snd].
    destruct (lt _ tol); [|apply IH]. eexists. eexists. eexists. reflexivity.
Qed.
Print Assumptions C112_returns_partial.

(** One position: the new unfolding is taken from an uninitialised pointer. *)
Theorem C112_one_mode_refuted : forall (O : Ops) (svd : Z -> Z -> (list Z -> car O) -> res (list Z -> car O)) sq num lt tol d r t n,
  (forall m k A, exists U, svd m k A = Ok U) -> r <= d -> 0 < n -> ho_oi svd [d] [r] t sq num lt tol n = UB.
Proof.
  intros O svd sq num lt tol d r t n HS Hr Hn. unfold ho_oi, ho_svd, own_folds. cbn [map seq length init_tucker].
  destruct (HS d (zprod (without 0 [d])) (unfolded [d] t 0)) as (U & E). rewrite E. cbn [bind].
  destruct (Z.ltb_spec d r); [lia|]. cbn [bind fst snd]. destruct (Z.to_nat n) eqn:En; [lia|]. reflexivity.
Qed.
Print Assumptions C112_one_mode_refuted.

(** A rank above the extent: a warning is printed, then columns past the end of
    the matrix of singular vectors are copied. *)
Theorem C112_rank_refuted : forall (O : Ops) (svd : Z -> Z -> (list Z -> car O) -> res (list Z -> car O)) d r dims ranks t,
  (forall m k A, exists U, svd m k A = Ok U) -> d < r -> ho_svd svd (d :: dims) (r :: ranks) t [] = UB.
Proof.
  intros O svd d r dims ranks t HS Hr. unfold ho_svd, own_folds. cbn [length seq map init_tucker].
  destruct (HS d (zprod (without 0 (d :: dims))) (unfolded (d :: dims) t 0)) as (U & ->). cbn [bind].
  destruct (Z.ltb_spec d r); [reflexivity|lia].
Qed.
Print Assumptions C112_rank_refuted.

(** ** A case, and an iteration that fits worse *)
Definition qlt (a b : Qc) : bool := negb (Qle_bool (this b) (this a)).
Notation qten := (list Z -> Qc).
Definition qsum (n : Z) (f : Z -> Qc) : Qc := zsum (O := QcOps) n f.
(** The singular vectors are looked up in a list and checked. *)
Definition checked (m n : Z) (A U : qten) : bool :=
  let W i i' := qsum n (fun z => A [i; z] * A [i'; z])%Qc in
  let w c := qsum m (fun i => qsum m (fun j => U [i; c] * (W i j * U [j; c])))%Qc in
  forallb (fun a => forallb (fun b =>
     Qc_eq_bool (qsum m (fun i => U [i; a] * U [i; b])%Qc) (if a =? b then 1%Qc else 0%Qc) &&
     Qc_eq_bool (qsum m (fun c => U [a; c] * U [b; c])%Qc) (if a =? b then 1%Qc else 0%Qc) &&
     Qc_eq_bool (qsum m (fun j => W a j * U [j; b])%Qc) (w b * U [a; b])%Qc) (zrange m)) (zrange m) &&
  forallb (fun c => negb (qlt (w c) (w (c + 1)))) (zrange (m - 1)).
Definition qsvd (cands : list qten) (m n : Z) (A : qten) : res qten :=
  match find (checked m n A) cands with Some U => Ok U | None => Throw end.
Lemma qsvd_ok : forall cands, svd_contract (O := QcOps) qlt (qsvd cands).
Proof.
  intros cands m n A U E. unfold qsvd in E. destruct (find (checked m n A) cands) as [U'|] eqn:EF; [|discriminate]. injection E as ->.
  apply find_some in EF as (_ & C). unfold checked in C. apply andb_prop in C as (C1 & C2). rewrite forallb_forall in C1, C2.
  assert (C : forall a b, 0 <= a < m -> 0 <= b < m ->
     qsum m (fun i => U [i; a] * U [i; b])%Qc = (if a =? b then 1%Qc else 0%Qc) /\
     qsum m (fun c => U [a; c] * U [b; c])%Qc = (if a =? b then 1%Qc else 0%Qc) /\
     qsum m (fun j => qsum n (fun z => A [a; z] * A [j; z]) * U [j; b])%Qc =
       (qsum m (fun i => qsum m (fun j => U [i; b] * (qsum n (fun z => A [i; z] * A [j; z]) * U [j; b]))) * U [a; b])%Qc).
  { intros a b Ha Hb. specialize (C1 a (proj2 (zrange_in m a) Ha)). rewrite forallb_forall in C1.
    specialize (C1 b (proj2 (zrange_in m b) Hb)). apply andb_prop in C1 as (C1 & C5). apply andb_prop in C1 as (C3 & C4).
    exact (conj (Qc_eq_bool_correct _ _ C3) (conj (Qc_eq_bool_correct _ _ C4) (Qc_eq_bool_correct _ _ C5))). }
  split; [apply Z.le_refl|]. exists (fun i c => U [i; c]), (fun b => qsum m (fun i => qsum m (fun j => U [i; b] * (qsum n (fun z => A [i; z] * A [j; z]) * U [j; b])))%Qc).
  split; [intros a b Ha Hb; exact (proj1 (C a b Ha Hb))|]. split; [intros a b Ha Hb; exact (proj1 (proj2 (C a b Ha Hb)))|].
  split; [intros i c Hi Hc; exact (proj2 (proj2 (C i c Hi Hc)))|]. split; [|intros; reflexivity]. intros c Hc. specialize (C2 c (proj2 (zrange_in (m - 1) c) Hc)). now apply negb_true_iff in C2.
Qed.

(** The 2 x 2 x 2 tensor with elements 3, 4, -2, -2 for 0, 1, 2, 3 indices equal to 1. *)
Definition q (n : Z) (d : positive) : Qc := Q2Qc (n # d).
Definition worse_t : qten := fun i => let s := fold_right Z.add 0 i in
  if s =? 0 then q 3 1 else if s =? 1 then q 4 1 else q (-2) 1.
Definition worse_svd := qsvd [(fun l => if nth 0 l 0 =? nth 1 l 0 then q 1 1 else q 0 1);
  (fun l => match l with [0; 0] => q 3 5 | [1; 0] => q 4 5 | [0; 1] => q (-4) 5 | _ => q 3 5 end)].

Lemma ok_pair : forall A B (x : res (A * B)) (P : A -> B -> Prop),
  match x with Ok (a, b) => P a b | _ => False end -> exists a b, x = Ok (a, b) /\ P a b.
Proof. intros A B [(a, b)| |] P H; try contradiction. eauto. Qed.
Lemma ok_triple : forall A B (x : res (bool * A * B)) (P : A -> B -> Prop),
  match x with Ok (false, a, b) => P a b | _ => False end -> exists a b, x = Ok (false, a, b) /\ P a b.
Proof. intros A B [(([] & a), b)| |] P H; try contradiction. eauto. Qed.

(** Rank (1, 1, 1): the starting factors leave a squared error of 64; the first
    iteration, which replaces all factors at once, one above 72 (the squared norm is 73). *)
Theorem C112_worse_refuted :
  svd_contract (O := QcOps) qlt worse_svd /\
  exists G0 Fs0 G Fs,
    ho_svd (O := QcOps) worse_svd [2; 2; 2] [1; 1; 1] worse_t [] = Ok (G0, Fs0) /\
    ho_oi (O := QcOps) worse_svd [2; 2; 2] [1; 1; 1] worse_t (fun x => x) (fun _ => 1%Qc) qlt 0%Qc 1 = Ok (false, G, Fs) /\
    this (tucker_misfit (O := QcOps) [2; 2; 2] [1; 1; 1] worse_t G0 Fs0) = 64%Q /\
    this (tucker_misfit (O := QcOps) [2; 2; 2] [1; 1; 1] worse_t G Fs) = (1131216 # 15625)%Q /\ 1131216 > 72 * 15625.
Proof.
  split; [apply qsvd_ok|].
  destruct (ok_pair _ _ (ho_svd (O := QcOps) worse_svd [2; 2; 2] [1; 1; 1] worse_t [])
    (fun G Fs => this (tucker_misfit (O := QcOps) [2; 2; 2] [1; 1; 1] worse_t G Fs) = 64%Q)) as (G0 & Fs0 & E0 & H0); [vm_compute; reflexivity|].
  destruct (ok_triple _ _ (ho_oi (O := QcOps) worse_svd [2; 2; 2] [1; 1; 1] worse_t (fun x => x) (fun _ => 1%Qc) qlt 0%Qc 1)
    (fun G Fs => this (tucker_misfit (O := QcOps) [2; 2; 2] [1; 1; 1] worse_t G Fs) = (1131216 # 15625)%Q)) as (G & Fs & E & H); [vm_compute; reflexivity|].
  exists G0, Fs0, G, Fs. exact (conj E0 (conj E (conj H0 (conj H eq_refl)))).
Qed.
Print Assumptions C112_worse_refuted.

(** Full ranks: the returned core and factors give the tensor back. *)
Definition full_svd := qsvd [(fun l => if nth 0 l 0 =? nth 1 l 0 then q 1 1 else q 0 1);
  (fun l => if nth 0 l 0 =? 1 - nth 1 l 0 then q 1 1 else q 0 1)].
Definition full_t : qten := fun l => match l with [0; 0] => q 0 1 | [0; 1] => q 2 1 | [1; 0] => q 5 1 | _ => q 0 1 end.
Example C112_case :
  match ho_oi (O := QcOps) full_svd [2; 2] [2; 2] full_t (fun x => x) (fun _ => 1%Qc) qlt (q 1 10) 20 with
  | Ok (true, G, Fs) => map (fun i => this (G i)) (indices [2; 2]) = [5; 0; 0; 2]%Q /\
      map (fun i => this (tucker_value (O := QcOps) [2; 2] G Fs i)) (indices [2; 2]) = [0; 2; 5; 0]%Q
  | _ => False
  end.
Proof. vm_compute. split; reflexivity. Qed.
Example C112_returns_case : exists G Fs,
  ho_svd (O := QcOps) (fun _ _ A => Ok A) [2; 3] [1; 2] (fun i => q (nth 0 i 0) 1) [] = Ok (G, Fs).
Proof.
  apply (C112_returns_partial QcOps (fun _ _ A => Ok A) (fun x => x) (fun _ => 1%Qc) qlt 0%Qc [2; 3] [1; 2] _ 0).
  - simpl; lia.
  - repeat constructor; lia.
  - intros. eexists. reflexivity.
Qed.

(** What gesdd promises (S_Lapack) is what is assumed of the decomposition. *)
Theorem C112_svd_contract : forall (O : Ops), is_ring O -> forall (lt : car O -> car O -> bool) m n A U s VT,
  (forall a, lt a a = false) -> (forall a b, lt a o0 = false -> lt b a = false -> lt (omul b b) (omul a a) = false) ->
  svd_of (O := O) lt m n A U s VT ->
  leading lt m m (fun i i' => zsum n (fun z => omul (A i z) (A i' z))) (fun l => U (nth 0 l 0) (nth 1 l 0)).
Proof.
  intros O HR lt m n A U s VT Hrf Hlt ((HU1 & HU2) & (HV & _) & HA & HS0 & HS).
  split; [lia|]. exists U, (fun c => if c <? Z.min m n then omul (s c) (s c) else o0).
  assert (Z0 : omul o0 o0 = o0 :> car O) by apply (zero_square HR).
  split; [|split; [|split; [|split]]].
  - intros a b Ha Hb. exact (HU2 a b Ha Hb).
  - intros a b Ha Hb. exact (HU1 a b Ha Hb).
  - exact (left_vectors HR m n A U s VT HU2 HV HA).
  - intros c Hc. cbv beta. destruct (Z.ltb_spec c (Z.min m n)), (Z.ltb_spec (c + 1) (Z.min m n)); try lia.
    + apply Hlt; [apply HS0; lia|apply HS; lia].
    + rewrite <- Z0. apply Hlt; auto. apply HS0. lia.
    + auto.
  - intros i c Hi Hc. reflexivity.
Qed.
Print Assumptions C112_svd_contract.

(** ** C113: starting factors of the CANDECOMP/PARAFAC decompositions *)

(** C113.  The hypothesis: the eigenvalue solver succeeds on the matrices of
    products of slices. *)
Theorem C113_start : forall (O : Ops), is_ring O -> forall lt syev sq tiny rnd dims t rank,
  Forall (fun d => 0 <= d) dims ->
  (forall n A, (n < length dims)%nat ->
     (forall i j, 0 <= i < nth n dims 0 -> 0 <= j < nth n dims 0 -> A [i; j] = slices n dims t i j) ->
     eigenrows (O := O) lt (nth n dims 0) A (fst (syev (nth n dims 0) A)) (snd (syev (nth n dims 0) A))) ->
  length (init_cp syev sq tiny rnd dims t rank) = length dims /\
  forall n, (n < length dims)%nat ->
    cp_start lt sq tiny (Nat.eqb n 0) rank (nth n dims 0) (slices n dims t) (rnd n) (nth n (init_cp syev sq tiny rnd dims t rank) (fun _ => o0)).
Proof.
  intros O HR lt syev sq tiny rnd dims t rank ND HS. unfold init_cp. split; [now rewrite map_length, seq_length|].
  intros n Hn. rewrite nth_map_seq by auto. unfold cp_guess. set (d := nth n dims 0) in *.
  set (A := fun ij : list Z => zsum _ _).
  assert (HA : forall i j, 0 <= i < d -> 0 <= j < d -> A [i; j] = slices n dims t i j).
  { intros i j _ _. unfold A. cbn [nth]. apply (unfolded_gram HR). now apply without_nn. }
  destruct (HS n A Hn HA) as (H1 & H2 & H3). fold d in H1, H2, H3. destruct (syev d A) as (E & w). cbn [fst snd] in H1, H2, H3.
  exists (fun i c => E [c; i]), w. split; [|split; [|split]]; auto.
  - intros i c Hi Hc. rewrite <- (H2 i c Hi Hc). apply (zsum_ext O). intros j Hj. now rewrite HA.
  - intros i c Hi Hc. cbv zeta. destruct (Z.ltb_spec d rank); (split; [intros Hr|intros Hr]); try lia; cbn [nth].
    + destruct (c <? d); reflexivity.
    + replace (c + (d - rank)) with (d - rank + c) by lia. reflexivity.
Qed.
Print Assumptions C113_start.

(** A 2 x 3 tensor whose slices are orthogonal: eigenvalues 4 and 9 for rows,
    0, 4 and 9 for columns; rank 1 and rank 3. *)
Definition cp_syev (m : Z) (A : list Z -> Z) : (list Z -> Z) * (Z -> Z) :=
  if m =? 2 then (fun l => if nth 0 l 0 =? nth 1 l 0 then 1 else 0, fun v => if v =? 0 then 4 else 9)
  else (fun l => if nth 0 l 0 =? (nth 1 l 0 + 1) mod 3 then 1 else 0, fun v => if v =? 0 then 0 else if v =? 1 then 4 else 9).
Definition cp_t : list Z -> Z := fun l => match l with [0; 0] => 2 | [1; 1] => 3 | _ => 0 end.
Example C113_case :
  (forall n A, (n < 2)%nat ->
     (forall i j, 0 <= i < nth n [2; 3] 0 -> 0 <= j < nth n [2; 3] 0 -> A [i; j] = slices (O := ZOps) n [2; 3] cp_t i j) ->
     eigenrows (O := ZOps) Z.ltb (nth n [2; 3] 0) A (fst (cp_syev (nth n [2; 3] 0) A)) (snd (cp_syev (nth n [2; 3] 0) A))) /\
  map (fun F => map (fun i => F [i; 0]) (zrange 2)) (init_cp (O := ZOps) cp_syev Z.sqrt (Z.eqb 0) (fun _ _ => 77) [2; 3] cp_t 1) = [[0; 3]; [0; 1]] /\
  map (fun F => map (fun i => map (fun c => F [i; c]) (zrange 3)) (zrange 2)) (init_cp (O := ZOps) cp_syev Z.sqrt (Z.eqb 0) (fun _ _ => 77) [2; 3] cp_t 3) =
    [[[2; 0; 77]; [0; 3; 77]]; [[0; 1; 0]; [0; 0; 1]]].
Proof.
  split; [|split; vm_compute; reflexivity].
  intros n A Hn HA.
  assert (E : n = 0%nat \/ n = 1%nat) by lia. destruct E as [-> | ->]; cbn [nth] in *.
  - assert (A00 := HA 0 0 ltac:(lia) ltac:(lia)). assert (A01 := HA 0 1 ltac:(lia) ltac:(lia)).
    assert (A10 := HA 1 0 ltac:(lia) ltac:(lia)). assert (A11 := HA 1 1 ltac:(lia) ltac:(lia)).
    vm_compute in A00, A01, A10, A11. clear HA.
    unfold eigenrows, cp_syev, zsum. cbn [Z.eqb Pos.eqb fst snd]. split; [|split].
    + intros a b Ha Hb. assert (Ea : a = 0 \/ a = 1) by lia. assert (Eb : b = 0 \/ b = 1) by lia. destruct Ea as [-> | ->], Eb as [-> | ->]; reflexivity.
    + intros a b Ha Hb. assert (Ea : a = 0 \/ a = 1) by lia. assert (Eb : b = 0 \/ b = 1) by lia.
      change (zrange 2) with [0; 1]; unfold lsum; cbn [map fold_right fold_left].
      destruct Ea as [-> | ->], Eb as [-> | ->]; rewrite ?A00, ?A01, ?A10, ?A11; reflexivity.
    + intros v Hv. assert (v = 0) by lia. subst v. reflexivity.
  - assert (B : forall a, 0 <= a < 3 -> a = 0 \/ a = 1 \/ a = 2) by lia.
    assert (HB : forall i j, 0 <= i < 3 -> 0 <= j < 3 -> A [i; j] = if (i =? 0) && (j =? 0) then 4 else if (i =? 1) && (j =? 1) then 9 else 0).
    { intros i j Hi Hj. rewrite HA by auto. destruct (B i Hi) as [-> | [-> | ->]], (B j Hj) as [-> | [-> | ->]]; reflexivity. }
    unfold eigenrows, cp_syev, zsum. cbn [Z.eqb Pos.eqb fst snd]. split; [|split].
    + intros a b Ha Hb. destruct (B a Ha) as [-> | [-> | ->]], (B b Hb) as [-> | [-> | ->]]; reflexivity.
    + intros a b Ha Hb. change (zrange 3) with [0; 1; 2]. unfold lsum. cbn [map fold_right fold_left]. rewrite !HB by lia.
      destruct (B a Ha) as [-> | [-> | ->]], (B b Hb) as [-> | [-> | ->]]; reflexivity.
    + intros v Hv. assert (E : v = 0 \/ v = 1) by lia. destruct E as [-> | ->]; reflexivity.
Qed.
