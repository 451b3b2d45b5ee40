(** * L_GpuOps: lemmas for the element-wise, dot, symm_gemm, sort and reduction kernels. *)
From Coq Require Import List ZArith Lia Bool Permutation.
From Verif Require Import Base Heap Conc GpuConc M_Addr M_Einsum M_Blas M_PyEinsum M_Gpu S_Addr S_Einsum S_PyEinsum S_Gpu.
From Verif Require Import S_Blas L_Addr L_Einsum L_Blas L_Dispatch L_Decomp L_Elt L_PyEinsum L_Gpu.
Import ListNotations.
Open Scope Z_scope.

(** ** Index numbers *)
Lemma cm_inb : forall dims s, nonneg dims -> 0 <= s < zprod dims -> inb (cm_index dims s) dims.
Proof.
  induction dims as [|d r IH]; intros s HN Hs; cbn [cm_index]; [constructor|]. inversion HN as [|? ? Hd Hr]; subst.
  change (zprod (d :: r)) with (d * zprod r) in Hs. assert (0 <= zprod r) by now apply zprod_nonneg.
  assert (0 < d) by nia. constructor; [apply Z.mod_pos_bound; auto|]. apply IH; auto.
  split; [apply Z.div_pos; lia|]. apply Z.div_lt_upper_bound; lia.
Qed.
Lemma cm_inj : forall dims s t, nonneg dims -> 0 <= s < zprod dims -> 0 <= t < zprod dims -> cm_index dims s = cm_index dims t -> s = t.
Proof.
  induction dims as [|d r IH]; intros s t HN Hs Ht E; cbn [cm_index] in E.
  - cbn in Hs, Ht. lia.
  - inversion HN as [|? ? Hd Hr]; subst. change (zprod (d :: r)) with (d * zprod r) in Hs, Ht. assert (0 <= zprod r) by now apply zprod_nonneg.
    assert (0 < d) by nia. injection E as E1 E2. apply IH in E2; auto.
    + rewrite (Z.div_mod s d), (Z.div_mod t d) by lia. congruence.
    + split; [apply Z.div_pos; lia|apply Z.div_lt_upper_bound; lia].
    + split; [apply Z.div_pos; lia|apply Z.div_lt_upper_bound; lia].
Qed.
Lemma cm_perm : forall dims, nonneg dims -> Permutation (map (cm_index dims) (zrange (zprod dims))) (indices dims).
Proof.
  intros dims HN. apply NoDup_Permutation_bis.
  - apply NoDup_map_in; [|apply zrange_NoDup]. intros s t Hs Ht. apply zrange_in in Hs, Ht. apply cm_inj; auto.
  - rewrite map_length, zrange_length. assert (E := indices_length dims HN). lia.
  - intros i Hi. apply in_map_iff in Hi as (s & <- & Hs). apply in_indices, cm_inb; auto. now apply zrange_in.
Qed.
Lemma nonneg_rev : forall dims, nonneg dims -> nonneg (rev dims).
Proof. intros. apply Forall_rev. auto. Qed.
Lemma inb_rev : forall i d, inb i d -> inb (rev i) (rev d).
Proof. intros i d H. induction H; simpl; [constructor|]. apply inb_app; auto. repeat constructor; lia. Qed.
Lemma rm_inb : forall dims s, nonneg dims -> 0 <= s < zprod dims -> inb (rm_index dims s) dims.
Proof.
  intros dims s HN Hs. unfold rm_index. rewrite <- (rev_involutive dims) at 2. apply inb_rev, cm_inb; [now apply nonneg_rev|]. now rewrite zprod_rev.
Qed.
Lemma rm_inj : forall dims s t, nonneg dims -> 0 <= s < zprod dims -> 0 <= t < zprod dims -> rm_index dims s = rm_index dims t -> s = t.
Proof.
  intros dims s t HN Hs Ht E. unfold rm_index in E. apply (f_equal (@rev Z)) in E. rewrite !rev_involutive in E.
  apply (cm_inj (rev dims)); auto; [now apply nonneg_rev|now rewrite zprod_rev|now rewrite zprod_rev].
Qed.
Lemma rm_perm : forall dims, nonneg dims -> Permutation (map (rm_index dims) (zrange (zprod dims))) (indices dims).
Proof.
  intros dims HN. apply NoDup_Permutation_bis.
  - apply NoDup_map_in; [|apply zrange_NoDup]. intros s t Hs Ht. apply zrange_in in Hs, Ht. apply rm_inj; auto.
  - rewrite map_length, zrange_length. assert (E := indices_length dims HN). lia.
  - intros i Hi. apply in_map_iff in Hi as (s & <- & Hs). apply in_indices, rm_inb; auto. now apply zrange_in.
Qed.

Section Each.
  Context {O : Ops}.
  Notation T := (car O).

  (** A kernel of which every iteration writes its own element of [d]. *)
  Lemma each_cells : forall nb nt (ix : Z -> list Z) d (val : list Z -> T) body (h : heap T),
    (0 < nb)%nat -> (0 < nt)%nat -> inj d -> Permutation (map ix (zrange (zprod (ddims d)))) (indices (ddims d)) ->
    (forall s h', 0 <= s < zprod (ddims d) -> inb (ix s) (ddims d) -> (forall z, z = addr d (ix s) \/ ~ cell d z -> h' z = h z) ->
       psafe (eq (addr d (ix s))) (fun z => ~ cell d z) (body s) h' /\
       exists h'', run (body s) h' = Ok (tt, h'') /\ h'' (addr d (ix s)) = Some (val (ix s))) ->
    grid_spec (launch nb nt (each_kernel (zprod (ddims d)) body)) h (only_set d val h).
  Proof.
    intros nb nt ix d val body h Hb Ht HI HP HB. apply each_spec; auto. intros threads HT.
    assert (Hin : forall s, In s (zrange (zprod (ddims d))) -> inb (ix s) (ddims d)).
    { intros s Hs. apply in_indices. eapply Permutation_in; [exact HP|]. now apply in_map. }
    assert (Hcell : forall z, owned (zrange (zprod (ddims d))) (fun s => addr d (ix s)) z <-> cell d z).
    { intros z. split.
      - intros Ho. apply in_map_iff in Ho as (s & <- & Hs). exists (ix s). auto.
      - intros (i & Hi & ->). apply in_indices in Hi. eapply Permutation_in in Hi; [|apply Permutation_sym; exact HP].
        apply in_map_iff in Hi as (s & <- & Hs). apply in_map_iff. eauto. }
    apply (par_cells_Q Z T (zrange (zprod (ddims d))) threads (fun s => addr d (ix s)) (fun s => Some (val (ix s)))); auto.
    - rewrite <- (map_map ix (addr d)). eapply Permutation_NoDup; [apply Permutation_map, Permutation_sym; exact HP|]. now apply addr_NoDup.
    - intros s h' Hs Hf. destruct (HB s h') as (H1 & H2); auto.
      + now apply zrange_in.
      + intros z [Hz|Hz]; apply Hf; auto. right. now rewrite Hcell.
      + split; auto. eapply psafe_mono; [| |exact H1]; auto. intros z Hz. left. cbv beta in *. now rewrite Hcell.
    - intros h' (H1 & H2). split.
      + intros i Hi. apply in_indices in Hi. eapply Permutation_in in Hi; [|apply Permutation_sym; exact HP].
        apply in_map_iff in Hi as (s & <- & Hs). apply (H1 s Hs).
      + intros z Hz. apply H2. rewrite Hcell. intros (i & Hi & ->). apply (Hz i Hi); auto.
  Qed.

  Lemma swapped_pos : forall n, (0 < Z.to_nat (block_size n))%nat /\ (0 < Z.to_nat (blocks n))%nat.
  Proof. intros n. assert (H1 := block_size_pos n). assert (H2 := blocks_pos n). lia. Qed.
End Each.

(** ** Writing the same value more than once *)
Section Const.
  Context {O : Ops}.
  Notation T := (car O).

  (** [p] writes to [W] only values that [val] gives, whatever it reads there. *)
  Inductive cw (W : Z -> Prop) (val : Z -> T) (h : heap T) : aprog T -> list Z -> Prop :=
  | cw_done : cw W val h ADone []
  | cw_rdw : forall a k l, W a -> (forall v, cw W val h (k v) l) -> cw W val h (ARd a k) l
  | cw_rd : forall a k v l, ~ W a -> h a = Some v -> cw W val h (k v) l -> cw W val h (ARd a k) l
  | cw_wr : forall a k l, W a -> cw W val h k l -> cw W val h (AWr a (val a) k) (a :: l).

  Lemma cw_seq : forall (W : Z -> Prop) (val : Z -> T) (h : heap T) p q l m, cw W val h p l -> cw W val h q m -> cw W val h (aseq p q) (l ++ m).
  Proof. intros W val h p q l m H Hq. induction H; cbn [aseq app]; try (econstructor; eauto; fail); auto. Qed.

  Lemma cw_pool : forall (W : Z -> Prop) (val : Z -> T) (h : heap T) ps ls, (forall a, W a -> h a <> None) -> Forall2 (cw W val h) ps ls ->
    apool_spec ps h (fun h' => (forall a, In a (concat ls) -> h' a = Some (val a)) /\ (forall a, ~ In a (concat ls) -> h' a = h a)).
  Proof.
    intros W val h ps ls HW HF.
    apply apool_inv with (I := fun qs g => exists ls', Forall2 (cw W val h) qs ls' /\
       (forall a, ~ W a -> g a = h a) /\ (forall a, W a -> g a <> None) /\
       (forall a, In a (concat ls) -> In a (concat ls') \/ g a = Some (val a)) /\
       (forall a, In a (concat ls') -> In a (concat ls)) /\
       (forall a, ~ In a (concat ls) -> g a = h a)).
    - exists ls. split; [auto|]. split; [auto|]. split; [auto|]. split; [auto|]. split; auto.
    - intros qs g (ls' & H1 & H2 & H3 & _) Hft. apply Exists_exists in Hft as (q & Hq & Hf).
      assert (Hl : exists l, cw W val h q l).
      { clear - H1 Hq. induction H1; [contradiction|]. destruct Hq as [<-|Hq]; eauto. }
      destruct Hl as (l & Hl). destruct Hl; simpl in Hf; auto.
      + apply (H3 a); auto.
      + rewrite H2 in Hf; congruence.
      + apply (H3 a); auto.
    - intros l p r g p' g' (ls' & H1 & H2 & H3 & H4 & H5 & H6) Hst.
      apply Forall2_app_inv_l in H1 as (l1 & m1 & HL & HM & ->). inversion HM as [|? lp ? r1 Hp Hr]; subst.
      inversion Hst as [a k g0 v E|a v k g0 w E|a v k g0 w E]; subst; inversion Hp as [|? ? ? Wa Hk|? ? v0 ? Wa Ev Hk|? ? lp' Wa Hk]; subst.
      + exists (l1 ++ lp :: r1). split; [apply Forall2_app; auto|]. auto.
      + assert (v0 = v) by (rewrite H2 in E by auto; congruence). subst.
        exists (l1 ++ lp :: r1). split; [apply Forall2_app; auto|]. auto.
      + exists (l1 ++ lp' :: r1). rewrite concat_app in *. cbn [concat app] in *.
        split; [apply Forall2_app; auto|].
        assert (Ha : In a (concat ls)) by (apply H5, in_app_iff; right; simpl; auto).
        split; [intros b Hb; unfold upd; destruct (Z.eqb_spec b a); [subst; contradiction|auto]|].
        split; [intros b Hb; unfold upd; destruct (Z.eqb_spec b a); [discriminate|auto]|].
        split; [|split].
        * intros b Hb. unfold upd. destruct (Z.eqb_spec b a) as [->|Hn]; auto. destruct (H4 b Hb) as [Hi|Hi]; auto. left.
          rewrite in_app_iff in Hi |- *. destruct Hi as [Hi|Hi]; auto. destruct Hi as [Hi|Hi]; [congruence|]. auto.
        * intros b Hb. apply H5. rewrite in_app_iff in Hb |- *. simpl. tauto.
        * intros b Hb. unfold upd. destruct (Z.eqb_spec b a) as [->|Hn]; auto. contradiction.
    - intros qs g (ls' & H1 & H2 & H3 & H4 & H5 & H6) Hdn. split; auto. intros a Ha. destruct (H4 a Ha) as [Hi|]; auto. exfalso.
      assert (E : concat ls' = []); [|rewrite E in Hi; auto]. clear - H1 Hdn. induction H1 as [|q l qs ls Hq H IH]; auto.
      inversion Hdn as [|? ? E1 E2]; subst. cbn [concat]. rewrite IH by auto. inversion Hq; auto.
  Qed.
End Const.

(** ** Dot products *)
Section Dot.
  Context {O : Ops} (HR : is_ring O).
  Notation T := (car O).
  Add Ring ORD : (ir_rt O HR).

  Lemma suffix_choice : forall (c : Z) (sh : nat -> T) ws ls', NoDup ws -> Forall2 suffix ls' (map (fun w => [(c, sh w)]) ws) ->
    exists P : nat -> bool, ls' = map (fun w => if P w then [(c, sh w)] else []) ws.
  Proof.
    intros c sh ws. induction ws as [|w ws IH]; intros ls' HN H; cbn [map] in H; inversion H as [|l' ? r' ? Hs Hr]; subst.
    - exists (fun _ => true). reflexivity.
    - inversion HN as [|? ? N1 N2]; subst. destruct (IH r' N2 Hr) as (P & ->).
      assert (C : exists b : bool, l' = if b then [(c, sh w)] else []).
      { inversion Hs as [l m E1 E2]; subst. destruct l as [|x l]; cbn in E2; [exists true; auto|].
        injection E2 as _ E2. apply app_eq_nil in E2 as (_ & ->). exists false. auto. }
      destruct C as (b & ->). exists (fun v => if Nat.eqb v w then b else P v). cbn [map]. rewrite Nat.eqb_refl. f_equal.
      apply map_ext_in. intros v Hv. destruct (Nat.eqb_spec v w); [subst; contradiction|auto].
  Qed.

  Lemma choice_total : forall (c : Z) (sh : nat -> T) (P : nat -> bool) ws,
    total c (concat (map (fun w => if P w then [(c, sh w)] else []) ws)) = lsum ws (fun w => if P w then sh w else o0).
  Proof.
    intros c sh P ws. induction ws as [|w ws IH]; [reflexivity|]. cbn [map concat]. rewrite (total_app HR), IH.
    unfold lsum at 2. cbn [fold_right]. fold (lsum ws (fun w => if P w then sh w else o0)). f_equal.
    destruct (P w); unfold total, lsum; cbn [fold_right fst snd]; [rewrite Z.eqb_refl; ring|reflexivity].
  Qed.
  Lemma choice_other : forall (c z : Z) (sh : nat -> T) (P : nat -> bool) ws, z <> c ->
    total z (concat (map (fun w => if P w then [(c, sh w)] else []) ws)) = o0.
  Proof.
    intros c z sh P ws Hz. induction ws as [|w ws IH]; [reflexivity|]. cbn [map concat]. rewrite (total_app HR), IH.
    destruct (P w); unfold total, lsum; cbn [fold_right fst snd]; [|ring]. destruct (Z.eqb_spec c z); [congruence|]. ring.
  Qed.

  Lemma shares_sum : forall k n (f : Z -> T) (P : nat -> bool), (0 < k)%nat ->
    lsum (seq 0 k) (fun w => if P w then lsum (strided k n w) f else o0)
    = lsum (filter (fun s => P (Z.to_nat (s mod Z.of_nat k))) (zrange n)) f.
  Proof.
    intros k n f P Hk.
    assert (E : lsum (filter (fun s => P (Z.to_nat (s mod Z.of_nat k))) (zrange n)) f
              = lsum (zrange n) (fun s => if P (Z.to_nat (s mod Z.of_nat k)) then f s else o0)).
    { induction (zrange n) as [|s l IH]; [reflexivity|]. cbn [filter]. unfold lsum at 2. cbn [fold_right].
      fold (lsum l (fun s => if P (Z.to_nat (s mod Z.of_nat k)) then f s else o0)). rewrite <- IH.
      destruct (P (Z.to_nat (s mod Z.of_nat k))); [reflexivity|]. ring. }
    rewrite E, <- (lsum_perm O HR _ _ _ _ (strided_perm k n Hk)). clear E.
    induction (seq 0 k) as [|w ws IH]; [reflexivity|]. cbn [map concat]. rewrite (lsum_app O HR), <- IH.
    unfold lsum at 1. cbn [fold_right]. fold (lsum ws (fun w => if P w then lsum (strided k n w) f else o0)). f_equal.
    transitivity (lsum (strided k n w) (fun s => if P w then f s else o0)).
    - destruct (P w); [reflexivity|]. symmetry. apply (lsum_0 O HR).
    - apply lsum_ext. intros s Hs. apply filter_In in Hs as (_ & Hs). apply Z.eqb_eq in Hs. rewrite Hs, Nat2Z.id. reflexivity.
  Qed.

  (** Worker 0 clears the result while the others add to it. *)
  Lemma dot_grid : forall nb nt c n (zA zB : Z -> Z) (fa fb : Z -> T) (h : heap T), (0 < nb)%nat -> (0 < nt)%nat -> h c <> None ->
    (forall s, 0 <= s < n -> zA s <> c /\ h (zA s) = Some (fa s) /\ zB s <> c /\ h (zB s) = Some (fb s)) ->
    grid_spec (launch nb nt (dot_kernel c n zA zB)) h (fun h' =>
      (exists counted : nat -> bool, counted 0%nat = true /\
         h' c = Some (lsum (filter (fun s => counted (Z.to_nat (s mod Z.of_nat (nb * nt)))) (zrange n)) (fun s => omul (fa s) (fb s)))) /\
      (forall z, z <> c -> h' z = h z)).
  Proof.
    intros nb nt c n zA zB fa fb h Hb Ht Hc Hrd. apply grid_of_pool; [apply (launch_ok _ _ _ 0); auto|]. rewrite launch_flat.
    set (k := (nb * nt)%nat). assert (Hk : (0 < k)%nat) by (unfold k; nia).
    set (sh := fun w => lsum (strided k n w) (fun s => omul (fa s) (fb s))).
    set (rest := fun w => alift (dot_share (O := O) k n w zA zB) (fun v => AAdd c v ADone)).
    assert (AD : forall w, adding (fun z => z <> c) h (rest w) [(c, sh w)]).
    { intros w. unfold rest, dot_share. apply (share_adding HR) with (fa := fa) (fb := fb).
      - intros s Hs. apply filter_In in Hs as (Hs & _). apply zrange_in in Hs. destruct (Hrd s Hs) as (? & ? & ? & ?). auto.
      - replace (oadd o0 (lsum (strided k n w) (fun s => omul (fa s) (fb s)))) with (sh w) by (unfold sh; ring).
        apply ad_add; [intros H; apply H; reflexivity|auto|constructor]. }
    assert (E : map (fun w => join (dot_kernel c n zA zB k w)) (seq 0 k) = AWr c o0 (rest 0%nat) :: map rest (seq 1 (k - 1))).
    { destruct k as [|k']; [lia|]. replace (S k' - 1)%nat with k' by lia. cbn [seq map]. f_equal. apply map_ext_in. intros w Hw.
      apply in_seq in Hw. unfold dot_kernel. destruct (Nat.eqb_spec w 0); [lia|]. reflexivity. }
    rewrite E. eapply apool_weaken; [|apply (clear_pool HR (fun z => z <> c) h c o0 (rest 0%nat) [(c, sh 0%nat)] (map rest (seq 1 (k - 1)))
       (map (fun w => [(c, sh w)]) (seq 1 (k - 1)))); auto].
    - intros h' (ls' & HS & HA). apply suffix_choice in HS as (P & ->); [|apply seq_NoDup].
      assert (G : forall z, total z ([(c, sh 0%nat)] ++ concat (map (fun w => if P w then [(c, sh w)] else []) (seq 1 (k - 1))))
         = total z (concat (map (fun w => if (Nat.eqb w 0 || P w)%bool then [(c, sh w)] else []) (seq 0 k)))).
      { intros z. f_equal. destruct k as [|k']; [lia|]. replace (S k' - 1)%nat with k' by lia. cbn [seq map concat Nat.eqb orb app]. f_equal.
        f_equal. apply map_ext_in. intros w Hw. apply in_seq in Hw. destruct (Nat.eqb_spec w 0); [lia|]. reflexivity. }
      split.
      + exists (fun w => Nat.eqb w 0 || P w)%bool. split; [reflexivity|]. specialize (HA c). rewrite upd_same in HA. rewrite HA, G. f_equal.
        rewrite choice_total. unfold sh. rewrite shares_sum by auto. ring.
      + intros z Hz. specialize (HA z). rewrite upd_other in HA by auto. destruct (h z) as [v|]; [|auto]. rewrite HA, G, choice_other by auto. f_equal. ring.
    - clear E. induction (seq 1 (k - 1)) as [|w ws IH]; cbn [map]; constructor; auto.
    - apply Forall_map, Forall_forall. intros w _. repeat constructor.
  Qed.

  (** The same with a barrier after the clearing, all workers in one block. *)
  Lemma pydot_block : forall nt c n (zA zB : Z -> Z) (fa fb : Z -> T) (h : heap T), (0 < nt)%nat -> h c <> None ->
    (forall s, 0 <= s < n -> zA s <> c /\ h (zA s) = Some (fa s) /\ zB s <> c /\ h (zB s) = Some (fb s)) ->
    grid_spec (launch 1 nt (pydot_kernel c n zA zB)) h (fun h' =>
      h' c = Some (lsum (zrange n) (fun s => omul (fa s) (fb s))) /\ (forall z, z <> c -> h' z = h z)).
  Proof.
    intros nt c n zA zB fa fb h Hnt Hc Hrd.
    rewrite (launch_one nt _ [fun w => if Nat.eqb w 0 then AWr c o0 ADone else ADone;
                              fun w => alift (dot_share (O := O) nt n w zA zB) (fun v => AAdd c v ADone)]) by reflexivity.
    apply one_block_spec; [destruct nt; [lia|discriminate]|discriminate|]. cbn [phases_spec].
    set (sh := fun w => lsum (strided nt n w) (fun s => omul (fa s) (fb s))).
    eapply apool_weaken; [|apply (cw_pool (fun z => z = c) (fun _ => o0) h _ (map (fun w => if Nat.eqb w 0 then [c] else []) (seq 0 nt)))].
    - intros h1 (V1 & F1). 
      assert (Ec : h1 c = Some o0). { apply V1. destruct nt as [|m]; [lia|]. cbn. auto. }
      assert (Eo : forall z, z <> c -> h1 z = h z).
      { intros z Hz. apply F1. intros Hi. apply in_concat in Hi as (l & Hl & Hi). apply in_map_iff in Hl as (w & <- & _).
        destruct (Nat.eqb w 0); [destruct Hi as [Hi|[]]; congruence|contradiction]. }
      eapply apool_weaken; [|apply (add_pool HR (fun z => z <> c) h1 _ (map (fun w => [(c, sh w)]) (seq 0 nt)))].
      + intros h' HA.
        assert (G1 := choice_total c sh (fun _ => true) (seq 0 nt)). assert (G2 := fun z => choice_other c z sh (fun _ => true) (seq 0 nt)).
        cbv beta iota in G1, G2. split.
        * specialize (HA c). rewrite Ec, G1 in HA. rewrite HA. f_equal. unfold sh.
          assert (G3 := shares_sum nt n (fun s => omul (fa s) (fb s)) (fun _ => true) Hnt). cbv beta iota in G3. rewrite G3.
          replace (filter (fun _ => true) (zrange n)) with (zrange n); [ring|]. clear. induction (zrange n); simpl; congruence.
        * intros z Hz. specialize (HA z). rewrite Eo in HA by auto. destruct (h z) as [v|]; [|auto].
          rewrite HA, G2 by auto. f_equal. ring.
      + clear V1 F1. induction (seq 0 nt) as [|w ws IH]; cbn [map]; constructor; auto. unfold dot_share. apply (share_adding HR) with (fa := fa) (fb := fb).
        * intros s Hs. apply filter_In in Hs as (Hs & _). apply zrange_in in Hs. destruct (Hrd s Hs) as (? & ? & ? & ?). rewrite !Eo by auto. auto.
        * replace (oadd o0 (lsum (strided nt n w) (fun s => omul (fa s) (fb s)))) with (sh w) by (unfold sh; ring).
          apply ad_add; [intros H; apply H; reflexivity|rewrite Ec; discriminate|constructor].
    - intros z ->. auto.
    - induction (seq 0 nt) as [|w ws IH]; cbn [map]; constructor; auto. destruct (Nat.eqb w 0); [|constructor].
      apply (cw_wr (fun z => z = c) (fun _ => o0) h c ADone []); [reflexivity|constructor].
  Qed.
End Dot.

(** ** symm_gemm *)
Lemma fill_run : forall (O : Ops) (l : list Z) (h : heap (car O)), (forall z, In z l -> h z <> None) ->
  exists h', run (pseq l (fun z => PWr z o0 (PRet tt))) h = Ok (tt, h') /\
    (forall z, In z l -> h' z = Some o0) /\ (forall z, ~ In z l -> h' z = h z).
Proof.
  intros O. induction l as [|x l IH]; intros h Hl.
  - exists h. split; [reflexivity|]. split; [intros z []|auto].
  - cbn [pseq pbind run]. destruct (h x) as [v|] eqn:E; [|exfalso; apply (Hl x); simpl; auto].
    destruct (IH (upd h x o0)) as (h' & E' & V & F).
    { intros z Hz. unfold upd. destruct (Z.eqb_spec z x); [discriminate|apply Hl; simpl; auto]. }
    exists h'. split; auto. split.
    + intros z Hz. destruct (in_dec Z.eq_dec z l) as [Hi|Hn]; auto. destruct Hz as [<-|Hz]; [|contradiction].
      rewrite F by auto. apply upd_same.
    + intros z Hz. rewrite F by (intros H; apply Hz; simpl; auto). apply upd_other. intros ->. apply Hz. simpl. auto.
Qed.

Section Symm.
  Context {O : Ops} (HR : is_ring O).
  Notation T := (car O).
  Add Ring ORS : (ir_rt O HR).

  Lemma digits4 : forall n m s, 0 <= n -> 0 <= m -> 0 <= s < m * m * n * n ->
    cm_index [n; n; m; m] s = [s mod n; (s / n) mod n; (s / n / n) mod m; s / n / n / m].
  Proof.
    intros n m s Hn Hm Hs. assert (0 < n) by nia. assert (0 < m) by nia. cbn [cm_index]. do 3 f_equal. f_equal.
    apply Z.mod_small. split; [repeat apply Z.div_pos; lia|].
    repeat (apply Z.div_lt_upper_bound; [lia|]). lia.
  Qed.

  Lemma symm_grid : forall nb nt (ta tb : bool) (m n A lda B ldb C ldc : Z) (fa fb : Z -> Z -> T) (h : heap T), (0 < nb)%nat -> (0 < nt)%nat ->
    0 <= m -> 0 <= n ->
    let R := fun z : Z => forall x y, 0 <= x < n -> 0 <= y < n -> z <> C + (x * ldc + y) in
    let zA := fun i j => if ta then A + (j * lda + i) else A + (i * lda + j) in
    let zB := fun i x => if tb then B + (x * ldb + i) else B + (i * ldb + x) in
    (forall i j, 0 <= i < m -> 0 <= j < m -> R (zA i j) /\ h (zA i j) = Some (fa i j)) ->
    (forall i x, 0 <= i < m -> 0 <= x < n -> R (zB i x) /\ h (zB i x) = Some (fb i x)) ->
    (forall x y, 0 <= x < n -> 0 <= y < n -> h (C + (x * ldc + y)) = Some o0) ->
    (forall x y x' y', 0 <= x < n -> 0 <= y < n -> 0 <= x' < n -> 0 <= y' < n -> x * ldc + y = x' * ldc + y' -> x = x' /\ y = y') ->
    grid_spec (launch nb nt (symm_kernel ta tb m n A lda B ldb C ldc)) h (fun h' =>
      (forall x y, 0 <= x < n -> 0 <= y < n ->
         h' (C + (x * ldc + y)) = Some (zsum m (fun i => zsum m (fun j => omul (fa i j) (omul (fb i x) (fb j y)))))) /\
      (forall z, R z -> h' z = h z)).
  Proof.
    intros nb nt ta tb m n A lda B ldb C ldc fa fb h Hb Ht Hm Hn R zA zB HA HB HC HI.
    set (N := m * m * n * n).
    set (g := fun s => let a := s mod n in let b := (s / n) mod n in let i := (s / n / n) mod m in let j := s / n / n / m in
       [(C + (a * ldc + b), omul (fa i j) (omul (fb i a) (fb j b)))]).
    assert (dig : forall s, 0 <= s < N -> 0 <= s mod n < n /\ 0 <= (s / n) mod n < n /\ 0 <= (s / n / n) mod m < m /\ 0 <= s / n / n / m < m).
    { intros s Hs. assert (H := cm_inb [n; n; m; m] s). rewrite (digits4 n m s Hn Hm Hs) in H.
      assert (HX : inb [s mod n; (s / n) mod n; (s / n / n) mod m; s / n / n / m] [n; n; m; m]).
      { apply H; [repeat constructor; lia|]. unfold zprod; cbn [fold_right]. unfold N in Hs. nia. }
      clear H. rewrite !inb_cons in HX. tauto. }
    apply grid_of_pool; [apply (launch_ok _ _ _ 0); auto|]. rewrite launch_flat. set (k := (nb * nt)%nat). assert (Hk : (0 < k)%nat) by (unfold k; nia).
    eapply apool_weaken; [|apply (add_pool HR R h _ (map (fun w => flat_map g (strided k N w)) (seq 0 k)))].
    - intros h' HAd.
      assert (TT : forall z, total z (concat (map (fun w => flat_map g (strided k N w)) (seq 0 k))) = lsum (zrange N) (fun s => total z (g s))).
      { intros z. rewrite <- (lsum_perm O HR _ _ _ _ (strided_perm k N Hk)). clear HAd.
        induction (seq 0 k) as [|w ws IH]; cbn [map concat]; [reflexivity|].
        rewrite (total_app HR), IH, (lsum_app O HR). f_equal. unfold total. apply (lsum_flat_map O HR). }
      split.
      + intros x y Hx Hy. specialize (HAd (C + (x * ldc + y))). rewrite HC in HAd by auto. rewrite HAd, TT. f_equal.
        set (F := fun ix : list Z => match ix with [a; b; i; j] => if (a =? x) && (b =? y) then omul (fa i j) (omul (fb i a) (fb j b)) else o0 | _ => o0 end).
        transitivity (lsum (indices [n; n; m; m]) F).
        * assert (EN : N = zprod [n; n; m; m]) by (unfold N, zprod; cbn [fold_right]; nia).
          rewrite <- (lsum_perm O HR _ _ _ _ (cm_perm [n; n; m; m] ltac:(repeat constructor; lia))), lsum_map, <- EN.
          transitivity (lsum (zrange N) (fun s => total (C + (x * ldc + y)) (g s))); [ring|].
          apply lsum_ext. intros s Hs. apply zrange_in in Hs. rewrite digits4 by auto. destruct (dig s Hs) as (D1 & D2 & D3 & D4).
          unfold g, F, total, lsum. cbn [fold_right fst snd].
          destruct (Z.eqb_spec (C + (s mod n * ldc + (s / n) mod n)) (C + (x * ldc + y))) as [E|E].
          -- destruct (HI (s mod n) ((s / n) mod n) x y) as (-> & ->); auto; [lia|]. rewrite !Z.eqb_refl. cbn. ring.
          -- destruct (Z.eqb_spec (s mod n) x) as [E1|]; [|cbn; ring]. destruct (Z.eqb_spec ((s / n) mod n) y) as [E2|]; [|cbn; ring].
             exfalso. apply E. congruence.
        * rewrite (lsum_indices_cons O HR). unfold zsum at 1.
          rewrite (lsum_single O HR _ _ x); [|apply zrange_NoDup|now apply zrange_in|].
          2:{ intros a _ Ha. transitivity (lsum (indices [n; m; m]) (fun _ => @o0 O)); [|apply (lsum_0 O HR)]. apply lsum_ext.
              intros ix _. unfold F. destruct ix as [|b [|i [|j [|]]]]; auto. destruct (Z.eqb_spec a x); [contradiction|]. reflexivity. }
          rewrite (lsum_indices_cons O HR). unfold zsum at 1.
          rewrite (lsum_single O HR _ _ y); [|apply zrange_NoDup|now apply zrange_in|].
          2:{ intros b _ Hb'. transitivity (lsum (indices [m; m]) (fun _ => @o0 O)); [|apply (lsum_0 O HR)]. apply lsum_ext.
              intros ix _. unfold F. destruct ix as [|i [|j [|]]]; auto. destruct (Z.eqb_spec b y); [contradiction|]. now rewrite andb_false_r. }
          rewrite (lsum_indices_cons O HR). apply zsum_ext. intros i Hi. rewrite (lsum_indices_cons O HR). apply zsum_ext. intros j Hj.
          unfold F, lsum. cbn [indices fold_right]. rewrite !Z.eqb_refl. cbn [andb]. ring.
      + intros z Hz. specialize (HAd z). destruct (h z) as [v|]; [|auto]. rewrite HAd, TT. f_equal.
        transitivity (oadd v (lsum (zrange N) (fun _ => @o0 O))); [|rewrite (lsum_0 O HR); ring]. f_equal. apply lsum_ext. intros s Hs. apply zrange_in in Hs.
        destruct (dig s Hs) as (D1 & D2 & D3 & D4). unfold g, total, lsum. cbn [fold_right fst snd].
        destruct (Z.eqb_spec (C + (s mod n * ldc + (s / n) mod n)) z) as [E|]; [|ring]. exfalso. apply (Hz (s mod n) ((s / n) mod n)); auto.
    - induction (seq 0 k) as [|w ws IH]; cbn [map]; constructor; auto. unfold symm_kernel. cbn [join]. fold N. apply adding_loop. intros s Hs.
      apply filter_In in Hs as (Hs & _). apply zrange_in in Hs. destruct (dig s Hs) as (D1 & D2 & D3 & D4). unfold symm_body, g.
      eapply ad_rd; [apply (HA ((s / n / n) mod m) (s / n / n / m)); auto|apply (HA ((s / n / n) mod m) (s / n / n / m)); auto|].
      eapply ad_rd; [apply (HB ((s / n / n) mod m) (s mod n)); auto|apply (HB ((s / n / n) mod m) (s mod n)); auto|].
      eapply ad_rd; [apply (HB (s / n / n / m) ((s / n) mod n)); auto|apply (HB (s / n / n / m) ((s / n) mod n)); auto|].
      apply ad_add; [|rewrite HC by auto; discriminate|constructor]. intros HRz. apply (HRz (s mod n) ((s / n) mod n)); auto.
  Qed.
End Symm.
