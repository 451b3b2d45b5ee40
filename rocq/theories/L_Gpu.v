(** * L_Gpu: pools of atomic additions, launches, and the einsum kernels. *)
From Coq Require Import List ZArith Lia Bool Permutation.
From Verif Require Import Base Heap Conc GpuConc M_Addr M_Einsum M_Blas M_PyEinsum M_Gpu S_Addr S_Einsum S_PyEinsum.
From Verif Require Import S_Blas L_Addr L_Einsum L_Blas L_Dispatch L_Decomp L_Elt L_PyEinsum.
Import ListNotations.
Open Scope Z_scope.

(** ** Launches *)
Section Launch.
  Context {O : Ops}.
  Notation T := (car O).

  Lemma ids_seq : forall nb nt, concat (map (fun b => map (fun t => (b * nt + t)%nat) (seq 0 nt)) (seq 0 nb)) = seq 0 (nb * nt).
  Proof.
    induction nb as [|nb IH]; intros nt; auto. rewrite seq_S, map_app, concat_app, IH. cbn [map concat]. rewrite app_nil_r, Nat.add_0_l.
    replace (S nb * nt)%nat with (nb * nt + nt)%nat by lia. rewrite seq_app. f_equal. rewrite Nat.add_0_l.
    rewrite <- (map_id (seq (nb * nt) nt)). clear. generalize (nb * nt)%nat as m.
    assert (G : forall n s m, map (fun t => (m + t)%nat) (seq s n) = map (fun x => x) (seq (m + s) n)).
    { induction n as [|n IH]; intros s m; simpl; auto. f_equal. rewrite IH. f_equal. f_equal. lia. }
    intros m. rewrite (G nt 0%nat m). now rewrite Nat.add_0_r.
  Qed.

  Lemma launch_flat : forall nb nt (kern : nat -> nat -> @gthread O),
    flat (launch nb nt kern) = map (fun w => join (O := O) (kern (nb * nt)%nat w)) (seq 0 (nb * nt)).
  Proof.
    intros nb nt kern. unfold flat, launch. rewrite map_map. rewrite <- ids_seq, concat_map, map_map. f_equal.
    apply map_ext. intros b. rewrite !map_map. reflexivity.
  Qed.

  Lemma launch_ok : forall nb nt kern n, (forall k w, length (kern k w : @gthread O) = S n) -> grid_ok (launch nb nt kern).
  Proof.
    intros nb nt kern n H. unfold launch, grid_ok. apply Forall_map, Forall_forall. intros b _. exists n.
    apply Forall_map, Forall_forall. auto.
  Qed.

  Lemma launch_one : forall nt (kern : nat -> nat -> @gthread O) (phases : list (nat -> aprog T)), (forall w, kern nt w = map (fun f => f w) phases) ->
    launch 1 nt kern = one_block (seq 0 nt) phases.
  Proof.
    intros nt kern phases H. unfold launch, one_block. cbn [seq map]. f_equal. rewrite Nat.mul_1_l. apply map_ext. intros w.
    rewrite Nat.mul_0_l, Nat.add_0_l. auto.
  Qed.

  Lemma block_size_pos : forall n, 32 <= block_size n.
  Proof.
    intros n. unfold block_size. destruct (Z.ltb_spec n 32); [lia|]. destruct (Z.ltb_spec n 256); [|lia].
    assert (E : 0 <= n - 32 < 224) by lia.
    replace n with (Z.of_nat (Z.to_nat (n - 32)) + 32) by lia.
    assert (L : (Z.to_nat (n - 32) < 224)%nat) by lia. revert L. generalize (Z.to_nat (n - 32)). intros m L.
    do 224 (destruct m as [|m]; [vm_compute; discriminate|]). lia.
  Qed.
  Lemma blocks_pos : forall n, 1 <= blocks n.
  Proof.
    intros n. unfold blocks. destruct (Z.ltb_spec n 256); [lia|]. destruct (Z.leb_spec n 4096); [|lia].
    apply Z.div_le_lower_bound; lia.
  Qed.

  (** A kernel whose workers share the numbers below [n]. *)
  Lemma each_spec : forall nb nt n (body : Z -> prog T unit) h Q, (0 < nb)%nat -> (0 < nt)%nat ->
    (forall threads, Permutation (concat threads) (zrange n) -> par_spec (omp_for body threads) h Q) ->
    grid_spec (launch nb nt (each_kernel n body)) h Q.
  Proof.
    intros nb nt n body h Q Hb Ht H. apply grid_of_pool; [apply (launch_ok _ _ _ 0); auto|].
    rewrite launch_flat. unfold each_kernel.
    assert (E : map (fun w => join [lift1 (pseq (strided (nb * nt) n w) body)]) (seq 0 (nb * nt))
              = map lift1 (omp_for body (map (strided (nb * nt) n) (seq 0 (nb * nt))))).
    { unfold omp_for. rewrite !map_map. reflexivity. }
    rewrite E. apply lift_pool, H. apply strided_perm. nia.
  Qed.
End Launch.

(** ** Pools of atomic additions *)
Section Adds.
  Context {O : Ops} (HR : is_ring O).
  Notation T := (car O).
  Add Ring ORA : (ir_rt O HR).

  (** [adding R h p l]: [p] reads only cells in [R], with the contents of [h],
      and performs the atomic additions [l] to allocated cells outside [R]. *)
  Inductive adding (R : Z -> Prop) (h : heap T) : aprog T -> list (Z * T) -> Prop :=
  | ad_done : adding R h ADone []
  | ad_rd : forall a k v l, R a -> h a = Some v -> adding R h (k v) l -> adding R h (ARd a k) l
  | ad_add : forall a v k l, ~ R a -> h a <> None -> adding R h k l -> adding R h (AAdd a v k) ((a, v) :: l).

  Definition total (a : Z) (l : list (Z * T)) : T := lsum l (fun q => if fst q =? a then snd q else o0).

  Lemma total_app : forall a l m, total a (l ++ m) = oadd (total a l) (total a m).
  Proof. intros. unfold total. apply (lsum_app O HR). Qed.

  (** What the pool leaves behind. *)
  Definition added (h : heap T) (l : list (Z * T)) (h' : heap T) : Prop :=
    forall a, match h a with None => h' a = None | Some v => h' a = Some (oadd v (total a l)) end.

  Lemma adding_same : forall (R : Z -> Prop) (h g : heap T) p l, (forall a, R a -> g a = h a) -> (forall a, h a <> None -> g a <> None) ->
    adding R h p l -> adding R g p l.
  Proof. intros R h g p l H1 H2 H. induction H; econstructor; eauto. now rewrite H1. Qed.

  Lemma adding_seq : forall (R : Z -> Prop) (h : heap T) p l q m, adding R h p l -> adding R h q m -> adding R h (aseq p q) (l ++ m).
  Proof. intros R h p l q m H Hq. induction H; simpl; auto; econstructor; eauto. Qed.
  Lemma adding_loop : forall X (R : Z -> Prop) (h : heap T) (xs : list X) f g, (forall x, In x xs -> adding R h (f x) (g x)) ->
    adding R h (aloop xs f) (flat_map g xs).
  Proof.
    intros X R h xs f g. induction xs as [|x xs IH]; intros H; simpl; [constructor|].
    apply adding_seq; [apply H; simpl; auto|apply IH; intros; apply H; simpl; auto].
  Qed.

  Definition add_inv (R : Z -> Prop) (h0 : heap T) (ls0 : list (list (Z * T))) (ps : list (aprog T)) (h : heap T) : Prop :=
    exists ls, Forall2 (adding R h0) ps ls /\ (forall a, R a -> h a = h0 a) /\
      (forall a, h0 a <> None -> h a <> None) /\
      (forall a, match h0 a with None => h a = None
                 | Some v => exists w, h a = Some w /\ oadd w (total a (concat ls)) = oadd v (total a (concat ls0)) end).

  Lemma add_inv_step : forall (R : Z -> Prop) (h1 : heap T) ls0 l p r (g : heap T) p' g',
    add_inv R h1 ls0 (l ++ p :: r) g -> astep (p, g) (p', g') -> add_inv R h1 ls0 (l ++ p' :: r) g'.
  Proof.
    intros R h1 ls0 l p r g p' g' (ls2 & A1 & A2 & A3 & A4) Hst.
    apply Forall2_app_inv_l in A1 as (l1 & l2 & B1 & B2 & ->). inversion B2 as [|? lp ? l3 Hp B3]; subst.
    inversion Hst as [a k h2 v Hv E1 E2|a v k h2 w Hw E1 E2|a v k h2 w Hw E1 E2]; subst;
      inversion Hp as [|a' k' v' lq Ra Ea Ak|a' v' k' lq Ra Ea Ak]; subst.
    - exists (l1 ++ lp :: l3). split; [|repeat split; auto].
      apply Forall2_app; auto. constructor; auto. rewrite A2 in Hv by auto. congruence.
    - exists (l1 ++ lq :: l3). split; [|split; [|split]].
      + apply Forall2_app; auto.
      + intros b Hb. rewrite upd_other; [auto|]. intros ->. contradiction.
      + intros b Hb. unfold upd. destruct (b =? a); [discriminate|auto].
      + intros b. specialize (A4 b). rewrite (concat_app l1) in A4 |- *. cbn [concat] in A4 |- *.
        rewrite !total_app in A4 |- *.
        replace (total b ((a, v) :: lq)) with (oadd (if a =? b then v else o0) (total b lq)) in A4 by reflexivity.
        destruct (h1 b) as [x|] eqn:Eb.
        * destruct A4 as (y & Ey & A4). unfold upd. rewrite (Z.eqb_sym b a). destruct (Z.eqb_spec a b) as [->|Hn].
          -- assert (y = w) by congruence. subst y. eexists. split; [reflexivity|]. rewrite <- A4. ring.
          -- eexists. split; [exact Ey|]. rewrite <- A4. ring.
        * unfold upd. destruct (Z.eqb_spec b a) as [->|Hn]; auto. congruence.
  Qed.

  Lemma add_pool : forall (R : Z -> Prop) (h : heap T) ps ls, Forall2 (adding R h) ps ls -> apool_spec ps h (added h (concat ls)).
  Proof.
    intros R h ps ls H. apply apool_inv with (I := add_inv R h ls).
    - exists ls. repeat split; auto. intros a. destruct (h a); eauto.
    - intros qs g (ls' & H2 & HRr & HN & _) HF. apply Exists_exists in HF as (q & Hq & Hf).
      assert (Hl : exists l, adding R h q l).
      { clear - H2 Hq. induction H2; [contradiction|]. destruct Hq as [->|Hq]; eauto. }
      destruct Hl as (l & Hl). inversion Hl; subst; simpl in Hf; [contradiction| |].
      + rewrite HRr in Hf by auto. congruence.
      + apply HN in Hf; auto.
    - intros l p r g p' g'. apply add_inv_step.
    - intros qs g (ls' & H2 & HRr & HN & HV) HD a. specialize (HV a).
      assert (E : concat ls' = []).
      { clear - H2 HD. induction H2; auto. inversion HD; subst. inversion H; subst. simpl. auto. }
      rewrite E in HV. destruct (h a) as [v|]; auto. destruct HV as (w & Hw & HV). rewrite Hw, <- HV. f_equal.
      unfold total. simpl. ring.
  Qed.

  (** ** One thread clears a cell first, without a barrier *)
  Inductive suffix {A} : list A -> list A -> Prop := | suf : forall l m, suffix m (l ++ m).
  Lemma suffix_refl : forall A (l : list A), suffix l l. Proof. intros A l. exact (suf [] l). Qed.
  Lemma suffix_tl : forall A x (l m : list A), suffix (x :: l) m -> suffix l m.
  Proof. intros A x l m H. inversion H; subst. replace (l0 ++ x :: l) with ((l0 ++ [x]) ++ l) by (now rewrite <- app_assoc). constructor. Qed.

  Lemma clear_pool : forall (R : Z -> Prop) (h : heap T) c z p0 l0 ps ls, ~ R c -> h c <> None ->
    adding R h p0 l0 -> Forall2 (adding R h) ps ls -> Forall (Forall (fun q => fst q = c)) ls ->
    apool_spec (AWr c z p0 :: ps) h (fun h' => exists ls', Forall2 suffix ls' ls /\ added (upd h c z) (l0 ++ concat ls') h').
  Proof.
    intros R h c z p0 l0 ps ls Hc Hal H0 H HO.
    set (I := fun (qs : list (aprog T)) (g : heap T) =>
       (exists ps' ls', qs = AWr c z p0 :: ps' /\ Forall2 (adding R h) ps' ls' /\ Forall2 suffix ls' ls /\ Forall (Forall (fun q => fst q = c)) ls' /\
          (forall a, a <> c -> g a = h a) /\ g c <> None) \/
       (exists ls', Forall2 suffix ls' ls /\ add_inv R (upd h c z) (l0 :: ls') qs g)).
    assert (HU : forall p l, adding R h p l -> adding R (upd h c z) p l).
    { intros p l. apply adding_same.
      - intros a Ha. apply upd_other. intros ->. contradiction.
      - intros a Ha. unfold upd. destruct (a =? c); [discriminate|auto]. }
    assert (Hadd : forall qs g ls', add_inv R (upd h c z) (l0 :: ls') qs g -> apool_spec qs g (added (upd h c z) (concat (l0 :: ls')))).
    { intros qs g ls' (ls2 & A1 & A2 & A3 & A4).
      assert (B : Forall2 (adding R g) qs ls2).
      { clear - A1 A2 A3. induction A1; constructor; auto. eapply adding_same; [| |eassumption]; auto. }
      eapply apool_weaken; [|eapply add_pool; exact B].
      intros h' Hh a. specialize (Hh a). specialize (A4 a). destruct (upd h c z a) as [v|].
      - destruct A4 as (w & Ew & A4). rewrite Ew in Hh. rewrite Hh. now rewrite A4.
      - rewrite A4 in Hh. auto. }
    apply apool_inv with (I := I).
    - left. exists ps, ls. repeat split; auto. clear. induction ls; constructor; auto using suffix_refl.
    - intros qs g [(ps' & ls' & -> & H1 & H2 & H3 & H4 & H5)|(ls' & H1 & H2)] HF.
      + inversion HF as [? ? F|? ? F]; subst; [simpl in F; contradiction|].
        apply Exists_exists in F as (q & Hq & Hf).
        assert (Hl : exists l, adding R h q l).
        { clear - H1 Hq. induction H1; [contradiction|]. destruct Hq as [->|Hq]; eauto. }
        destruct Hl as (l & Hl). inversion Hl as [|a k v l' Ra Ea Ak|a v k l' Ra Ea Ak]; subst; simpl in Hf; [contradiction| |].
        * rewrite H4 in Hf; [congruence|]. intros ->. contradiction.
        * destruct (Z.eq_dec a c) as [->|Hn]; [contradiction|]. rewrite H4 in Hf by auto. congruence.
      + apply (proj1 (Hadd _ _ _ H2 _ _ (apss_refl _))). auto.
    - intros l p r g p' g' [(ps' & ls' & E & H1 & H2 & H3 & H4 & H5)|(ls' & H1 & H2)] Hst.
      + destruct l as [|p1 l]; simpl in E; injection E as -> E.
        * (* the clearing thread *)
          subst ps'. inversion Hst; subst. right. exists ls'. split; auto. exists (l0 :: ls').
          split; [constructor; auto; clear - H1 HU; induction H1; constructor; auto|].
          split; [intros a Ha; unfold upd; destruct (Z.eqb_spec a c); [subst; contradiction|auto]|].
          split; [intros a Ha; unfold upd in *; destruct (Z.eqb_spec a c); [discriminate|rewrite H4; auto]|].
          intros a. unfold upd. destruct (Z.eqb_spec a c); [eauto|]. rewrite H4 by auto. destruct (h a); eauto.
        * left. subst ps'. apply Forall2_app_inv_l in H1 as (l1 & l2 & A1 & A2 & ->). inversion A2 as [|? lp ? l3 Hp A3]; subst.
          apply Forall2_app_inv_l in H2 as (m1 & m2 & B1 & B2 & ->). inversion B2 as [|? mp ? m3 Bp B3]; subst.
          apply Forall_app in H3 as (C1 & C2). inversion C2 as [|? ? Cp C3]; subst.
          inversion Hst as [a k h1 v Hv E1 E2|a v k h1 w Hw E1 E2|a v k h1 w Hw E1 E2]; subst; inversion Hp as [|a' k' v' lq Ra Ea Ak|a' v' k' lq Ra Ea Ak]; subst.
          -- exists (l ++ k v :: r), (l1 ++ lp :: l3). split; [reflexivity|]. split; [|split; [|split; [|split]]]; auto.
             ++ apply Forall2_app; auto. constructor; auto. rewrite H4 in Hv by (intros ->; contradiction). congruence.
             ++ apply Forall2_app; auto.
             ++ apply Forall_app; auto.
          -- assert (Ca := Forall_inv Cp). assert (Cq := Forall_inv_tail Cp). cbn in Ca. subst a.
             exists (l ++ p' :: r), (l1 ++ lq :: l3). split; [reflexivity|]. split; [|split; [|split; [|split]]]; auto.
             ++ apply Forall2_app; auto.
             ++ apply Forall2_app; auto. constructor; auto. eapply suffix_tl; eauto.
             ++ apply Forall_app; auto.
             ++ intros a Ha. rewrite upd_other by auto. auto.
             ++ rewrite upd_same. discriminate.
      + right. exists ls'. split; auto.
        eapply add_inv_step; eauto.
    - intros qs g [(ps' & ls' & -> & _)|(ls' & H1 & H2)] HD; [inversion HD; discriminate|].
      exists ls'. split; auto. apply (proj2 (Hadd _ _ _ H2 _ _ (apss_refl _)) HD).
  Qed.
End Adds.

(** ** The contraction kernels *)
Lemma NoDup_map_in : forall X Y (f : X -> Y) l, (forall x y, In x l -> In y l -> f x = f y -> x = y) -> NoDup l -> NoDup (map f l).
Proof.
  induction l as [|x l IH]; intros HF HN; simpl; [constructor|]. inversion HN; subst. constructor.
  - intros Hi. apply in_map_iff in Hi as (y & E & Hy). assert (y = x) by (apply HF; simpl; auto). subst; auto.
  - apply IH; auto. intros; apply HF; simpl; auto.
Qed.

Lemma find_position_in : forall l L, In l L -> exists p, find_position l L = Some p /\ (p < length L)%nat /\ nth p L 0%nat = l.
Proof.
  induction L as [|x L IH]; intros H; [contradiction|]. simpl. destruct (Nat.eqb_spec x l) as [->|Hn].
  - exists 0%nat. simpl. split; auto. split; auto. lia.
  - destruct H as [->|H]; [congruence|]. destruct (IH H) as (p & -> & Hp & E). exists (S p). simpl. split; auto. split; auto. lia.
Qed.

Lemma find_position_nth : forall (ext : nat -> Z) l L p, find_position l L = Some p -> nth p (map ext L) 0 = ext l.
Proof.
  induction L as [|x L IH]; intros p H; simpl in H; [discriminate|]. destruct (Nat.eqb_spec x l) as [->|Hn].
  - injection H as <-. reflexivity.
  - destruct (find_position l L) as [q|] eqn:E; [|discriminate]. injection H as <-. simpl. auto.
Qed.

Lemma in_gpu_unique : forall e l, In l (gpu_unique e) <-> In l (eA e) \/ In l (eB e) \/ In l (eC e).
Proof. intros e l. unfold gpu_unique. rewrite in_unique, !in_app_iff. tauto. Qed.

Lemma gpu_dims_ok : forall e ext C A B, consistent ext (eC e) C -> consistent ext (eA e) A -> consistent ext (eB e) B ->
  gpu_unique_dims e C A B = map ext (gpu_unique e).
Proof.
  intros e ext C A B HC HA HB. unfold gpu_unique_dims. apply map_ext_in. intros l Hl. unfold label_dim. unfold consistent in *.
  rewrite HC, HA, HB. destruct (find_position l (eC e)) as [p|] eqn:E1; [now apply find_position_nth|].
  destruct (find_position l (eA e)) as [p|] eqn:E2; [now apply find_position_nth|].
  destruct (find_position l (eB e)) as [p|] eqn:E3; [now apply find_position_nth|].
  exfalso. apply in_gpu_unique in Hl as [Hl|[Hl|Hl]]; apply find_position_in in Hl as (p & Hp & _); congruence.
Qed.

Section Contract.
  Context {O : Ops} (HR : is_ring O).
  Notation T := (car O).
  Add Ring ORC : (ir_rt O HR).

  Variables (e : ein) (ext : nat -> Z) (A B C : desc) (a b c : list Z -> T) (cp ab : T) (L : list nat).
  Hypothesis Hext : forall l, 0 <= ext l.
  Hypothesis HdA : consistent ext (eA e) A.
  Hypothesis HdB : consistent ext (eB e) B.
  Hypothesis HdC : consistent ext (eC e) C.
  Hypothesis HI : inj C.
  Hypothesis DA : disj C A.
  Hypothesis DB : disj C B.
  Hypothesis HL : contracted L (eC e) (eA e) (eB e).

  Let U := gpu_unique e.
  Let n := zprod (map ext U).

  Lemma gnn : forall X, nonneg (map ext X).
  Proof. intros X. apply Forall_map, Forall_forall. auto. Qed.
  Lemma U_nodup : NoDup U. Proof. apply unique_NoDup. Qed.
  Lemma gUA : forall l, In l (eA e) -> In l U. Proof. intros; apply in_gpu_unique; auto. Qed.
  Lemma gUB : forall l, In l (eB e) -> In l U. Proof. intros; apply in_gpu_unique; auto. Qed.
  Lemma gUC : forall l, In l (eC e) -> In l U. Proof. intros; apply in_gpu_unique; auto. Qed.

  Definition genv (env : nat -> Z) (s : Z) : nat -> Z := upds U (unravel (map ext U) s) env.

  Lemma genv_U : forall env s, 0 <= s < n -> map (genv env s) U = unravel (map ext U) s.
  Proof.
    intros env s Hs. apply upds_map; [apply U_nodup|].
    assert (E := inb_length _ _ (unravel_inb _ _ (gnn U) Hs)). rewrite map_length in E. auto.
  Qed.
  Lemma genv_ok : forall env s X, (forall l, In l X -> In l U) -> 0 <= s < n -> env_ok ext (genv env s) X.
  Proof.
    intros env s X HX Hs l Hl. apply HX in Hl. revert l Hl. apply env_ok_map.
    rewrite genv_U by auto. apply unravel_inb; auto. apply gnn.
  Qed.
  Lemma genv_at : forall env d X s, (forall l, In l X -> In l U) -> 0 <= s < n ->
    g_at U (map ext U) d X s = addr d (map (genv env s) X).
  Proof. intros env d X s HX Hs. unfold g_at. rewrite <- (genv_U env s Hs). f_equal. now apply perm_table_env. Qed.
  Lemma genv_base : forall env env' s X, (forall l, In l X -> In l U) -> 0 <= s < n -> map (genv env s) X = map (genv env' s) X.
  Proof.
    intros env env' s X HX Hs. rewrite <- !(perm_table_env X U) by auto. now rewrite !genv_U.
  Qed.

  Definition gval (env : nat -> Z) : T := omul (omul ab (a (map env (eA e)))) (b (map env (eB e))).
  Lemma gval_einstein : forall env, Sum_over L ext env gval = omul ab (einstein L (eA e) (eB e) ext a b env).
  Proof.
    intros env. unfold einstein. rewrite <- (Sum_over_mul_l HR). rewrite !(Sum_over_indices HR).
    apply lsum_ext. intros ix _. unfold gval. ring.
  Qed.
  Lemma gval_proper : env_proper gval.
  Proof. intros e1 e2 H. unfold gval. now rewrite !(map_ext e1 e2 H). Qed.
  Lemma gval_base : forall env env' s, 0 <= s < n -> gval (genv env s) = gval (genv env' s).
  Proof. intros. unfold gval. now rewrite (genv_base env env' s (eA e)), (genv_base env env' s (eB e)) by auto using gUA, gUB. Qed.

  Lemma not_cell : forall d h0 (f : list Z -> T) h', disj C d -> holds h0 d f ->
    (forall z, ~ cell C z -> h' z = h0 z) -> holds h' d f.
  Proof.
    intros d h0 f h' HD HH HF i Hi. rewrite HF; [now apply HH|]. intros (j & Hj & E). apply (HD j i); auto.
  Qed.

  (** The additions of one iteration. *)
  Definition one_add (s : Z) : list (Z * T) := [(addr C (map (genv (fun _ => 0) s) (eC e)), gval (genv (fun _ => 0) s))].

  Lemma contract_adding : forall h c1 s, holds h A a -> holds h B b -> holds h C c1 -> 0 <= s < n ->
    adding (fun z => ~ cell C z) h (contract_body e ab C A B (map ext U) s) (one_add s).
  Proof.
    intros h c1 s HA HB HC Hs. unfold contract_body, one_add. set (e0 := fun _ : nat => 0).
    fold U. rewrite !(genv_at e0) by (auto using gUA, gUB, gUC).
    assert (BA : inb (map (genv e0 s) (eA e)) (ddims A)) by (rewrite HdA; apply inb_map_env, genv_ok; auto using gUA).
    assert (BB : inb (map (genv e0 s) (eB e)) (ddims B)) by (rewrite HdB; apply inb_map_env, genv_ok; auto using gUB).
    assert (BC : inb (map (genv e0 s) (eC e)) (ddims C)) by (rewrite HdC; apply inb_map_env, genv_ok; auto using gUC).
    eapply ad_rd; [|apply HA; auto|].
    { intros (j & Hj & E). apply (DA j (map (genv e0 s) (eA e))); auto. }
    eapply ad_rd; [|apply HB; auto|].
    { intros (j & Hj & E). apply (DB j (map (genv e0 s) (eB e))); auto. }
    apply ad_add; [|rewrite HC by auto; discriminate|constructor].
    intros H. apply H. eexists. split; [exact BC|reflexivity].
  Qed.

  Lemma total_tasks : forall k z (g : Z -> list (Z * T)), (0 < k)%nat ->
    total z (concat (map (fun w => flat_map g (strided k n w)) (seq 0 k))) = lsum (zrange n) (fun s => total z (g s)).
  Proof.
    intros k z g Hk. rewrite <- (lsum_perm O HR _ _ _ _ (strided_perm k n Hk)).
    induction (seq 0 k) as [|w ws IH]; cbn [map concat]; [reflexivity|].
    rewrite (total_app HR), IH, (lsum_app O HR). f_equal. unfold total. apply (lsum_flat_map O HR).
  Qed.

  (** What the additions sum up to. *)
  Lemma contract_total : forall idx, inb idx (ddims C) ->
    lsum (zrange n) (fun s => total (addr C idx) (one_add s))
    = lsum (zrange n) (fun s => if list_eq_dec Z.eq_dec (map (genv (fun _ => 0) s) (eC e)) idx then gval (genv (fun _ => 0) s) else o0).
  Proof.
    intros idx Hi. apply lsum_ext. intros s Hs. apply zrange_in in Hs. unfold total, one_add, lsum. cbn [fst snd fold_right].
    assert (BC : inb (map (genv (fun _ => 0) s) (eC e)) (ddims C)) by (rewrite HdC; apply inb_map_env, genv_ok; auto using gUC).
    destruct (list_eq_dec Z.eq_dec _ idx) as [E|N].
    - rewrite E, Z.eqb_refl. cbn. ring.
    - destruct (Z.eqb_spec (addr C (map (genv (fun _ => 0) s) (eC e))) (addr C idx)) as [E|_]; [|cbn; ring].
      exfalso. apply N. apply HI; auto.
  Qed.
  Lemma contract_value : forall env, env_ok ext env (eC e) ->
    lsum (zrange n) (fun s => if list_eq_dec Z.eq_dec (map (genv (fun _ => 0) s) (eC e)) (map env (eC e)) then gval (genv (fun _ => 0) s) else o0)
    = omul ab (einstein L (eA e) (eB e) ext a b env).
  Proof.
    intros env Hok.
    rewrite <- gval_einstein, <- (pick_target HR U (eC e) (eA e) (eB e) L ext gval env gval_proper U_nodup (in_gpu_unique e) HL Hok).
    rewrite <- (lsum_perm O HR _ _ _ _ (unravel_perm _ (gnn U))), lsum_map. apply lsum_ext. intros s Hs.
    apply zrange_in in Hs. change (upds U (unravel (map ext U) s) env) with (genv env s).
    rewrite (genv_base (fun _ => 0) env s (eC e)), (gval_base (fun _ => 0) env s) by auto using gUC. reflexivity.
  Qed.
  Lemma contract_nothing : forall idx, (forall env, env_ok ext env (eC e) -> idx <> map env (eC e)) ->
    lsum (zrange n) (fun s => if list_eq_dec Z.eq_dec (map (genv (fun _ => 0) s) (eC e)) idx then gval (genv (fun _ => 0) s) else o0) = o0.
  Proof.
    intros idx Hne. transitivity (lsum (zrange n) (fun _ => @o0 O)); [|apply (lsum_0 O HR)].
    apply lsum_ext. intros s Hs. destruct (list_eq_dec Z.eq_dec _ idx) as [Et|]; auto.
    exfalso. apply (Hne (genv (fun _ => 0) s)); auto. apply genv_ok; auto using gUC. now apply zrange_in.
  Qed.

  (** The generic kernel in one block. *)
  Lemma generic_block : forall h nt, holds h A a -> holds h B b -> holds h C c -> (0 < nt)%nat ->
    grid_spec (launch 1 nt (generic_kernel e cp C ab A B (map ext U))) h
      (py_result ext (eC e) (eA e) (eB e) L cp ab C a b c h).
  Proof.
    intros h nt HA HB HC Hnt.
    rewrite (launch_one nt _ [fun w => lift1 (pseq (strided nt (zprod (ddims C)) w) (scale_body cp C));
                              fun w => aloop (strided nt n w) (contract_body e ab C A B (map ext U))]) by reflexivity.
    apply one_block_spec; [destruct nt; [lia|discriminate]|discriminate|]. cbn [phases_spec].
    match goal with |- apool_spec _ _ ?Q => set (Q1 := Q) end.
    assert (E1 : map (fun w => lift1 (pseq (strided nt (zprod (ddims C)) w) (scale_body cp C))) (seq 0 nt)
       = map lift1 (omp_for (scale_body cp C) (map (strided nt (zprod (ddims C))) (seq 0 nt)))) by (unfold omp_for; rewrite !map_map; reflexivity).
    rewrite E1. apply lift_pool. apply (scale_step HR cp C c); auto.
    { rewrite HdC. apply gnn. } { now apply strided_perm. }
    intros h1 HC1 HF1. unfold Q1.
    assert (HA1 : holds h1 A a) by (eapply not_cell; eauto).
    assert (HB1 : holds h1 B b) by (eapply not_cell; eauto).
    eapply apool_weaken; [|apply (add_pool HR (fun z => ~ cell C z) h1 _ (map (fun w => flat_map one_add (strided nt n w)) (seq 0 nt)))].
    - intros h' Hh. split; [|split].
      + intros env Hok. assert (Hi : inb (map env (eC e)) (ddims C)) by (rewrite HdC; now apply inb_map_env).
        specialize (Hh (addr C (map env (eC e)))). rewrite (HC1 _ Hi) in Hh. rewrite Hh.
        rewrite total_tasks, contract_total, contract_value by auto. reflexivity.
      + intros idx Hi Hne. specialize (Hh (addr C idx)). rewrite (HC1 _ Hi) in Hh. rewrite Hh.
        rewrite total_tasks, contract_total, contract_nothing by auto. f_equal. ring.
      + intros z Hz. assert (Nz : ~ cell C z) by (intros (i & Hi & ->); apply (Hz i Hi); auto).
        specialize (Hh z). rewrite (HF1 z Nz) in Hh. destruct (h z) as [v|] eqn:Ez; [|congruence]. rewrite Hh. f_equal.
        rewrite total_tasks by auto.
        transitivity (oadd v (lsum (zrange n) (fun _ => @o0 O))); [|rewrite (lsum_0 O HR); ring]. f_equal.
        apply lsum_ext. intros s Hs. apply zrange_in in Hs. unfold total, one_add, lsum. cbn [fst snd fold_right].
        destruct (Z.eqb_spec (addr C (map (genv (fun _ => 0) s) (eC e))) z) as [E|_]; [|cbn; ring].
        exfalso. apply Nz. eexists. split; [|symmetry; exact E]. rewrite HdC; apply inb_map_env, genv_ok; auto using gUC.
    - clear Q1 E1. induction (seq 0 nt) as [|w ws IH]; cbn [map]; constructor; auto. apply adding_loop. intros s Hs.
      eapply contract_adding; eauto. apply filter_In in Hs as (Hs & _). now apply zrange_in.
  Qed.

  (** The direct-product kernel. *)
  Lemma direct_labels : direct_product_swap e = true -> NoDup (eC e) -> forall l, In l U -> In l (eC e).
  Proof.
    intros HS HN l Hl. unfold direct_product_swap in HS. repeat (apply andb_prop in HS as (HS & ?)).
    repeat match goal with H : Nat.eqb _ _ = true |- _ => apply Nat.eqb_eq in H end.
    assert (SubF : forall X Y : list nat, length (intersect X Y) = length X -> forall l, In l X -> In l Y).
    { intros X Y. unfold intersect. induction X as [|x X IH]; intros HE m Hm; [contradiction|]. simpl in HE.
      assert (Hle : (length (filter (fun l => has_type l Y) X) <= length X)%nat) by (clear; induction X as [|q X IH]; simpl; [lia|destruct (has_type q Y); simpl; lia]).
      destruct (has_type x Y) eqn:Ex; simpl in HE; [|lia]. destruct Hm as [<-|Hm]; [now apply has_type_In|]. apply IH; auto. }
    apply in_gpu_unique in Hl as [Hl|[Hl|Hl]]; auto.
    - revert l Hl. apply SubF. congruence.
    - revert l Hl. apply NoDup_length_incl; auto; [lia|]. intros m Hm. revert m Hm. apply SubF. congruence.
  Qed.

  Lemma gdirect_grid : forall h nb nt, direct_product_swap e = true -> NoDup (eC e) ->
    holds h A a -> holds h B b -> holds h C c -> (0 < nb)%nat -> (0 < nt)%nat ->
    grid_spec (launch nb nt (gdirect_kernel e cp C ab A B (map ext U))) h
      (py_result ext (eC e) (eA e) (eB e) L cp ab C a b c h).
  Proof.
    intros h nb nt HS HN HA HB HC Hb Ht. assert (AC := direct_labels HS HN). set (e0 := fun _ : nat => 0).
    assert (HL0 : L = []).
    { destruct L as [|l r]; auto. exfalso. destruct (proj1 (proj2 HL l) (or_introl eq_refl)) as (H1 & H2).
      apply H2, AC, in_gpu_unique. tauto. }
    unfold gdirect_kernel. apply (each_spec nb nt n (gdirect_body e cp C ab A B (map ext U))); auto. intros threads HP.
    assert (Cin : forall s, 0 <= s < n -> inb (map (genv e0 s) (eC e)) (ddims C)).
    { intros s Hs. rewrite HdC. apply inb_map_env, genv_ok; auto using gUC. }
    apply (par_cells_Q Z T (zrange n) threads (fun s => addr C (map (genv e0 s) (eC e)))
       (fun s => Some (oadd (omul cp (c (map (genv e0 s) (eC e)))) (gval (genv e0 s))))); auto.
    - apply NoDup_map_in; [|apply zrange_NoDup]. intros s t Hs Ht2 E. apply zrange_in in Hs, Ht2.
      apply HI in E; auto. apply (unravel_inj (map ext U)); auto; [apply gnn|].
      rewrite <- !(genv_U e0) by auto. apply map_ext_in. intros l Hl. apply AC in Hl.
      apply (ext_in_map E l Hl).
    - intros s h' Hs Hf. apply zrange_in in Hs. unfold gdirect_body. fold U. rewrite !(genv_at e0) by (auto using gUA, gUB, gUC).
      assert (BA : inb (map (genv e0 s) (eA e)) (ddims A)) by (rewrite HdA; apply inb_map_env, genv_ok; auto using gUA).
      assert (BB : inb (map (genv e0 s) (eB e)) (ddims B)) by (rewrite HdB; apply inb_map_env, genv_ok; auto using gUB).
      assert (NA : forall j, inb j (ddims A) -> ~ owned (zrange n) (fun s => addr C (map (genv e0 s) (eC e))) (addr A j)).
      { intros j Hj Ho. apply in_map_iff in Ho as (t & E & Ht2). apply zrange_in in Ht2. apply (DA (map (genv e0 t) (eC e)) j); auto. }
      assert (NB : forall j, inb j (ddims B) -> ~ owned (zrange n) (fun s => addr C (map (genv e0 s) (eC e))) (addr B j)).
      { intros j Hj Ho. apply in_map_iff in Ho as (t & E & Ht2). apply zrange_in in Ht2. apply (DB (map (genv e0 t) (eC e)) j); auto. }
      assert (EA : h' (addr A (map (genv e0 s) (eA e))) = Some (a (map (genv e0 s) (eA e)))) by (rewrite Hf by auto; now apply HA).
      assert (EB : h' (addr B (map (genv e0 s) (eB e))) = Some (b (map (genv e0 s) (eB e)))) by (rewrite Hf by auto; now apply HB).
      assert (EC : h' (addr C (map (genv e0 s) (eC e))) = Some (c (map (genv e0 s) (eC e)))) by (rewrite Hf by auto; apply HC; auto).
      destruct (oeqb cp o0) eqn:Ec; cbn [psafe run].
      + split.
        * split; [auto|]. eexists; split; [exact EA|]. split; [auto|]. eexists; split; [exact EB|]. split; [reflexivity|]. split; [eauto|exact I].
        * rewrite EA, EB, EC. eexists; split; [reflexivity|]. cbv beta. rewrite upd_same. f_equal. unfold gval.
          apply (ir_eqb O HR) in Ec. subst. ring.
      + split.
        * split; [auto|]. eexists; split; [exact EC|]. split; [auto|]. eexists; split; [exact EA|].
          split; [auto|]. eexists; split; [exact EB|]. split; [reflexivity|]. split; [eauto|exact I].
        * rewrite EC, EA, EB. eexists; split; [reflexivity|]. cbv beta. rewrite upd_same. f_equal.
    - intros h' (H1 & H2). split; [|split].
      + intros env Hok.
        assert (HU : inb (map env U) (map ext U)) by (apply inb_map_env; intros l Hl; apply Hok, AC; auto).
        apply in_indices in HU. eapply Permutation_in in HU; [|apply Permutation_sym, unravel_perm, gnn].
        apply in_map_iff in HU as (s & Es & Hs). specialize (H1 s Hs). cbv beta in H1. apply zrange_in in Hs.
        assert (EE : forall X, (forall l, In l X -> In l U) -> map (genv e0 s) X = map env X).
        { intros X HX. rewrite <- (perm_table_env X U) by auto. rewrite <- (perm_table_env X U env) by auto. now rewrite genv_U, Es by auto. }
        rewrite (EE (eC e)) in H1 by auto using gUC. rewrite H1. f_equal. f_equal.
        unfold gval. rewrite (EE (eA e)), (EE (eB e)) by auto using gUA, gUB. rewrite HL0. unfold einstein. cbn. ring.
      + intros idx Hi Hne. exfalso. unfold consistent in HdC. rewrite HdC in Hi. assert (Hlen := inb_length _ _ Hi). rewrite map_length in Hlen.
        assert (Em : map (upds (eC e) idx e0) (eC e) = idx) by (apply upds_map; auto).
        apply (Hne (upds (eC e) idx e0)); auto. apply env_ok_map. now rewrite Em.
      + intros z Hz. apply H2. intros Ho. apply in_map_iff in Ho as (s & <- & Hs). apply zrange_in in Hs. apply (Hz (map (genv e0 s) (eC e))); auto.
  Qed.

  (** Reading and summing up. *)
  Lemma share_adding : forall (R : Z -> Prop) (h : heap T) (xs : list Z) (zA zB : Z -> Z) (fa fb : Z -> T) (w0 : T) (k : T -> aprog T) l,
    (forall s, In s xs -> R (zA s) /\ h (zA s) = Some (fa s) /\ R (zB s) /\ h (zB s) = Some (fb s)) ->
    adding R h (k (oadd w0 (lsum xs (fun s => omul (fa s) (fb s))))) l ->
    adding R h (alift (pfold xs (fun acc s => PRd (zA s) (fun u => PRd (zB s) (fun v => PRet (oadd acc (omul u v))))) w0) k) l.
  Proof.
    intros R h xs zA zB fa fb w0 k l. revert w0. induction xs as [|s xs IH]; intros w0 HX HK.
    - cbn [pfold alift]. replace (oadd w0 (lsum [] (fun s => omul (fa s) (fb s)))) with w0 in HK; auto. unfold lsum; cbn. ring.
    - destruct (HX s (or_introl eq_refl)) as (R1 & E1 & R2 & E2). cbn [pfold pbind alift].
      eapply ad_rd; [exact R1|exact E1|]. eapply ad_rd; [exact R2|exact E2|].
      apply IH; [intros; apply HX; simpl; auto|].
      replace (oadd (oadd w0 (omul (fa s) (fb s))) (lsum xs (fun s0 => omul (fa s0) (fb s0))))
         with (oadd w0 (lsum (s :: xs) (fun s0 => omul (fa s0) (fb s0)))); auto. unfold lsum; cbn. ring.
  Qed.

  (** The zero-rank kernel. *)
  Lemma zero_grid : forall h v nb nt, eC e = [] -> holds h A a -> holds h B b -> h (dbase C) = Some v -> (0 < nb)%nat -> (0 < nt)%nat ->
    grid_spec (launch nb nt (zero_rank_kernel e (dbase C) ab A B (map ext U))) h
      (fun h' => h' (dbase C) = Some (oadd v (omul ab (einstein L (eA e) (eB e) ext a b (fun _ => 0)))) /\
                 (forall z, z <> dbase C -> h' z = h z)).
  Proof.
    intros h v nb nt E0 HA HB HV Hb Ht. set (e0 := fun _ : nat => 0).
    assert (dC : ddims C = []) by (unfold consistent in HdC; rewrite HdC, E0; reflexivity).
    assert (aC : addr C [] = dbase C) by (unfold addr; cbn; lia).
    apply grid_of_pool; [apply (launch_ok _ _ _ 1); auto|]. rewrite launch_flat. unfold zero_rank_kernel. cbn [join]. fold U n.
    set (k := (nb * nt)%nat). assert (Hk : (0 < k)%nat) by (unfold k; nia).
    set (pr := fun s => omul (a (map (genv e0 s) (eA e))) (b (map (genv e0 s) (eB e)))).
    eapply apool_weaken; [|apply (add_pool HR (fun z => z <> dbase C) h _
       (map (fun w => [(dbase C, omul ab (lsum (strided k n w) pr))]) (seq 0 k)))].
    - intros h' Hh. split.
      + specialize (Hh (dbase C)). rewrite HV in Hh. rewrite Hh. f_equal. f_equal.
        rewrite <- (contract_value e0) by (intros l Hl; rewrite E0 in Hl; contradiction).
        transitivity (lsum (zrange n) (fun s => omul ab (pr s))).
        * rewrite <- (lsum_perm O HR _ _ _ _ (strided_perm k n Hk)). 
          clear Hh. induction (seq 0 k) as [|w ws IH]; cbn [map concat app]; [reflexivity|]. rewrite (lsum_app O HR), <- IH, <- (lsum_mul_l O HR).
          unfold total, lsum at 1. cbn [fold_right fst snd]. rewrite Z.eqb_refl. reflexivity.
        * apply lsum_ext. intros s _. rewrite E0. cbn [map]. destruct (list_eq_dec Z.eq_dec [] []) as [_|N]; [|congruence]. unfold pr, gval. fold e0. ring.
      + intros z Hz. specialize (Hh z). destruct (h z) as [x|] eqn:Ez; [|congruence]. rewrite Hh. f_equal.
        replace (total z (concat (map (fun w => [(dbase C, omul ab (lsum (strided k n w) pr))]) (seq 0 k)))) with (@o0 O); [ring|].
        clear Hh. induction (seq 0 k) as [|w ws IH]; [reflexivity|]. cbn [map concat app]. unfold total, lsum. cbn [fold_right fst snd].
        destruct (Z.eqb_spec (dbase C) z); [congruence|]. change (o0 = oadd o0 (total z (concat (map (fun w => [(dbase C, omul ab (lsum (strided k n w) pr))]) ws)))).
        rewrite <- IH. ring.
    - induction (seq 0 k) as [|w ws IH]; cbn [map]; constructor; auto. cbn [aseq]. unfold dot_share.
      apply share_adding with (fa := fun s => a (map (genv e0 s) (eA e))) (fb := fun s => b (map (genv e0 s) (eB e))).
      + intros s Hs. apply filter_In in Hs as (Hs & _). apply zrange_in in Hs.
        fold U. rewrite !(genv_at e0) by (auto using gUA, gUB).
        assert (BA : inb (map (genv e0 s) (eA e)) (ddims A)) by (rewrite HdA; apply inb_map_env, genv_ok; auto using gUA).
        assert (BB : inb (map (genv e0 s) (eB e)) (ddims B)) by (rewrite HdB; apply inb_map_env, genv_ok; auto using gUB).
        assert (B0 : inb [] (ddims C)) by (rewrite dC; constructor).
        split; [|split; [apply HA; auto|split; [|apply HB; auto]]].
        * intros E. apply (DA [] (map (genv e0 s) (eA e))); auto. congruence.
        * intros E. apply (DB [] (map (genv e0 s) (eB e))); auto. congruence.
      + replace (oadd o0 (lsum (strided k n w) (fun s => omul (a (map (genv e0 s) (eA e))) (b (map (genv e0 s) (eB e)))))) with (lsum (strided k n w) pr) by (unfold pr; ring).
        apply ad_add; [intros H; apply H; reflexivity|congruence|constructor].
  Qed.
End Contract.

(** ** Atomic additions to cells no other thread uses *)
Section Alone.
  Context {O : Ops}.
  Notation T := (car O).

  (** An atomic addition seen as a read followed by a write. *)
  Inductive deas : aprog T -> prog T unit -> Prop :=
  | ds_done : deas ADone (PRet tt)
  | ds_rd : forall a k k', (forall v, deas (k v) (k' v)) -> deas (ARd a k) (PRd a k')
  | ds_wr : forall a v k k', deas k k' -> deas (AWr a v k) (PWr a v k')
  | ds_add : forall a v k k', deas k k' -> deas (AAdd a v k) (PRd a (fun w => PWr a (oadd w v) k')).

  Lemma deas_lift : forall p : prog T unit, deas (lift1 p) p.
  Proof. induction p as [[]|a k IH|a v k IH]; unfold lift1; cbn [alift]; constructor; auto. Qed.
  Lemma deas_seq : forall p p' q q', deas p p' -> deas q q' -> deas (aseq p q) (pbind p' (fun _ => q')).
  Proof. intros p p' q q' H Hq. induction H; cbn [aseq pbind]; try constructor; auto. Qed.
  Lemma deas_loop : forall X (l : list X) f f', (forall x, deas (f x) (f' x)) -> deas (aloop l f) (pseq l f').
  Proof. induction l as [|x l IH]; intros f f' H; [constructor|]. apply deas_seq; auto. apply IH. auto. Qed.

  Lemma deas_pool : forall (ps : list (aprog T)) (ps' : list (prog T unit)) h Q, Forall2 deas ps ps' -> par_spec ps' h Q -> apool_spec ps h Q.
  Proof.
    intros ps ps' h Q HD (H & _).
    apply apool_inv with (I := fun qs h' => exists qs', Forall2 deas qs qs' /\ psteps (ps', h) (qs', h')).
    - exists ps'. split; auto. constructor.
    - intros qs h' (qs' & HF & Hs) Hft. apply (proj1 (H qs' h' Hs)).
      clear Hs. induction HF as [|q q' qs qs' Hq HF IH]; [inversion Hft|].
      inversion Hft as [? ? Hf|? ? Hf]; subst.
      + destruct Hq as [|a k k' Hk|a v k k' Hk|a v k k' Hk]; simpl in Hf; [contradiction|exists 0%nat; left|exists 0%nat; right|exists 0%nat; left]; simpl; eauto.
      + destruct (IH Hf) as (i & Hi). exists (S i). simpl. auto.
    - intros l q r h' q' h'' (qs' & HF & Hs) Hst.
      apply Forall2_app_inv_l in HF as (l' & m' & HL & HM & ->). inversion HM as [|? p' ? r' Hp Hr]; subst.
      assert (Hn : forall p, nth_error (l' ++ p :: r') (length l') = Some p)
        by (intros p; rewrite nth_error_app2 by lia; replace (length l' - length l')%nat with 0%nat by lia; reflexivity).
      inversion Hst as [a k g v E|a v k g w E|a v k g w E]; subst; inversion Hp as [|? ? k' Hk|? ? ? k' Hk|? ? ? k' Hk]; subst.
      + exists (l' ++ k' v :: r'). split; [apply Forall2_app; auto|].
        eapply psteps_trans; [exact Hs|]. econstructor; [|constructor].
        rewrite <- (replace_app _ l' (PRd a k') (k' v) r'). eapply ps_rd; eauto.
      + exists (l' ++ k' :: r'). split; [apply Forall2_app; auto|].
        eapply psteps_trans; [exact Hs|]. econstructor; [|constructor].
        rewrite <- (replace_app _ l' (PWr a v k') k' r'). eapply ps_wr; eauto.
      + exists (l' ++ k' :: r'). split; [apply Forall2_app; auto|].
        eapply psteps_trans; [exact Hs|].
        apply pss_step with (t := (l' ++ PWr a (oadd w v) k' :: r', h')); [|econstructor; [|constructor]].
        * rewrite <- (replace_app _ l' (PRd a (fun w => PWr a (oadd w v) k')) (PWr a (oadd w v) k') r').
          exact (ps_rd _ _ _ _ (fun w => PWr a (oadd w v) k') _ (Hn _) E).
        * rewrite <- (replace_app _ l' (PWr a (oadd w v) k') k' r'). eapply ps_wr; eauto.
    - intros qs h' (qs' & HF & Hs) Hdn. apply (proj2 (proj2 (H qs' h' Hs))).
      clear Hs. induction HF as [|q q' qs qs' Hq HF IH]; [constructor|]. inversion Hdn as [|? ? E1 E2]; subst.
      constructor; [inversion Hq; auto|apply IH; exact E2].
  Qed.
End Alone.

(** Two loops over the same cells, one after the other. *)
Lemma par_cells2 : forall X T (l : list X) (threads : list (list X)) (ad : X -> Z) (val1 val2 : X -> option T)
    (body1 body2 : X -> prog T unit) (h : heap T) (Q : heap T -> Prop),
  Permutation (concat threads) l -> NoDup (map ad l) -> task_ok l ad val1 body1 h ->
  (forall hs, (forall x, In x l -> hs (ad x) = val1 x) -> (forall a, ~ owned l ad a -> hs a = h a) -> task_ok l ad val2 body2 hs) ->
  (forall h', (forall x, In x l -> h' (ad x) = val2 x) -> (forall a, ~ owned l ad a -> h' a = h a) -> Q h') ->
  par_spec (map (fun r => pbind (pseq r body1) (fun _ => pseq r body2)) threads) h Q.
Proof.
  intros X T l threads ad val1 val2 body1 body2 h Q HP Hnd Hok1 Hok2 HQ.
  assert (HPm := Permutation_map ad HP).
  assert (Hndc : NoDup (concat (map (map ad) threads))).
  { rewrite <- concat_map. eapply Permutation_NoDup; [apply Permutation_sym; eauto|auto]. }
  assert (HT : forall i r, nth_error threads i = Some r -> NoDup (map ad r) /\ (forall x, In x r -> In x l)).
  { intros i r Hi. split.
    - clear - Hndc Hi. revert i Hi. induction threads as [|t ts IH]; intros [|i] Hi; simpl in *; try discriminate.
      + injection Hi as ->. eapply NoDup_app_l; eauto.
      + eapply IH; eauto. eapply NoDup_app_r; eauto.
    - intros x Hx. eapply Permutation_in; eauto. apply in_concat. exists r. split; auto. eapply nth_error_In; eauto. }
  set (hs := fun a => match find (fun x => ad x =? a) l with Some x => val1 x | None => h a end).
  assert (Hs1 : forall x, In x l -> hs (ad x) = val1 x).
  { intros x Hx. unfold hs. destruct (find (fun y => ad y =? ad x) l) as [y|] eqn:E.
    - apply find_some in E as (Hy & E). apply Z.eqb_eq in E. f_equal. clear - Hnd Hx Hy E. induction l as [|z l IH]; [contradiction|].
      simpl in Hnd. inversion Hnd as [|? ? N1 N2]; subst. destruct Hx as [<-|Hx], Hy as [<-|Hy]; auto.
      + exfalso. apply N1. rewrite <- E. now apply in_map.
      + exfalso. apply N1. rewrite E. now apply in_map.
    - exfalso. apply (find_none _ _ E) in Hx. rewrite Z.eqb_refl in Hx. discriminate. }
  assert (Hs2 : forall a, ~ owned l ad a -> hs a = h a).
  { intros a Ha. unfold hs. destruct (find (fun y => ad y =? a) l) as [y|] eqn:E; auto.
    apply find_some in E as (Hy & E). apply Z.eqb_eq in E. exfalso. apply Ha. rewrite <- E. now apply in_map. }
  assert (Hok := Hok2 hs Hs1 Hs2).
  set (pg := fun r => pbind (pseq r body1) (fun _ => pseq r body2)).
  assert (HRn : forall i r, nth_error threads i = Some r ->
     psafe (fun a => In a (map ad r)) (fun a => ~ owned l ad a) (pg r) h /\
     exists h2, run (pg r) h = Ok (tt, h2) /\ (forall x, In x r -> h2 (ad x) = val2 x)).
  { intros i r Hi. destruct (HT i r Hi) as (Hr1 & Hr2).
    destruct (run_tasks_seq X T l ad val1 body1 h Hnd Hok1 r h Hr1 Hr2) as (P1 & h1 & E1 & V1 & F1); auto.
    destruct (run_tasks_seq X T l ad val2 body2 hs Hnd Hok r h1 Hr1 Hr2) as (P2 & h2 & E2 & V2 & F2).
    { intros a Ha. destruct (in_dec Z.eq_dec a (map ad r)) as [Hi2|Hn].
      - apply in_map_iff in Hi2 as (x & <- & Hx). rewrite V1, Hs1; auto.
      - destruct Ha as [Ha|Ha]; [contradiction|]. rewrite F1, Hs2; auto. }
    split.
    - unfold pg. apply psafe_bind. split; auto. intros u g Eg. change (Z -> option T) with (heap T) in E1. rewrite E1 in Eg. injection Eg as <- <-. auto.
    - exists h2. unfold pg. rewrite run_bind, E1. auto. }
  set (own := fun i a => exists r, nth_error threads i = Some r /\ In a (map ad r)).
  set (fin := fun i => match nth_error threads i with
     | Some r => match run (pg r) h with Ok (_, g) => g | _ => h end | None => h end).
  assert (HD : par_spec (map pg threads) h (fun h' =>
    (forall i a, (i < length (map pg threads))%nat -> own i a -> h' a = fin i a) /\
    (forall a, (forall i, (i < length (map pg threads))%nat -> ~ own i a) -> h' a = h a))).
  { apply par_drf with (shared := fun a => ~ owned l ad a).
    - intros i j a (r & Hr & Ha) (r' & Hr' & Ha').
      apply (NoDup_concat_disj _ (map (map ad) threads) i j (map ad r) (map ad r') a); auto;
        rewrite nth_error_map; [rewrite Hr|rewrite Hr']; auto.
    - intros i a (r & Hr & Ha) Hn. apply Hn. apply in_map_iff in Ha as (x & <- & Hx).
      apply in_map. eapply HT; eauto.
    - intros i p Hi. rewrite nth_error_map in Hi. destruct (nth_error threads i) as [r|] eqn:Er; [|discriminate].
      injection Hi as <-. destruct (HRn i r Er) as (P & h2 & E2 & _).
      split.
      + eapply psafe_mono; [| |exact P]; simpl; auto. intros a Ha. exists r. auto.
      + unfold fin. rewrite Er. change (Z -> option T) with (heap T) in E2. rewrite E2. auto. }
  eapply par_spec_weaken; [|exact HD]. intros h' (H4 & H5). apply HQ.
  - intros x Hx.
    assert (Hc : In x (concat threads)) by (eapply Permutation_in; [apply Permutation_sym; eauto|auto]).
    apply in_concat in Hc as (r & Hr & Hxr). apply In_nth_error in Hr as (i & Hi).
    rewrite (H4 i (ad x)).
    + unfold fin. rewrite Hi. destruct (HRn i r Hi) as (_ & h2 & E2 & V). change (Z -> option T) with (heap T) in E2. rewrite E2. auto.
    + rewrite map_length. apply nth_error_Some. congruence.
    + exists r. split; auto. now apply in_map.
  - intros a Ha. apply H5. intros i Hi (r & Hr & Har). apply Ha.
    apply in_map_iff in Har as (x & <- & Hx). apply in_map. eapply HT; eauto.
Qed.

Lemma unique_head : forall X Y seen, NoDup X -> (forall l, In l X -> ~ In l seen) -> (forall l, In l Y -> In l X \/ In l seen) ->
  filter_unique seen (X ++ Y) = seen ++ X.
Proof.
  induction X as [|x X IH]; intros Y seen HN HD HY.
  - cbn [app]. rewrite app_nil_r. assert (H : forall l, In l Y -> In l seen) by (intros l Hl; destruct (HY l Hl); auto; contradiction). clear HY HD HN.
    induction Y as [|q Y IH]; [reflexivity|]. cbn [filter_unique]. assert (Hy : In q seen) by (apply H; simpl; auto).
    apply has_type_In in Hy. rewrite Hy. apply IH. intros; apply H; simpl; auto.
  - cbn [app filter_unique]. inversion HN as [|? ? N1 N2]; subst.
    destruct (has_type x seen) eqn:E; [exfalso; apply (HD x (or_introl eq_refl)); now apply has_type_In|].
    replace (seen ++ x :: X) with ((seen ++ [x]) ++ X) by (rewrite <- app_assoc; reflexivity). apply IH; auto.
    + intros l Hl Hs. apply in_app_iff in Hs as [Hs|[<-|[]]]; auto. apply (HD l); simpl; auto.
    + intros l Hl. rewrite in_app_iff. destruct (HY l Hl) as [[<-|H]|H]; simpl; auto.
Qed.

Section Free.
  Context {O : Ops} (HR : is_ring O).
  Notation T := (car O).
  Add Ring ORF : (ir_rt O HR).
  Variables (e : ein) (ext : nat -> Z) (A B C : desc) (a b c : list Z -> T) (cp ab : T).
  Hypothesis Hext : forall l, 0 <= ext l.
  Hypothesis HdA : consistent ext (eA e) A.
  Hypothesis HdB : consistent ext (eB e) B.
  Hypothesis HdC : consistent ext (eC e) C.
  Hypothesis HI : inj C.
  Hypothesis DA : disj C A.
  Hypothesis DB : disj C B.
  Hypothesis HL : contracted [] (eC e) (eA e) (eB e).
  Hypothesis HN : NoDup (eC e).

  Lemma free_unique : gpu_unique e = eC e.
  Proof.
    unfold gpu_unique, unique. apply unique_head; auto. intros l Hl. left. destruct (in_dec Nat.eq_dec l (eC e)) as [|N]; auto.
    exfalso. apply (proj2 HL l). rewrite in_app_iff in Hl. tauto.
  Qed.

  (** The generic kernel if no label is summed: the worker that scales an
      element is the one that adds to it. *)
  Lemma generic_free : forall h nb nt, holds h A a -> holds h B b -> holds h C c -> (0 < nb)%nat -> (0 < nt)%nat ->
    grid_spec (launch nb nt (generic_kernel e cp C ab A B (map ext (gpu_unique e)))) h
      (py_result ext (eC e) (eA e) (eB e) [] cp ab C a b c h).
  Proof.
    intros h nb nt HA HB HC Hb Ht. set (e0 := fun _ : nat => 0). set (U := gpu_unique e). set (n := zprod (map ext U)).
    assert (UE := free_unique). fold U in UE.
    assert (nE : zprod (ddims C) = n) by (unfold n; rewrite UE; unfold consistent in HdC; now rewrite HdC).
    apply grid_of_pool; [apply (launch_ok _ _ _ 1); auto|]. rewrite launch_flat. set (k := (nb * nt)%nat). assert (Hk : (0 < k)%nat) by (unfold k; nia).
    set (idx := fun s => unravel (map ext U) s).
    assert (Iin : forall s, 0 <= s < n -> inb (idx s) (ddims C)).
    { intros s Hs. unfold consistent in HdC. rewrite HdC, <- UE. apply unravel_inb; auto. apply (gnn ext Hext). }
    assert (GE : forall s, 0 <= s < n -> map (genv e ext e0 s) (eC e) = idx s).
    { intros s Hs. rewrite <- UE. apply genv_U; auto. }
    set (add_body := fun s => PRd (g_at U (map ext U) A (eA e) s) (fun u => PRd (g_at U (map ext U) B (eB e) s) (fun v =>
        PRd (g_at U (map ext U) C (eC e) s) (fun w => PWr (g_at U (map ext U) C (eC e) s) (oadd w (omul (omul ab u) v)) (PRet tt))))).
    apply deas_pool with (ps' := map (fun r => pbind (pseq r (scale_body cp C)) (fun _ => pseq r add_body)) (map (strided k n) (seq 0 k))).
    { rewrite map_map. induction (seq 0 k) as [|w ws IH]; cbn [map]; constructor; auto. unfold generic_kernel. cbn [join]. rewrite nE.
      apply deas_seq; [apply deas_lift|]. apply deas_loop. intros s. unfold contract_body, add_body. repeat (constructor; intros). }
    assert (SC : forall s, addr C (unravel (ddims C) s) = addr C (idx s)).
    { intros s. unfold idx. rewrite UE. unfold consistent in HdC. now rewrite HdC. }
    assert (NC : forall d f i, disj C d -> holds h d f -> inb i (ddims d) -> ~ owned (zrange n) (fun s => addr C (idx s)) (addr d i)).
    { intros d f i Hd Hh Hi Ho. apply in_map_iff in Ho as (t & Et & Ht2). apply zrange_in in Ht2. apply (Hd (idx t) i); auto. }
    apply (par_cells2 Z T (zrange n) (map (strided k n) (seq 0 k)) (fun s => addr C (idx s))
       (fun s => Some (omul cp (c (idx s)))) (fun s => Some (oadd (omul cp (c (idx s))) (gval e a b ab (genv e ext e0 s)))));
      [now apply strided_perm| | | |].
    - apply NoDup_map_in; [|apply zrange_NoDup]. intros s t Hs Ht2 E. apply zrange_in in Hs, Ht2. apply HI in E; auto.
      apply (unravel_inj (map ext U)); auto. apply (gnn ext Hext).
    - intros s h' Hs Hf. apply zrange_in in Hs. unfold scale_body. rewrite !SC.
      assert (E : h' (addr C (idx s)) = Some (c (idx s))) by (rewrite Hf by auto; now apply HC, Iin).
      destruct (oeqb cp o0) eqn:Ec; cbn [psafe run].
      + split; [split; [reflexivity|split; [eauto|exact I]]|]. rewrite E. eexists. split; [reflexivity|]. cbv beta. rewrite upd_same. f_equal.
        apply (ir_eqb O HR) in Ec. subst. ring.
      + split; [split; [auto|]; eexists; split; [exact E|]; split; [reflexivity|split; [eauto|exact I]]|]. rewrite E. eexists. split; [reflexivity|]. cbv beta. rewrite upd_same. f_equal. ring.
    - intros hs V1 F1 s h' Hs Hf. assert (Hs' := Hs). apply zrange_in in Hs. unfold add_body.
      assert (EA : g_at U (map ext U) A (eA e) s = addr A (map (genv e ext e0 s) (eA e))) by (apply genv_at; auto; apply gUA).
      assert (EB : g_at U (map ext U) B (eB e) s = addr B (map (genv e ext e0 s) (eB e))) by (apply genv_at; auto; apply gUB).
      assert (EC : g_at U (map ext U) C (eC e) s = addr C (idx s)).
      { rewrite <- GE by auto. apply genv_at; auto; apply gUC. }
      rewrite EA, EB, EC.
      assert (BA : inb (map (genv e ext e0 s) (eA e)) (ddims A)) by (unfold consistent in HdA; rewrite HdA; apply inb_map_env, genv_ok; auto; apply gUA).
      assert (BB : inb (map (genv e ext e0 s) (eB e)) (ddims B)) by (unfold consistent in HdB; rewrite HdB; apply inb_map_env, genv_ok; auto; apply gUB).
      assert (NA := NC A a _ DA HA BA). assert (NB := NC B b _ DB HB BB).
      assert (VA : h' (addr A (map (genv e ext e0 s) (eA e))) = Some (a (map (genv e ext e0 s) (eA e)))) by (rewrite Hf, F1 by auto; now apply HA).
      assert (VB : h' (addr B (map (genv e ext e0 s) (eB e))) = Some (b (map (genv e ext e0 s) (eB e)))) by (rewrite Hf, F1 by auto; now apply HB).
      assert (VC : h' (addr C (idx s)) = Some (omul cp (c (idx s)))) by (rewrite Hf by auto; now apply V1).
      cbn [psafe run]. rewrite VA, VB, VC. split.
      + split; [auto|]. eexists; split; [reflexivity|]. split; [auto|]. eexists; split; [reflexivity|].
        split; [auto|]. eexists; split; [reflexivity|]. split; [reflexivity|]. split; [eauto|exact I].
      + eexists; split; [reflexivity|]. cbv beta. rewrite upd_same. reflexivity.
    - intros h' H1 H2. split; [|split].
      + intros env Hok.
        assert (HU : inb (map env U) (map ext U)) by (apply inb_map_env; intros l Hl; apply Hok; rewrite <- UE; auto).
        apply in_indices in HU. eapply Permutation_in in HU; [|apply Permutation_sym, unravel_perm, (gnn ext Hext)].
        apply in_map_iff in HU as (s & Es & Hs). specialize (H1 s Hs). cbv beta in H1. apply zrange_in in Hs.
        assert (Ei : idx s = map env (eC e)) by (unfold idx; rewrite Es, UE; auto).
        rewrite Ei in H1. rewrite H1. f_equal. f_equal.
        assert (EE : forall X, (forall l, In l X -> In l U) -> map (genv e ext e0 s) X = map env X).
        { intros X HX. rewrite <- (perm_table_env X U) by auto. rewrite <- (perm_table_env X U env) by auto. unfold U at 2 4. rewrite genv_U by auto. fold U. now rewrite Es. }
        unfold gval. rewrite (EE (eA e)), (EE (eB e)) by (apply gUA || apply gUB). unfold einstein. cbn. ring.
      + intros i Hi Hne. exfalso. unfold consistent in HdC. rewrite HdC in Hi. assert (Hlen := inb_length _ _ Hi). rewrite map_length in Hlen.
        assert (Em : map (upds (eC e) i e0) (eC e) = i) by (apply upds_map; auto).
        apply (Hne (upds (eC e) i e0)); auto. apply env_ok_map. now rewrite Em.
      + intros z Hz. apply H2. intros Ho. apply in_map_iff in Ho as (s & <- & Hs). apply zrange_in in Hs. apply (Hz (idx s)); auto.
  Qed.
End Free.
