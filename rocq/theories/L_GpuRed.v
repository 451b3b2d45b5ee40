(** * L_GpuRed: the reduction kernels, one block. *)
From Coq Require Import List ZArith Lia Bool Permutation.
From Verif Require Import Base Heap Conc GpuConc M_Addr M_PyEinsum M_Gpu S_Einsum S_Blas S_Gpu L_Addr L_Einsum L_PyEinsum L_Gpu L_GpuOps.
Import ListNotations.
Open Scope Z_scope.

Lemma par_post : forall T (own : nat -> Z -> Prop) (shared : Z -> Prop) (body : nat -> prog T unit) k (h : heap T) (val : nat -> Z -> option T),
  (forall i j a, own i a -> own j a -> i = j) -> (forall i a, own i a -> ~ shared a) ->
  (forall i, (i < k)%nat -> psafe (own i) shared (body i) h /\ exists g, run (body i) h = Ok (tt, g) /\ forall a, own i a -> g a = val i a) ->
  par_spec (map body (seq 0 k)) h (fun h' =>
    (forall i a, (i < k)%nat -> own i a -> h' a = val i a) /\ (forall a, (forall i, (i < k)%nat -> ~ own i a) -> h' a = h a)).
Proof.
  intros T own shared body k h val Hd Hs Hp.
  assert (HL : length (map body (seq 0 k)) = k) by (now rewrite map_length, seq_length).
  assert (D := par_drf T own shared (map body (seq 0 k)) h (fun i => match run (body i) h with Ok (_, g) => g | _ => h end) Hd Hs).
  destruct D as (D & A).
  - intros i p Hi. assert (Hk : (i < k)%nat) by (rewrite <- HL; apply nth_error_Some; congruence).
    rewrite nth_error_map in Hi. rewrite (nth_error_nth' _ 0%nat) in Hi by (now rewrite seq_length). rewrite seq_nth in Hi by auto.
    injection Hi as <-. cbn [plus]. destruct (Hp i Hk) as (S & g & -> & _). auto.
  - split; auto. intros ps' h' Hst. destruct (D ps' h' Hst) as (H1 & H2 & H3). split; [auto|]. split; [auto|]. intros Hdn.
    destruct (H3 Hdn) as (H4 & H5). rewrite HL in *. split; auto. intros i a Hi Ho. rewrite (H4 i a Hi Ho).
    destruct (Hp i Hi) as (_ & g & -> & V). auto.
Qed.

(** The elements of the first [m] workers. *)
Lemma classes_below : forall m k n, (m <= k)%nat ->
  Permutation (concat (map (strided k n) (seq 0 m))) (filter (fun s => Nat.ltb (Z.to_nat (s mod Z.of_nat k)) m) (zrange n)).
Proof.
  intros m k n. induction m as [|m IH]; intros Hm.
  - cbn [seq map concat]. assert (E : filter (fun s => Nat.ltb (Z.to_nat (s mod Z.of_nat k)) 0) (zrange n) = []); [|rewrite E; auto].
    induction (zrange n); auto.
  - rewrite seq_S, map_app, concat_app. cbn [map concat plus]. rewrite app_nil_r.
    eapply Permutation_trans; [apply Permutation_app_tail, IH; lia|]. unfold strided. clear IH.
    assert (G : forall l, (forall s, In s l -> 0 <= s) -> Permutation (filter (fun s => Nat.ltb (Z.to_nat (s mod Z.of_nat k)) m) l ++ filter (fun x => x mod Z.of_nat k =? Z.of_nat m) l)
       (filter (fun s => Nat.ltb (Z.to_nat (s mod Z.of_nat k)) (S m)) l)).
    { induction l as [|s l IH]; intros Hl; [constructor|]. specialize (IH (fun t Ht => Hl t (or_intror Ht))). cbn [filter].
      assert (B := Z.mod_pos_bound s (Z.of_nat k)).
      destruct (Nat.ltb_spec (Z.to_nat (s mod Z.of_nat k)) m), (Z.eqb_spec (s mod Z.of_nat k) (Z.of_nat m)), (Nat.ltb_spec (Z.to_nat (s mod Z.of_nat k)) (S m)); try lia; auto.
      - cbn [app]. constructor. auto.
      - apply Permutation_sym, Permutation_cons_app, Permutation_sym. auto. }
    apply G. intros s Hs. apply zrange_in in Hs. lia.
Qed.

Section Red.
  Context {O : Ops}.
  Notation T := (car O).
  Variables (op : T -> T -> T) (u : T).
  Hypothesis opC : forall x y, op x y = op y x.
  Hypothesis opA : forall x y z, op x (op y z) = op (op x y) z.
  Hypothesis opU : forall x, op u x = x.

  Lemma opU' : forall x, op x u = x. Proof. intros. now rewrite opC. Qed.
  Lemma fold_all_app : forall X (f : X -> T) l m, fold_all op u f (l ++ m) = op (fold_all op u f l) (fold_all op u f m).
  Proof. intros X f. induction l as [|x l IH]; intros m; cbn [app fold_all fold_right]; [now rewrite opU|]. unfold fold_all in *. now rewrite IH, opA. Qed.
  Lemma fold_all_perm : forall X (f : X -> T) l m, Permutation l m -> fold_all op u f l = fold_all op u f m.
  Proof.
    intros X f l m H. induction H as [|x l m H IH|x y l|l m r H1 IH1 H2 IH2]; [reflexivity|unfold fold_all in *; cbn [fold_right]; now rewrite IH| |congruence].
    unfold fold_all. cbn [fold_right]. rewrite !opA. f_equal. apply opC.
  Qed.
  Lemma fold_all_map : forall X Y (g : X -> Y) (f : Y -> T) l, fold_all op u f (map g l) = fold_all op u (fun x => f (g x)) l.
  Proof. intros. unfold fold_all. induction l; cbn [map fold_right]; congruence. Qed.
  Lemma fold_all_ext : forall X (f g : X -> T) l, (forall x, In x l -> f x = g x) -> fold_all op u f l = fold_all op u g l.
  Proof. intros X f g l H. unfold fold_all. induction l; cbn [fold_right]; auto. rewrite H, IHl; simpl; auto. intros. apply H. simpl; auto. Qed.
  Lemma fold_all_concat : forall X (f : X -> T) (g : nat -> list X) l, fold_all op u (fun w => fold_all op u f (g w)) l = fold_all op u f (concat (map g l)).
  Proof. intros X f g l. induction l as [|x l IH]; auto. cbn [map concat]. rewrite fold_all_app, <- IH. reflexivity. Qed.

  Variables (d : desc) (W out : Z) (k : nat) (a : list Z -> T).
  Hypothesis Hk : (0 < k)%nat.
  Hypothesis NN : nonneg (ddims d).
  Hypothesis WO : forall w, (w < k)%nat -> W + Z.of_nat w <> out.
  Hypothesis DW : forall w, (w < k)%nat -> ~ cell d (W + Z.of_nat w).
  Hypothesis DO : ~ cell d out.
  Let n := zprod (ddims d).
  Let f := fun s => a (cm_index (ddims d) s).
  Let p := fun w => fold_all op u f (strided k n w).

  (** Adding up one worker's elements in its cell. *)
  Lemma first_loop : forall (own shared : Z -> Prop) c l (h : heap T) v, own c -> (forall s, In s l -> 0 <= s < n) ->
    (forall z, cell d z -> shared z /\ z <> c) -> holds h d a -> h c = Some v ->
    let body := fun s => PRd c (fun v => PRd (addr d (cm_index (ddims d) s)) (fun u => PWr c (op v u) (PRet tt))) in
    psafe own shared (pseq l body) h /\ exists g, run (pseq l body) h = Ok (tt, g) /\ g c = Some (op v (fold_all op u f l)) /\ (forall z, z <> c -> g z = h z).
  Proof.
    intros own shared c l. induction l as [|s l IH]; intros h v Oc Hl Hsh Hd Hv body.
    - cbn [pseq psafe run]. split; auto. exists h. unfold fold_all. cbn [fold_right]. rewrite opU'. auto.
    - assert (Hi := cm_inb _ _ NN (Hl s (or_introl eq_refl))). set (z := addr d (cm_index (ddims d) s)).
      destruct (Hsh z) as (Hz1 & Hz2). { exists (cm_index (ddims d) s). auto. }
      assert (Ez : h z = Some (f s)) by (apply Hd; auto).
      assert (Hv' : upd h c (op v (f s)) c = Some (op v (f s))) by (now rewrite upd_same).
      destruct (IH (upd h c (op v (f s))) (op v (f s)) Oc) as (S & g & E & V & F); auto.
      { intros. apply Hl. simpl; auto. }
      { intros i Hj. rewrite upd_other; [apply Hd; auto|]. apply Hsh. exists i. auto. }
      fold body in S, E. change (pseq (s :: l) body) with (PRd c (fun x => PRd z (fun y => PWr c (op x y) (pseq l body)))). cbn [psafe run]. split.
      + split; auto. exists v. split; auto. split; auto. exists (f s). split; auto. split; auto. split; eauto.
      + rewrite Hv, Ez. exists g. split; [exact E|]. split.
        * rewrite V. f_equal. unfold fold_all. cbn [fold_right]. now rewrite opA.
        * intros y Hy. rewrite F, upd_other; auto.
  Qed.

  Lemma first_phase : forall (h : heap T), holds h d a -> (forall w, (w < k)%nat -> h (W + Z.of_nat w) <> None) -> h out <> None ->
    par_spec (map (reduce_first op u d W out k) (seq 0 k)) h (fun h' =>
      (forall w, (w < k)%nat -> h' (W + Z.of_nat w) = Some (p w)) /\ h' out <> None /\
      (forall z, z <> out -> (forall w, (w < k)%nat -> z <> W + Z.of_nat w) -> h' z = h z)).
  Proof.
    intros h Hd HW Ho. eapply par_spec_mono; [|apply (par_post T (fun i z => (i < k)%nat /\ (z = W + Z.of_nat i \/ (i = 0%nat /\ z = out))) (cell d) _ k h
       (fun i z => if z =? out then Some o0 else Some (p i)))].
    - intros h' (V & F). split; [|split].
      + intros w Hw. rewrite (V w) by auto. destruct (Z.eqb_spec (W + Z.of_nat w) out) as [E|E]; auto. exfalso. apply (WO w Hw E).
      + rewrite (V 0%nat) by auto. rewrite Z.eqb_refl. discriminate.
      + intros z H1 H2. apply F. intros i Hi (_ & [->|(_ & ->)]); [apply (H2 i); auto|auto].
    - intros i j z (Hi & [Ei|(Ei & Ei')]) (Hj & [Ej|(Ej & Ej')]); try lia.
      + exfalso. apply (WO i Hi). congruence.
      + exfalso. apply (WO j Hj). congruence.
    - intros i z (Hi & [->|(_ & ->)]); auto.
    - intros w Hw. set (own := fun z => (w < k)%nat /\ (z = W + Z.of_nat w \/ (w = 0%nat /\ z = out))). unfold reduce_first.
      set (c := W + Z.of_nat w). assert (Oc : own c) by (split; auto).
      assert (Hc : exists v, h c = Some v). { destruct (h c) eqn:E; eauto. exfalso. apply (HW w Hw E). }
      assert (Hl : forall s, In s (strided k n w) -> 0 <= s < n). { intros s Hs. apply filter_In in Hs as (Hs & _). now apply zrange_in. }
      assert (Hcell : forall z, cell d z -> cell d z /\ z <> c). { intros z Hz. split; auto. intros ->. apply (DW w Hw Hz). }
      assert (Wc : c <> out) by (apply WO; auto).
      assert (Hd' : holds (upd h c u) d a). { intros i Hi. rewrite upd_other; [apply Hd; auto|]. apply Hcell. exists i. auto. }
      cbn [psafe run]. fold c. destruct (Nat.eqb_spec w 0) as [E0|E0]; cbn [pbind psafe run].
      + destruct (first_loop own (cell d) c (strided k n w) (upd (upd h c u) out o0) u Oc Hl Hcell) as (S & g & E & V & F).
        { intros i Hi. rewrite upd_other; [apply Hd'; auto|]. intros E. apply DO. exists i. auto. }
        { rewrite upd_other by auto. now rewrite upd_same. }
        destruct (h out) as [v|] eqn:Eo; [|congruence]. split.
        * split; auto. split; auto. split; [split; auto|]. split; [|exact S]. rewrite upd_other by auto. eauto.
        * destruct Hc as (v0 & ->). rewrite upd_other by auto. rewrite Eo. exists g. split; [exact E|].
          intros z (_ & [->|(_ & ->)]).
          -- fold c. destruct (Z.eqb_spec c out); [congruence|]. rewrite V. now rewrite opU.
          -- rewrite Z.eqb_refl, F by auto. now rewrite upd_same.
      + destruct (first_loop own (cell d) c (strided k n w) (upd h c u) u Oc Hl Hcell Hd') as (S & g & E & V & F); [now rewrite upd_same|].
        split; [split; auto|]. destruct Hc as (v0 & ->). exists g. split; [exact E|].
        intros z (_ & [->|(E1 & _)]); [|contradiction]. fold c. destruct (Z.eqb_spec c out); [congruence|]. rewrite V. now rewrite opU.
  Qed.

  (** What the cell [i] holds after the rounds below [r]. *)
  Let G := fun r i => fold_all op u p (seq i (Nat.min (2 ^ r) (k - i))).
  Definition after (r : nat) (h : heap T) : Prop :=
    (forall w, (w < k)%nat -> h (W + Z.of_nat w) <> None) /\ (forall w, (w * 2 ^ r < k)%nat -> h (W + Z.of_nat (w * 2 ^ r)) = Some (G r (w * 2 ^ r))).

  Lemma round_phase : forall r (h : heap T), after r h ->
    par_spec (map (reduce_round op W k r) (seq 0 k)) h (fun h' => after (S r) h' /\
      (forall z, (forall w, (w < k)%nat -> z <> W + Z.of_nat w) -> h' z = h z)).
  Proof.
    intros r h (HW & HG).
    set (q := (2 ^ r)%nat). assert (Hq : (0 < q)%nat) by (apply Nat.neq_0_lt_0, Nat.pow_nonzero; lia).
    assert (Eq : (2 ^ S r = 2 * q)%nat) by (apply Nat.pow_succ_r'). 
    eapply par_spec_mono; [|apply (par_post T (fun i z => (i * (2 * q) < k)%nat /\ z = W + Z.of_nat (i * (2 * q)))
       (fun z => exists i, z = W + Z.of_nat (i * (2 * q) + q)) _ k h (fun i _ => Some (G (S r) (i * (2 * q)))))].
    - intros h' (V & F). split; [split|].
      + intros w Hw E. assert (C : {i | w = (i * (2 * q))%nat} + {forall i, w <> (i * (2 * q))%nat}).
        { destruct (Nat.eq_dec (w mod (2 * q)) 0) as [M|M].
          - left. exists (w / (2 * q))%nat. rewrite (Nat.div_mod w (2 * q)) at 1 by lia. rewrite M. lia.
          - right. intros i ->. apply M. apply Nat.mod_mul. lia. }
        destruct C as [(i & Ei)|C].
        * rewrite (V i) in E; [discriminate|nia|]. split; congruence.
        * rewrite F in E; [apply (HW w Hw E)|]. intros i Hi (_ & Ez). apply (C i). lia.
      + intros w Hw. rewrite Eq in *. rewrite (V w) by (try split; nia). reflexivity.
      + intros z Hz. apply F. intros i Hi (Hi2 & ->). apply (Hz (i * (2 * q))%nat); auto.
    - intros i j z (_ & ->) (_ & E). nia.
    - intros i z (_ & ->) (j & E). assert (E' : (i * (2 * q) = j * (2 * q) + q)%nat) by lia.
      assert (q * (2 * i) = q * (2 * j + 1))%nat by lia. apply Nat.mul_cancel_l in H; lia.
    - intros i Hi. unfold reduce_round. rewrite Nat.add_1_r, Eq. fold q.
      destruct (Nat.ltb_spec (i * (2 * q)) k) as [Li|Li]; cbn [andb].
      + assert (Ei : h (W + Z.of_nat (i * (2 * q))) = Some (G r (i * (2 * q)))).
        { replace (i * (2 * q))%nat with ((2 * i) * q)%nat in * by lia. apply HG. fold q. lia. }
        destruct (Nat.ltb_spec (i * (2 * q) + q) k) as [Ln|Ln].
        * assert (En : h (W + Z.of_nat (i * (2 * q) + q)) = Some (G r (i * (2 * q) + q))).
          { replace (i * (2 * q) + q)%nat with ((2 * i + 1) * q)%nat in * by lia. apply HG. fold q. lia. }
          cbn [psafe run]. rewrite Ei, En. split.
          -- split; [left; auto|]. eexists. split; [reflexivity|]. split; [right; eauto|]. eexists. split; [reflexivity|].
             split; [auto|]. split; [eauto|exact I].
          -- eexists. split; [reflexivity|]. intros z (_ & ->). rewrite upd_same. f_equal. unfold G. fold q. rewrite Eq.
             rewrite <- fold_all_app.
             replace (Nat.min q (k - i * (2 * q))) with q by lia.
             replace (Nat.min (2 * q) (k - i * (2 * q)))%nat with (q + Nat.min q (k - (i * (2 * q) + q)))%nat by lia.
             now rewrite seq_app.
        * cbn [psafe run]. split; auto. eexists. split; [reflexivity|]. intros z (_ & ->). rewrite Ei. f_equal. unfold G. fold q. rewrite Eq.
          do 2 f_equal. lia.
      + cbn [psafe run]. split; auto. eexists. split; [reflexivity|]. intros z (Hc & _). lia.
  Qed.

  Lemma last_phase : forall v (h : heap T), h W = Some v -> h out <> None ->
    par_spec (map (reduce_last (O := O) W out) (seq 0 k)) h (fun h' => h' out = Some v /\ (forall z, z <> out -> h' z = h z)).
  Proof.
    intros v h Hv Ho. assert (WO0 := WO 0%nat Hk). rewrite Z.add_0_r in WO0.
    eapply par_spec_mono; [|apply (par_post T (fun i z => i = 0%nat /\ z = out) (fun z => z = W) _ k h (fun _ _ => Some v))].
    - intros h' (V & F). split; [apply (V 0%nat); auto|]. intros z Hz. apply F. intros i _ (_ & E). auto.
    - intros i j z (-> & _) (-> & _). auto.
    - intros i z (_ & ->) E. auto.
    - intros i Hi. unfold reduce_last. destruct (Nat.eqb_spec i 0) as [->|E]; cbn [psafe run].
      + rewrite Hv. destruct (h out) as [w|] eqn:Eo; [|congruence]. split.
        * split; auto. exists v. split; auto. split; auto. split; eauto.
        * eexists. split; [reflexivity|]. intros z (_ & ->). now rewrite upd_same.
      + split; auto. exists h. split; auto. intros z (E' & _). contradiction.
  Qed.

  Lemma reduce_block : forall (h : heap T), holds h d a -> (forall w, (w < k)%nat -> h (W + Z.of_nat w) <> None) -> h out <> None ->
    grid_spec (launch 1 k (reduce_kernel op u d W out)) h (fun h' =>
      h' out = Some (fold_all op u f (filter (fun s => Nat.ltb (Z.to_nat (s mod Z.of_nat k)) (2 ^ reduce_rounds k)) (zrange n))) /\
      (forall z, z <> out -> (forall w, (w < k)%nat -> z <> W + Z.of_nat w) -> h' z = h z)).
  Proof.
    intros h Hd HW Ho.
    set (R := reduce_rounds k).
    assert (HR : (2 ^ R <= k)%nat).
    { unfold R, reduce_rounds. destruct (Nat.log2_spec k Hk) as (H1 & _). eapply Nat.le_trans; [|exact H1]. apply Nat.pow_le_mono_r; lia. }
    rewrite (launch_one k _ ((fun w => lift1 (reduce_first op u d W out k w)) ::
       map (fun s w => lift1 (reduce_round op W k s w)) (seq 0 R) ++ [fun w => lift1 (reduce_last (O := O) W out w)])).
    2: { intros w. unfold reduce_kernel. cbn [map]. rewrite map_app, map_map. reflexivity. }
    apply one_block_spec; [destruct k; [lia|discriminate]|discriminate|]. cbn [phases_spec].
    rewrite <- (map_map (reduce_first op u d W out k) lift1). apply lift_pool. eapply par_spec_mono; [|apply first_phase; auto].
    intros h1 (V1 & Ho1 & F1).
    assert (A0 : after 0 h1).
    { split; [intros w Hw; rewrite V1 by auto; discriminate|]. intros w Hw. cbn [Nat.pow] in *. rewrite Nat.mul_1_r in *. rewrite V1 by auto. f_equal.
      unfold G. cbn [Nat.pow]. replace (Nat.min 1 (k - w)) with 1%nat by lia. cbn [seq]. change (fold_all op u p [w]) with (op (p w) u). now rewrite opU'. }
    assert (Loop : forall m r h2, after r h2 -> h2 out <> None -> (r + m = R)%nat ->
       (forall z, z <> out -> (forall w, (w < k)%nat -> z <> W + Z.of_nat w) -> h2 z = h z) ->
       phases_spec (seq 0 k) (map (fun s w => lift1 (reduce_round op W k s w)) (seq r m) ++ [fun w => lift1 (reduce_last (O := O) W out w)]) h2
       (fun h' => h' out = Some (fold_all op u f (filter (fun s => Nat.ltb (Z.to_nat (s mod Z.of_nat k)) (2 ^ R)) (zrange n))) /\
          (forall z, z <> out -> (forall w, (w < k)%nat -> z <> W + Z.of_nat w) -> h' z = h z))).
    { induction m as [|m IH]; intros r h2 A2 Ho2 Er F2; cbn [seq map app phases_spec].
      - replace r with R in * by lia. rewrite <- (map_map (reduce_last (O := O) W out) lift1). apply lift_pool.
        eapply par_spec_mono; [|apply (last_phase (G R 0)); auto].
        + intros h' (V & F). split.
          * rewrite V. f_equal. unfold G. replace (Nat.min (2 ^ R) (k - 0)) with (2 ^ R)%nat by lia. unfold p. rewrite fold_all_concat.
            apply fold_all_perm. apply classes_below. lia.
          * intros z Hz1 Hz2. rewrite F by auto. apply F2; auto.
        + destruct A2 as (_ & A2). specialize (A2 0%nat). rewrite Nat.mul_0_l, Z.add_0_r in A2. apply A2. lia.
      - rewrite <- (map_map (reduce_round op W k r) lift1). apply lift_pool. eapply par_spec_mono; [|apply round_phase; eauto].
        intros h3 (A3 & F3). apply IH; auto; try lia.
        + rewrite F3; auto. intros w Hw E. apply (WO w Hw). auto.
        + intros z Hz1 Hz2. rewrite F3 by auto. apply F2; auto. }
    apply (Loop R 0%nat h1); auto.
  Qed.
End Red.
