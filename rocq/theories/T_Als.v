(** * T_Als: C72. *)
From Coq Require Import List ZArith Lia Bool Permutation.
From Verif Require Import Base Heap M_Addr S_Addr L_Addr S_Fold L_Fold L_Generic S_Decomp M_Als S_Als.
Import ListNotations.
Open Scope Z_scope.

Section Als.
  Context {O : Ops} (HR : is_ring O).
  Notation T := (car O).
  Notation ten := (list Z -> car O).
  Add Ring R : (ir_rt O HR).

  (** ** One row: least squares *)
  Lemma row_pythagoras : forall R X Y (J : list (list Z)) (om t : list Z -> T) (P : list Z -> Z -> T),
    (forall s, 0 <= s < R ->
       zsum R (fun r => omul (X r) (lsum J (fun j => omul (omul (om j) (om j)) (omul (P j r) (P j s))))) =
       lsum J (fun j => omul (omul (om j) (om j)) (omul (t j) (P j s)))) ->
    forall rho,
    let e Z j := omul (omul rho (om j)) (osub (t j) (zsum R (fun r => omul (Z r) (P j r)))) in
    lsum J (fun j => omul (e Y j) (e Y j)) =
    oadd (lsum J (fun j => omul (e X j) (e X j)))
         (lsum J (fun j => let q := omul (omul rho (om j)) (zsum R (fun r => omul (osub (X r) (Y r)) (P j r))) in omul q q)).
  Proof.
    intros R X Y J om t P HX rho e.
    set (dl := fun j => zsum R (fun r => omul (osub (X r) (Y r)) (P j r))).
    set (ee := fun j => osub (t j) (zsum R (fun r => omul (X r) (P j r)))).
    assert (D : forall j, osub (t j) (zsum R (fun r => omul (Y r) (P j r))) = oadd (ee j) (dl j)).
    { intros j. unfold ee, dl.
      assert (E : zsum R (fun r => omul (X r) (P j r)) = oadd (zsum R (fun r => omul (Y r) (P j r))) (zsum R (fun r => omul (osub (X r) (Y r)) (P j r)))).
      { unfold zsum. rewrite <- (lsum_add O HR). apply (lsum_ext O). intros r _. ring. }
      rewrite E. ring. }
    assert (S0 : forall s, 0 <= s < R -> lsum J (fun j => omul (omul (om j) (om j)) (omul (ee j) (P j s))) = o0).
    { intros s Hs. assert (H := HX s Hs).
      assert (E : lsum J (fun j => omul (omul (om j) (om j)) (omul (t j) (P j s))) =
         oadd (lsum J (fun j => omul (omul (om j) (om j)) (omul (ee j) (P j s))))
              (lsum J (fun j => omul (omul (om j) (om j)) (omul (zsum R (fun r => omul (X r) (P j r))) (P j s))))).
      { rewrite <- (lsum_add O HR). apply (lsum_ext O). intros j _. unfold ee. ring. }
      assert (E2 : lsum J (fun j => omul (omul (om j) (om j)) (omul (zsum R (fun r => omul (X r) (P j r))) (P j s))) =
         zsum R (fun r => omul (X r) (lsum J (fun j => omul (omul (om j) (om j)) (omul (P j r) (P j s)))))).
      { rewrite (lsum_ext O _ J _ (fun j => lsum (zrange R) (fun r => omul (X r) (omul (omul (om j) (om j)) (omul (P j r) (P j s)))))).
        - rewrite (lsum_swap O HR _ _ J). unfold zsum. apply (lsum_ext O). intros r _. apply (lsum_mul_l O HR).
        - intros j _. unfold zsum. rewrite <- (lsum_mul_r O HR), <- (lsum_mul_l O HR). apply (lsum_ext O). intros r _. ring. }
      rewrite E2, H in E. set (a := lsum J (fun j => omul (omul (om j) (om j)) (omul (t j) (P j s)))) in *.
      set (b := lsum J (fun j => omul (omul (om j) (om j)) (omul (ee j) (P j s)))) in *.
      replace b with (osub (oadd b a) a) by ring. rewrite <- E. ring. }
    assert (C0 : lsum J (fun j => omul (omul (om j) (om j)) (omul (ee j) (dl j))) = o0).
    { rewrite (lsum_ext O _ J _ (fun j => lsum (zrange R) (fun r => omul (osub (X r) (Y r)) (omul (omul (om j) (om j)) (omul (ee j) (P j r)))))).
      - rewrite (lsum_swap O HR _ _ J). rewrite (lsum_ext O _ (zrange R) _ (fun _ => o0)); [apply (lsum_0 O HR)|].
        intros r Hr. apply zrange_in in Hr. rewrite (lsum_mul_l O HR), S0 by auto. ring.
      - intros j _. unfold dl, zsum. rewrite <- (lsum_mul_l O HR), <- (lsum_mul_l O HR). apply (lsum_ext O). intros r _. ring. }
    rewrite (lsum_ext O _ J (fun j => omul (e Y j) (e Y j)) (fun j => oadd (oadd (omul (e X j) (e X j))
        (let q := omul (omul rho (om j)) (dl j) in omul q q)) (omul (oadd (omul rho rho) (omul rho rho)) (omul (omul (om j) (om j)) (omul (ee j) (dl j)))))).
    - rewrite (lsum_add O HR), (lsum_add O HR), (lsum_mul_l O HR), C0.
      match goal with |- oadd (oadd ?A ?B) _ = oadd _ ?B' => change B' with B end. ring.
    - intros j _. unfold e. rewrite D. fold (ee j). cbv zeta. ring.
  Qed.

  (** ** What one pass over the other factors builds *)
  Definition gp (ms : list (Z * ten)) (r s : Z) : T := fold_left (fun a m => omul a (gram (fst m) (snd m) [r; s])) ms o1.

  Lemma gp_app : forall a b r s, gp (a ++ b) r s = omul (gp a r s) (gp b r s).
  Proof.
    intros a b r s. unfold gp. rewrite fold_left_app.
    assert (G : forall (c : list (Z * ten)) (x : T), fold_left (fun a m => omul a (gram (fst m) (snd m) [r; s])) c x = omul x (fold_left (fun a m => omul a (gram (fst m) (snd m) [r; s])) c o1)).
    { induction c as [|m c IH]; intros x; simpl; [ring|]. rewrite (IH (omul x _)), (IH (omul o1 _)). ring. }
    apply G.
  Qed.

  (** The factor as used in [V]. *)
  Definition wfac (w : option ten) (m : nat) (F : ten) : ten := match w, m with Some w, 0%nat => weigh w F | _, _ => F end.
  Fixpoint wfacs (w : option ten) (m : nat) (ms : list (Z * ten)) : list (Z * ten) :=
    match ms with [] => [] | (d, F) :: r => (d, wfac w m F) :: wfacs w (S m) r end.

  Definition pass_inv (done doneW : list (Z * ten)) (st : option (ten * ten * Z)) : Prop :=
    match done with
    | [] => st = None /\ doneW = []
    | _ => exists V KR, st = Some (V, KR, zprod (map fst done)) /\
        (forall j r, inb j (map fst done) -> KR [rowcode (map fst done) j; r] = elems_prod (map snd done) j (repeat r (length j))) /\
        (forall r s, V [r; s] = gp doneW r s)
    end.

  Lemma elems_prod_app : forall (fa fb : list ten) ja jb ra rb, length fa = length ja -> length ja = length ra ->
    elems_prod (fa ++ fb) (ja ++ jb) (ra ++ rb) = omul (elems_prod fa ja ra) (elems_prod fb jb rb).
  Proof.
    induction fa as [|f fa IH]; intros fb [|i ja] jb [|r ra] rb L1 L2; simpl in *; try discriminate; [ring|].
    rewrite IH by lia. ring.
  Qed.

  Lemma pass_step : forall done doneW st d F Fw, pass_inv done doneW st -> Forall (fun d => 0 < d) (map fst done) -> 0 < d ->
    pass_inv (done ++ [(d, F)]) (doneW ++ [(d, Fw)])
      (match st with None => Some (gram d Fw, F, d) | Some (V, KR, rows) => Some (hadamard V (gram d Fw), khatri d KR F, rows * d) end).
  Proof.
    intros done doneW st d F Fw H HP Hd. destruct done as [|x done].
    - destruct H as (-> & ->). simpl. exists (gram d Fw), F. split; [do 2 f_equal; lia|]. split.
      + intros j r Hj. inversion Hj as [|i ? j' ? Hi Hj']; subst. inversion Hj'; subst. simpl.
        replace (i * 1 + 0) with i by lia. ring.
      + intros r s. unfold gp. cbn [fold_left fst snd]. ring.
    - cbn [pass_inv] in H. destruct H as (V & KR & -> & HK & HV).
      set (l := x :: done) in *. assert (NE : l ++ [(d, F)] <> []) by (unfold l; discriminate). clearbody l.
      assert (G : exists V' KR', Some (hadamard V (gram d Fw), khatri d KR F, zprod (map fst l) * d) = Some (V', KR', zprod (map fst (l ++ [(d, F)]))) /\
        (forall j r, inb j (map fst (l ++ [(d, F)])) -> KR' [rowcode (map fst (l ++ [(d, F)])) j; r] = elems_prod (map snd (l ++ [(d, F)])) j (repeat r (length j))) /\
        (forall r s, V' [r; s] = gp (doneW ++ [(d, Fw)]) r s)).
      { exists (hadamard V (gram d Fw)), (khatri d KR F). split; [|split].
        - do 2 f_equal. rewrite map_app, zprod_app. simpl. lia.
        - intros j r Hj. rewrite map_app in *. cbn [map fst] in *.
          assert (Lj := inb_length _ _ Hj). rewrite app_length in Lj. simpl in Lj.
          destruct (exists_last (l := j)) as (j0 & i & ->). { intros ->. simpl in Lj. lia. }
          rewrite app_length in Lj. simpl in Lj.
          apply inb_app_inv in Hj; [|lia]. destruct Hj as (Hj0 & Hi). inversion Hi as [|? ? ? ? Hi0 _]; subst.
          rewrite rowcode_app by (simpl; lia). simpl zprod. simpl rowcode. unfold khatri. cbn [nth].
          replace (rowcode (map fst l) j0 * (d * 1) + (i * 1 + 0)) with (i + rowcode (map fst l) j0 * d) by ring.
          rewrite Z.div_add, Z.mod_add, Z.div_small, Z.mod_small, Z.add_0_l by lia.
          rewrite HK by auto. rewrite map_app, app_length, repeat_app. cbn [map snd length repeat].
          rewrite elems_prod_app; [simpl; ring| |now rewrite repeat_length].
          rewrite map_length. rewrite map_length in Lj. lia.
        - intros r s. unfold hadamard. rewrite HV, gp_app. unfold gp at 3. cbn [fold_left fst snd]. ring. }
      unfold pass_inv. destruct (l ++ [(d, F)]); [congruence|exact G].
  Qed.

  Lemma pass_other : forall n w ms m st done doneW, (forall k, (m <= k < m + length ms)%nat -> k <> n) ->
    pass_inv done doneW st -> Forall (fun d => 0 < d) (map fst done) -> Forall (fun d => 0 < d) (map fst ms) ->
    pass_inv (done ++ ms) (doneW ++ wfacs w m ms) (als_pass n m w ms st).
  Proof.
    intros n w ms. induction ms as [|(d, F) ms IH]; intros m st done doneW Hn HI HP HM; cbn [als_pass wfacs].
    - now rewrite !app_nil_r.
    - destruct (Nat.eqb_spec m n); [exfalso; apply (Hn m); simpl; lia|].
      inversion HM as [|? ? H1 H2]; subst. simpl in H1.
      change (match w, m with Some w0, 0%nat => weigh w0 F | _, _ => F end) with (wfac w m F).
      replace (done ++ (d, F) :: ms) with ((done ++ [(d, F)]) ++ ms) by (now rewrite <- app_assoc).
      replace (doneW ++ (d, wfac w m F) :: wfacs w (S m) ms) with ((doneW ++ [(d, wfac w m F)]) ++ wfacs w (S m) ms) by (now rewrite <- app_assoc).
      apply IH; auto.
      + intros k Hk. apply Hn. simpl. lia.
      + apply pass_step; auto.
      + rewrite map_app. apply Forall_app. split; auto. repeat constructor. auto.
  Qed.

  Lemma als_pass_app : forall n w a b m st, als_pass (O := O) n m w (a ++ b) st = als_pass n (m + length a) w b (als_pass n m w a st).
  Proof.
    intros n w a. induction a as [|(d, F) a IH]; intros b m st; simpl; [now rewrite Nat.add_0_r|].
    rewrite IH. f_equal. lia.
  Qed.

  Lemma pass_spec : forall w pre d F post, Forall (fun d => 0 < d) (map fst (pre ++ post)) ->
    pass_inv (pre ++ post) (wfacs w 0 pre ++ wfacs w (S (length pre)) post) (als_pass (length pre) 0 w (pre ++ (d, F) :: post) None).
  Proof.
    intros w pre d F post HP. rewrite map_app in HP. apply Forall_app in HP as (H1 & H2).
    rewrite als_pass_app. cbn [als_pass Nat.add]. rewrite Nat.eqb_refl.
    apply pass_other; auto; [intros k Hk; lia|].
    apply (pass_other (length pre) w pre 0 None [] []); auto; [intros k Hk; lia|split; auto|constructor].
  Qed.

  Lemma gp_sum : forall (ms : list (Z * ten)) r s,
    gp ms r s = lsum (indices (map fst ms)) (fun j => omul (elems_prod (map snd ms) j (repeat r (length j))) (elems_prod (map snd ms) j (repeat s (length j)))).
  Proof.
    induction ms as [|(d, F) ms IH]; intros r s.
    - unfold gp. simpl. ring.
    - change ((d, F) :: ms) with ([(d, F)] ++ ms). rewrite gp_app. cbn [app map fst snd]. rewrite (lsum_indices_cons O HR), IH.
      unfold gp at 1. cbn [fold_left fst snd]. unfold gram. cbn [nth].
      replace (omul o1 (zsum d (fun i => omul (F [i; r]) (F [i; s])))) with (zsum d (fun i => omul (F [i; r]) (F [i; s]))) by ring.
      unfold zsum at 1. rewrite <- (lsum_mul_r O HR). unfold zsum. apply (lsum_ext O). intros i _.
      rewrite <- (lsum_mul_l O HR). apply (lsum_ext O). intros j _. cbn [length repeat elems_prod]. ring.
  Qed.

  (** ** Sums over all positions as rows and columns of the unfolding *)
  Lemma lsum_insert : forall pd d qd (f : list Z -> T),
    lsum (indices (pd ++ d :: qd)) f = zsum d (fun i => lsum (indices (pd ++ qd)) (fun j => f (insert (length pd) i j))).
  Proof.
    induction pd as [|p pd IH]; intros d qd f; cbn [app length].
    - rewrite (lsum_indices_cons O HR). reflexivity.
    - rewrite (lsum_indices_cons O HR). unfold zsum.
      rewrite (lsum_ext O _ (zrange d) _ (fun i => lsum (zrange p) (fun k => lsum (indices (pd ++ qd)) (fun j => f (k :: insert (length pd) i j))))).
      + rewrite (lsum_swap O HR _ _ (zrange d)). apply (lsum_ext O). intros k _. rewrite IH. reflexivity.
      + intros i _. rewrite (lsum_indices_cons O HR). reflexivity.
  Qed.

  Lemma elems_prod_insert : forall (pf : list ten) (F : ten) qf n i j r, length pf = n -> length j = (n + length qf)%nat ->
    elems_prod (pf ++ F :: qf) (insert n i j) (repeat r (length (insert n i j))) =
    omul (F [i; r]) (elems_prod (pf ++ qf) j (repeat r (length j))).
  Proof.
    intros pf F qf n i j r Ln Lj. unfold insert. rewrite app_length. cbn [length]. rewrite repeat_app. cbn [repeat].
    assert (L1 : length (firstn n j) = n) by (rewrite firstn_length; lia).
    rewrite elems_prod_app by (rewrite ?repeat_length; lia). cbn [elems_prod].
    rewrite <- (firstn_skipn n j) at 5 6. rewrite app_length, repeat_app.
    rewrite elems_prod_app by (rewrite ?repeat_length; lia). ring.
  Qed.

  Lemma put_app : forall A (a : list A) x y b, put (length a) x (a ++ y :: b) = a ++ x :: b.
  Proof. induction a as [|z a IH]; intros x y b; simpl; auto. now rewrite IH. Qed.

  Lemma combine_app : forall A B (a : list A) (b : list B) a' b', length a = length b -> combine (a ++ a') (b ++ b') = combine a b ++ combine a' b'.
  Proof. induction a as [|x a IH]; intros [|y b] a' b' L; simpl in *; try discriminate; auto. now rewrite IH by lia. Qed.
  Lemma map_fst_combine : forall A B (a : list A) (b : list B), length a = length b -> map fst (combine a b) = a.
  Proof. induction a as [|x a IH]; intros [|y b] L; simpl in *; try discriminate; auto. now rewrite IH by lia. Qed.
  Lemma map_snd_combine : forall A B (a : list A) (b : list B), length a = length b -> map snd (combine a b) = b.
  Proof. induction a as [|x a IH]; intros [|y b] L; simpl in *; try discriminate; auto. now rewrite IH by lia. Qed.
  Lemma wfacs_fst : forall w ms m, map fst (wfacs w m ms) = map fst ms.
  Proof. intros w. induction ms as [|(d, F) ms IH]; intros m; simpl; auto. now rewrite IH. Qed.
  Lemma wfacs_pos : forall w ms m, (0 < m)%nat -> wfacs w m ms = ms.
  Proof.
    intros w. induction ms as [|(d, F) ms IH]; intros m Hm; simpl; auto. rewrite IH by lia. f_equal. f_equal.
    unfold wfac. destruct w; auto. destruct m; [lia|auto].
  Qed.

  (** Weight of an element: [rho] from the row, [om] from the column. *)
  Notation wof := (weight_of (O := O)).
  Definition rho (w : option ten) (n : nat) (i : Z) : T := match n with 0%nat => wof w i | _ => o1 end.
  Definition om (w : option ten) (n : nat) (j : list Z) : T := match n with 0%nat => o1 | _ => wof w (hd 0 j) end.

  Lemma weight_split : forall w n i j, (n <= length j)%nat -> wof w (hd 0 (insert n i j)) = omul (rho w n i) (om w n j).
  Proof.
    intros w [|n] i j Hn; unfold insert, rho, om; simpl; [ring|]. destruct j as [|x j]; [simpl in Hn; lia|]. simpl. ring.
  Qed.

  Lemma misfit_rows : forall w pd d qd pf F qf R t, length pf = length pd -> length qf = length qd ->
    misfit (wof w) (pd ++ d :: qd) R t (pf ++ F :: qf) =
    zsum d (fun i => lsum (indices (pd ++ qd)) (fun j =>
      let e := omul (omul (rho w (length pd) i) (om w (length pd) j))
                 (osub (t (insert (length pd) i j)) (zsum R (fun r => omul (F [i; r]) (elems_prod (pf ++ qf) j (repeat r (length j))))))
      in omul e e)).
  Proof.
    intros w pd d qd pf F qf R t L1 L2. unfold misfit. rewrite lsum_insert. apply (zsum_ext O). intros i Hi.
    apply (lsum_ext O). intros j Hj. apply in_indices, inb_length in Hj. rewrite app_length in Hj.
    rewrite weight_split by lia. unfold cp_value.
    rewrite (zsum_ext O R _ (fun r => omul (F [i; r]) (elems_prod (pf ++ qf) j (repeat r (length j))))); [reflexivity|].
    intros r Hr. apply elems_prod_insert; auto. lia.
  Qed.

  Lemma lsum_nonneg : forall (P : T -> Prop), nonnegatives P -> forall A (l : list A) f, (forall x, In x l -> P (f x)) -> P (lsum l f).
  Proof.
    intros P (P0 & Pa & _) A l f. induction l as [|x l IH]; intros H; simpl; auto. apply Pa; [apply H; now left|]. apply IH. intros; apply H; now right.
  Qed.

  (** The update of factor [n]. *)
  Lemma update_spec : forall gesv pd d qd R t w pf F qf info Fs',
    solver gesv -> length pf = length pd -> length qf = length qd -> Forall (fun d => 0 < d) (pd ++ d :: qd) ->
    als_update gesv (pd ++ d :: qd) R t w (length pd) (pf ++ F :: qf) = Ok (info, Fs') ->
    exists X, Fs' = pf ++ X :: qf /\
    (info = 0 -> forall Y, misfit (wof w) (pd ++ d :: qd) R t (pf ++ Y :: qf) =
       oadd (misfit (wof w) (pd ++ d :: qd) R t (pf ++ X :: qf))
            (zsum d (fun i => lsum (indices (pd ++ qd)) (fun j =>
               let q := omul (omul (rho w (length pd) i) (om w (length pd) j))
                             (zsum R (fun r => omul (osub (X [i; r]) (Y [i; r])) (elems_prod (pf ++ qf) j (repeat r (length j)))))
               in omul q q)))).
  Proof.
    intros gesv pd d qd R t w pf F qf info Fs' HS L1 L2 HP HU. unfold als_update in HU.
    assert (HPo : Forall (fun d => 0 < d) (pd ++ qd)).
    { apply Forall_app in HP as (H1 & H2). inversion H2; subst. apply Forall_app. auto. }
    assert (EC : combine (pd ++ d :: qd) (pf ++ F :: qf) = combine pd pf ++ (d, F) :: combine qd qf).
    { rewrite combine_app by auto. reflexivity. }
    assert (Lc : length (combine pd pf) = length pd) by (rewrite combine_length; lia).
    assert (Eo : map fst (combine pd pf ++ combine qd qf) = pd ++ qd).
    { rewrite map_app, !map_fst_combine; auto. }
    assert (Es : map snd (combine pd pf ++ combine qd qf) = pf ++ qf).
    { rewrite map_app, !map_snd_combine; auto. }
    assert (PS := pass_spec w (combine pd pf) d F (combine qd qf)). rewrite Eo in PS. specialize (PS HPo).
    rewrite EC in HU. rewrite Lc in PS.
    destruct (als_pass (length pd) 0 w (combine pd pf ++ (d, F) :: combine qd qf) None) as [((V & KR) & rows)|] eqn:EA; [|discriminate].
    set (doneW := wfacs w 0 (combine pd pf) ++ wfacs w (S (length pd)) (combine qd qf)) in *.
    assert (PI : rows = zprod (pd ++ qd) /\
       (forall j r, inb j (pd ++ qd) -> KR [rowcode (pd ++ qd) j; r] = elems_prod (pf ++ qf) j (repeat r (length j))) /\
       (forall r s, V [r; s] = gp doneW r s)).
    { unfold pass_inv in PS. destruct (combine pd pf ++ combine qd qf) eqn:El; [destruct PS; discriminate|]. rewrite <- El in *.
      destruct PS as (V' & KR' & E' & H1 & H2). rewrite Eo, Es in *. injection E' as -> -> ->. auto. }
    destruct PI as (-> & HK & HV). clear PS EA.
    (* columns of V *)
    assert (EWf : map fst doneW = pd ++ qd).
    { unfold doneW. rewrite map_app, !wfacs_fst, <- map_app. exact Eo. }
    assert (EW : forall j r, inb j (pd ++ qd) -> elems_prod (map snd doneW) j (repeat r (length j)) =
        omul (om w (length pd) j) (elems_prod (pf ++ qf) j (repeat r (length j)))).
    { intros j r Hj. unfold doneW. rewrite (wfacs_pos w (combine qd qf)) by lia. rewrite map_app, (map_snd_combine _ _ qd) by auto.
      destruct pd as [|p pd].
      - destruct pf; [|discriminate]. simpl. unfold om. ring.
      - destruct pf as [|f pf]; [discriminate|]. cbn [combine wfacs map snd]. rewrite wfacs_pos by lia.
        injection L1 as L1. rewrite map_snd_combine by auto. destruct j as [|x j]; [inversion Hj|].
        cbn [app elems_prod length repeat om hd]. unfold wfac, weight_of. destruct w; cbn [weigh nth]; [unfold weigh; cbn [nth]|]; ring. }
    assert (HV2 : forall r s, V [r; s] = lsum (indices (pd ++ qd)) (fun j => omul (omul (om w (length pd) j) (om w (length pd) j))
        (omul (elems_prod (pf ++ qf) j (repeat r (length j))) (elems_prod (pf ++ qf) j (repeat s (length j)))))).
    { intros r s. rewrite HV, gp_sum, EWf. apply (lsum_ext O). intros j Hj. apply in_indices in Hj. rewrite !EW by auto. ring. }
    (* right-hand side *)
    assert (EX : without (length pd) (pd ++ d :: qd) = pd ++ qd).
    { unfold without. rewrite firstn_app, Nat.sub_diag, firstn_all. simpl firstn. rewrite app_nil_r. f_equal. clear. induction pd; simpl; auto. }
    set (B := fun ir => zsum (zprod (pd ++ qd)) (fun k => omul (als_unfolding (pd ++ d :: qd) t w (length pd) [nth 0 ir 0; k]) (KR [k; nth 1 ir 0]))) in *.
    assert (HB : forall i s, B [i; s] = lsum (indices (pd ++ qd)) (fun j => omul (omul (om w (length pd) j) (om w (length pd) j))
        (omul (t (insert (length pd) i j)) (elems_prod (pf ++ qf) j (repeat s (length j)))))).
    { intros i s. unfold B. cbn [nth].
      assert (HN : Forall (fun d => 0 <= d) (pd ++ qd)) by (eapply Forall_impl; [|exact HPo]; simpl; lia).
      rewrite <- (lsum_perm O HR _ _ _ _ (dec_perm (pd ++ qd) HN)). rewrite (lsum_map O). apply (zsum_ext O). intros k Hk.
      set (j := dec (pd ++ qd) k). assert (Hj : inb j (pd ++ qd)) by (apply rm_sti_inb; auto).
      assert (Ek : rowcode (pd ++ qd) j = k). { rewrite rowcode_dotp by (now apply inb_length). apply rm_sti_ordinal; auto. }
      assert (EU : als_unfolding (pd ++ d :: qd) t w (length pd) [i; k] = omul (omul (om w (length pd) j) (om w (length pd) j)) (t (insert (length pd) i j))).
      { assert (EU0 : forall u : ten, unfolded (pd ++ d :: qd) u (length pd) [i; k] = u (insert (length pd) i j)).
        { intros u. unfold unfolded. cbn [nth]. rewrite EX. reflexivity. }
        unfold als_unfolding. destruct w as [w|].
        - destruct pd as [|p pd]; cbn [length] in *; rewrite EU0; cbn [om]; [ring|].
          unfold weigh, weight_of. destruct j as [|x j]; [inversion Hj|]. unfold insert. cbn [firstn app nth hd]. ring.
        - rewrite EU0. unfold om, weight_of. destruct (length pd); ring. }
      assert (HKk := HK j s Hj). rewrite Ek in HKk. rewrite EU, HKk. fold j. ring. }
    rewrite app_nth2, Nat.sub_diag in HU by lia. cbn [nth] in HU.
    destruct (gesv R d V B) as (info', X) eqn:EG. injection HU as <- <-.
    exists X. rewrite <- L1 at 1. rewrite put_app. split; auto. intros Hinfo Y.
    rewrite !misfit_rows by auto. unfold zsum at 1 3 5. rewrite <- (lsum_add O HR). apply (lsum_ext O). intros i Hi. apply zrange_in in Hi.
    apply (row_pythagoras R (fun r => X [i; r]) (fun r => Y [i; r]) (indices (pd ++ qd)) (om w (length pd)) (fun j => t (insert (length pd) i j))
       (fun j r => elems_prod (pf ++ qf) j (repeat r (length j)))).
    intros s Hs. rewrite <- HB. rewrite <- (HS R d V B _ X EG Hinfo i s Hi Hs). apply (zsum_ext O). intros r Hr. now rewrite HV2.
  Qed.

  Lemma split_at : forall A n (l : list A), (n < length l)%nat -> exists a x b, l = a ++ x :: b /\ length a = n.
  Proof.
    intros A n l Hn. destruct (nth_error l n) as [x|] eqn:E; [|apply nth_error_None in E; lia].
    destruct (nth_error_split l n E) as (a & b & -> & L). eauto.
  Qed.

  Lemma at_most_trans : forall (P : T -> Prop), nonnegatives P -> forall x y z, at_most P x y -> at_most P y z -> at_most P x z.
  Proof.
    intros P (_ & Pa & _) x y z H1 H2. unfold at_most in *. replace (osub z x) with (oadd (osub y x) (osub z y)) by ring. auto.
  Qed.
  Lemma at_most_refl : forall (P : T -> Prop), nonnegatives P -> forall x, at_most P x x.
  Proof. intros P (P0 & _) x. unfold at_most. replace (osub x x) with (@o0 O) by ring. auto. Qed.

  Lemma update_best : forall (P : T -> Prop) gesv dims R t w n Fs info Fs', nonnegatives P -> solver gesv ->
    length Fs = length dims -> Forall (fun d => 0 < d) dims -> (n < length dims)%nat ->
    als_update gesv dims R t w n Fs = Ok (info, Fs') ->
    exists X, Fs' = put n X Fs /\ (info = 0 -> forall Y, at_most P (misfit (wof w) dims R t Fs') (misfit (wof w) dims R t (put n Y Fs))).
  Proof.
    intros P gesv dims R t w n Fs info Fs' HP HS HL HD Hn HU.
    destruct (split_at _ n dims Hn) as (pd & d & qd & -> & Ln). destruct (split_at _ n Fs ltac:(lia)) as (pf & F & qf & -> & Lf).
    subst n. assert (L2 : length qf = length qd) by (rewrite !app_length in HL; simpl in HL; lia).
    destruct (update_spec gesv pd d qd R t w pf F qf info Fs' HS Lf L2 HD HU) as (X & -> & HX).
    exists X. rewrite <- Lf at 1. rewrite put_app. split; auto. intros Hi Y.
    rewrite <- Lf at 1. rewrite put_app. rewrite (HX Hi Y). unfold at_most.
    match goal with |- P (osub (oadd ?a ?b) ?a) => replace (osub (oadd a b) a) with b by ring end.
    apply (lsum_nonneg P HP). intros i _. apply (lsum_nonneg P HP). intros j _. apply HP.
  Qed.

  Lemma put_same : forall A n (l : list A) d, put n (nth n l d) l = l.
  Proof. induction n as [|n IH]; intros [|x l] d; simpl; auto. now rewrite IH. Qed.
  Lemma put_length : forall A n x (l : list A), length (put n x l) = length l.
  Proof. induction n as [|n IH]; intros x [|y l]; simpl; auto. Qed.
  Lemma put_nth : forall A n x (l : list A) m d, m <> n -> nth m (put n x l) d = nth m l d.
  Proof. induction n as [|n IH]; intros x [|y l] [|m] d H; simpl; auto; try congruence. Qed.

  Lemma put_nth_same : forall A n x (l : list A) d, (n < length l)%nat -> nth n (put n x l) d = x.
  Proof. induction n as [|n IH]; intros x [|y l] d H; simpl in *; try lia; auto. apply IH. lia. Qed.

  Lemma sweep_down : forall (P : T -> Prop) gesv dims R t w, nonnegatives P -> solver gesv -> Forall (fun d => 0 < d) dims ->
    forall k n Fs infos Fs', length Fs = length dims -> (n + k <= length dims)%nat ->
    als_sweep gesv dims R t w k n Fs = Ok (infos, Fs') ->
    length Fs' = length dims /\ length infos = k /\
    (Forall (eq 0) infos -> at_most P (misfit (wof w) dims R t Fs') (misfit (wof w) dims R t Fs)).
  Proof.
    intros P gesv dims R t w HP HS HD. induction k as [|k IH]; intros n Fs infos Fs' HL Hn HU; cbn [als_sweep] in HU.
    - injection HU as <- <-. split; auto. split; auto. intros _. now apply at_most_refl.
    - destruct (als_update gesv dims R t w n Fs) as [(info, F1)| |] eqn:E1; try discriminate. cbn [bind fst snd] in HU.
      destruct (als_sweep gesv dims R t w k (S n) F1) as [(is, F2)| |] eqn:E2; try discriminate. cbn [bind fst snd] in HU. injection HU as <- <-.
      destruct (update_best P gesv dims R t w n Fs info F1 HP HS HL HD ltac:(lia) E1) as (X & EX & H1).
      destruct (IH (S n) F1 is F2 ltac:(subst F1; now rewrite put_length) ltac:(lia) E2) as (L2 & L3 & H2).
      split; auto. split; [simpl; lia|]. intros HF. inversion HF; subst.
      apply (at_most_trans P HP _ (misfit (wof w) dims R t (put n X Fs))); auto.
      assert (A := H1 eq_refl (nth n Fs (fun _ => o0))). now rewrite put_same in A.
  Qed.

  Lemma loop_down : forall (P : T -> Prop) gesv dims R t w err small from, nonnegatives P -> solver gesv -> Forall (fun d => 0 < d) dims ->
    forall fuel iter prev Fs infos Fs', length Fs = length dims ->
    als_loop gesv dims R t w err small from fuel iter prev Fs = Ok (infos, Fs') ->
    length Fs' = length dims /\ (length infos <= fuel * length dims)%nat /\
    (Forall (eq 0) infos -> at_most P (misfit (wof w) dims R t Fs') (misfit (wof w) dims R t Fs)).
  Proof.
    intros P gesv dims R t w err small from HP HS HD. induction fuel as [|fuel IH]; intros iter prev Fs infos Fs' HL HU; cbn [als_loop] in HU.
    - injection HU as <- <-. split; auto. split; auto. intros _. now apply at_most_refl.
    - destruct (als_sweep gesv dims R t w (length dims) 0 Fs) as [(is, F1)| |] eqn:E1; try discriminate. cbn [bind fst snd] in HU.
      destruct (sweep_down P gesv dims R t w HP HS HD (length dims) 0%nat Fs is F1 HL ltac:(lia) E1) as (L1 & L1' & H1).
      destruct (Nat.leb from iter && small (err (cp_value R F1)) prev).
      + injection HU as <- <-. split; auto. split; [simpl; lia|auto].
      + destruct (als_loop gesv dims R t w err small from fuel (S iter) (err (cp_value R F1)) F1) as [(js, F2)| |] eqn:E2; try discriminate.
        cbn [bind fst snd] in HU. injection HU as <- <-.
        destruct (IH _ _ _ _ _ L1 E2) as (L2 & L2' & H2). split; auto. split; [rewrite app_length; simpl; lia|].
        intros HF. apply Forall_app in HF as (F1' & F2'). eapply (at_most_trans P HP); eauto.
  Qed.

  Lemma update_defined : forall gesv dims R t w n Fs, length Fs = length dims -> (2 <= length dims)%nat -> (n < length dims)%nat ->
    Forall (fun d => 0 < d) dims -> exists r, als_update (O := O) gesv dims R t w n Fs = Ok r.
  Proof.
    intros gesv dims R t w n Fs HL H2 Hn HD.
    destruct (split_at _ n dims Hn) as (pd & d & qd & -> & Ln). destruct (split_at _ n Fs ltac:(lia)) as (pf & F & qf & -> & Lf).
    subst n. assert (L2 : length qf = length qd) by (rewrite !app_length in HL; simpl in HL; lia).
    assert (HPo : Forall (fun d => 0 < d) (pd ++ qd)).
    { apply Forall_app in HD as (H3 & H4). inversion H4; subst. apply Forall_app. auto. }
    unfold als_update. rewrite combine_app by auto. cbn [combine].
    assert (PS := pass_spec w (combine pd pf) d F (combine qd qf)). rewrite map_app, !map_fst_combine in PS by auto. specialize (PS HPo).
    rewrite combine_length, Lf, Nat.min_id in PS.
    destruct (als_pass (length pd) 0 w (combine pd pf ++ (d, F) :: combine qd qf) None) as [((V & KR) & rows)|].
    - match goal with |- context [gesv ?a ?b ?c ?e] => destruct (gesv a b c e) end. eauto.
    - exfalso. unfold pass_inv in PS. destruct (combine pd pf ++ combine qd qf) eqn:El.
      + apply (f_equal (@length _)) in El. rewrite app_length, !combine_length in El. rewrite app_length in H2. simpl in *. lia.
      + destruct PS as (? & ? & ? & _). discriminate.
  Qed.
  Lemma sweep_defined : forall gesv dims R t w, (2 <= length dims)%nat -> Forall (fun d => 0 < d) dims ->
    forall k n Fs, length Fs = length dims -> (n + k <= length dims)%nat -> exists r, als_sweep (O := O) gesv dims R t w k n Fs = Ok r /\ length (snd r) = length dims.
  Proof.
    intros gesv dims R t w H2 HD. induction k as [|k IH]; intros n Fs HL Hn; cbn [als_sweep]; [eexists; split; [reflexivity|auto]|].
    destruct (update_defined gesv dims R t w n Fs HL H2 ltac:(lia) HD) as ((info & F1) & E). rewrite E. cbn [bind fst snd].
    assert (L1 : length F1 = length dims).
    { unfold als_update in E. destruct (als_pass n 0 w (combine dims Fs) None) as [((V & KR) & rows)|]; [|discriminate].
      match type of E with context [gesv ?a ?b ?c ?e] => destruct (gesv a b c e) end. injection E as <- <-. now rewrite put_length. }
    destruct (IH (S n) F1 L1 ltac:(lia)) as (r & E2 & L2). rewrite E2. cbn [bind]. eexists. split; [reflexivity|auto].
  Qed.
End Als.

(** C72.  One update with a successful solve: the other factors stay as they are,
    and no other choice of this factor fits the tensor better (with or without weights). *)
Theorem C72_update_partial : forall (O : Ops), is_ring O -> forall (P : car O -> Prop) gesv dims R t w n Fs Fs',
  nonnegatives P -> solver gesv -> length Fs = length dims -> Forall (fun d => 0 < d) dims -> (n < length dims)%nat ->
  als_update gesv dims R t w n Fs = Ok (0, Fs') ->
  (forall m, m <> n -> nth_error Fs' m = nth_error Fs m) /\
  forall Gs, length Gs = length Fs -> (forall m, m <> n -> nth_error Gs m = nth_error Fs m) ->
    at_most P (misfit (weight_of w) dims R t Fs') (misfit (weight_of w) dims R t Gs).
Proof.
  intros O HR P gesv dims R t w n Fs Fs' HP HS HL HD Hn HU.
  destruct (update_best HR P gesv dims R t w n Fs 0 Fs' HP HS HL HD Hn HU) as (X & EX & H).
  assert (PE : forall x m, m <> n -> nth_error (put n x Fs) m = nth_error Fs m).
  { intros x m Hm. destruct (Nat.lt_ge_cases m (length Fs)).
    - rewrite !(nth_error_nth' _ X) by (rewrite ?put_length; auto). now rewrite put_nth.
    - rewrite !(proj2 (nth_error_None _ _)) by (rewrite ?put_length; auto). auto. }
  split; [intros m Hm; subst; auto|]. intros Gs LG HG.
  replace Gs with (put n (nth n Gs X) Fs); [now apply H|].
  apply (nth_ext _ _ X X); [rewrite put_length; auto|]. intros m Hm. rewrite put_length in Hm.
  destruct (Nat.eq_dec m n) as [->|Hne].
  - now apply put_nth_same.
  - rewrite put_nth by auto. assert (A := HG m Hne). rewrite !(nth_error_nth' _ X) in A by lia. now injection A as ->.
Qed.
Print Assumptions C72_update_partial.

(** The whole iteration, from any starting factors: it ends after at most
    [n_iter_max] sweeps, and when every solve on the way succeeded the result fits the tensor at least
    as well as the starting factors. *)
Theorem C72_iteration_partial : forall (O : Ops), is_ring O -> forall (P : car O -> Prop) gesv dims R t w err small from n_iter_max prev Fs,
  nonnegatives P -> solver gesv -> length Fs = length dims -> (2 <= length dims)%nat -> Forall (fun d => 0 < d) dims ->
  exists infos Fs', als_loop gesv dims R t w err small from n_iter_max 0 prev Fs = Ok (infos, Fs') /\
    length Fs' = length dims /\ (length infos <= n_iter_max * length dims)%nat /\
    (Forall (eq 0) infos -> at_most P (misfit (weight_of w) dims R t Fs') (misfit (weight_of w) dims R t Fs)).
Proof.
  intros O HR P gesv dims R t w err small from fuel prev Fs HP HS HL H2 HD.
  assert (D : forall fuel iter prev Fs, length Fs = length dims -> exists r, als_loop gesv dims R t w err small from fuel iter prev Fs = Ok r).
  { clear fuel prev Fs HL. induction fuel as [|fuel IH]; intros iter prev Fs HL; cbn [als_loop]; [eauto|].
    destruct (sweep_defined HR gesv dims R t w H2 HD (length dims) 0 Fs HL ltac:(lia)) as (r & E & L). rewrite E. cbn [bind].
    destruct (Nat.leb from iter && small (err (cp_value R (snd r))) prev); [eauto|].
    destruct (IH (S iter) (err (cp_value R (snd r))) (snd r) L) as (q & Eq). rewrite Eq. cbn [bind]. eauto. }
  destruct (D fuel 0%nat prev Fs HL) as ((infos & Fs') & E). exists infos, Fs'. split; auto.
  eapply loop_down; eauto.
Qed.
Print Assumptions C72_iteration_partial.

Lemma sweep_last : forall (O : Ops) gesv dims R t w k n Fs infos Fs', als_sweep (O := O) gesv dims R t w (S k) n Fs = Ok (infos, Fs') ->
  exists F0 info, In info infos /\ als_update gesv dims R t w (n + k) F0 = Ok (info, Fs') /\ (length Fs = length dims -> length F0 = length dims).
Proof.
  intros O gesv dims R t w. induction k as [|k IH]; intros n Fs infos Fs' H; cbn [als_sweep] in H;
    destruct (als_update gesv dims R t w n Fs) as [(info, F1)| |] eqn:E1; try discriminate; cbn [bind fst snd] in H.
  - injection H as <- <-. exists Fs, info. rewrite Nat.add_0_r. split; [now left|auto].
  - destruct (als_update gesv dims R t w (S n) F1) as [(info2, F2)| |] eqn:E2; try discriminate. cbn [bind fst snd] in H.
    destruct (als_sweep gesv dims R t w k (S (S n)) F2) as [(is, F3)| |] eqn:E3; try discriminate. cbn [bind fst snd] in H. injection H as <- <-.
    destruct (IH (S n) F1 (info2 :: is) F3) as (F0 & i0 & I0 & U0 & L0).
    { cbn [als_sweep]. rewrite E2. cbn [bind fst snd]. rewrite E3. reflexivity. }
    exists F0, i0. rewrite <- Nat.add_succ_comm. split; [now right|]. split; auto. intros HL. apply L0.
    unfold als_update in E1. destruct (als_pass n 0 w (combine dims Fs) None) as [((V & KR) & rows)|]; [|discriminate].
    match type of E1 with context [gesv ?a ?b ?c ?e] => destruct (gesv a b c e) end. injection E1 as <- <-. rewrite put_length. auto.
Qed.
Lemma nth_error_same : forall A (a b : list A), (forall m, nth_error a m = nth_error b m) -> a = b.
Proof.
  induction a as [|x a IH]; intros [|y b] H; auto; try (specialize (H 0%nat); discriminate).
  f_equal; [specialize (H 0%nat); simpl in H; congruence|]. apply IH. intros m. apply (H (S m)).
Qed.

(** After at least one sweep with successful solves the last factor is the best
    one for the others returned. *)
Theorem C72_last_partial : forall (O : Ops), is_ring O -> forall (P : car O -> Prop) gesv dims R t w err small from n_iter_max prev Fs infos Fs',
  nonnegatives P -> solver gesv -> length Fs = length dims -> (2 <= length dims)%nat -> Forall (fun d => 0 < d) dims -> (0 < n_iter_max)%nat ->
  als_loop gesv dims R t w err small from n_iter_max 0 prev Fs = Ok (infos, Fs') -> Forall (eq 0) infos ->
  forall Gs, length Gs = length Fs' -> (forall m, m <> (length dims - 1)%nat -> nth_error Gs m = nth_error Fs' m) ->
    at_most P (misfit (weight_of w) dims R t Fs') (misfit (weight_of w) dims R t Gs).
Proof.
  intros O HR P gesv dims R t w err small from fuel prev Fs infos Fs' HP HS HL H2 HD Hf HU HI Gs LG HG.
  assert (D : forall fuel iter prev Fs infos Fs', length Fs = length dims -> (0 < fuel)%nat ->
     als_loop gesv dims R t w err small from fuel iter prev Fs = Ok (infos, Fs') ->
     exists F0 info, In info infos /\ als_update gesv dims R t w (length dims - 1) F0 = Ok (info, Fs') /\ length F0 = length dims).
  { clear Gs LG HG HI HU Hf HL infos Fs' Fs prev fuel.
    induction fuel as [|fuel IH]; intros iter prev Fs infos Fs' HL Hf HU; [lia|]. cbn [als_loop] in HU.
    destruct (als_sweep gesv dims R t w (length dims) 0 Fs) as [(is, F1)| |] eqn:E1; try discriminate. cbn [bind fst snd] in HU.
    assert (SL : length F1 = length dims).
    { eapply (sweep_down HR P gesv dims R t w HP HS HD (length dims) 0 Fs is F1 HL); eauto. }
    assert (SU : exists F0 info, In info is /\ als_update gesv dims R t w (length dims - 1) F0 = Ok (info, F1) /\ length F0 = length dims).
    { replace (length dims) with (S (length dims - 1)) in E1 by lia.
      destruct (sweep_last _ _ _ _ _ _ _ _ _ _ _ E1) as (F0 & i0 & I0 & U0 & L0). exists F0, i0. auto. }
    destruct SU as (F0 & i0 & I0 & U0 & L0).
    destruct (Nat.leb from iter && small (err (cp_value R F1)) prev) eqn:ES.
    - injection HU as <- <-. exists F0, i0. auto.
    - destruct (als_loop gesv dims R t w err small from fuel (S iter) (err (cp_value R F1)) F1) as [(js, F2)| |] eqn:E2; try discriminate.
      cbn [bind fst snd] in HU. injection HU as <- <-. destruct fuel as [|fuel].
      + cbn [als_loop] in E2. injection E2 as <- <-. exists F0, i0. rewrite app_nil_r. auto.
      + destruct (IH _ _ _ _ _ SL ltac:(lia) E2) as (G0 & k0 & K0 & V0 & M0). exists G0, k0. split; [apply in_or_app; auto|auto]. }
  destruct (D _ _ _ _ _ _ HL Hf HU) as (F0 & i0 & I0 & U0 & L0).
  rewrite Forall_forall in HI. specialize (HI _ I0).
  destruct (update_best HR P gesv dims R t w (length dims - 1) F0 i0 Fs' HP HS L0 HD ltac:(lia) U0) as (X & -> & HB).
  specialize (HB (eq_sym HI)).
  rewrite put_length in LG. rewrite L0 in LG.
  destruct (split_at _ (length dims - 1) Gs ltac:(lia)) as (ga & gx & gb & -> & Lg).
  destruct (split_at _ (length dims - 1) F0 ltac:(lia)) as (fa & fx & fb & -> & Lf).
  specialize (HB gx). rewrite <- Lf in HB, HG, Lg |- *. rewrite put_app in HB; rewrite put_app in HB. rewrite put_app in HG. rewrite put_app.
  assert (EQ : ga ++ gx :: gb = fa ++ gx :: fb); [|rewrite EQ; exact HB].
  assert (LB : length gb = length fb) by (rewrite !app_length in L0; rewrite !app_length in LG; simpl in L0, LG; lia).
  f_equal.
  - apply nth_error_same. intros m. destruct (Nat.lt_ge_cases m (length ga)) as [Hm|Hm].
    + specialize (HG m ltac:(lia)). rewrite !nth_error_app1 in HG by lia. auto.
    + rewrite !(proj2 (nth_error_None _ _)) by lia. auto.
  - f_equal. apply nth_error_same. intros m. specialize (HG (length fa + S m)%nat ltac:(lia)).
    rewrite !nth_error_app2 in HG by lia. replace (length fa + S m - length fa)%nat with (S m) in HG by lia.
    replace (length fa + S m - length ga)%nat with (S m) in HG by lia. auto.
Qed.
Print Assumptions C72_last_partial.

(** The error code of the solve is dropped: with a singular normal matrix (here
    rank 2 for a 1 x 1 tensor; gesv reports 1 and leaves the right-hand side) the update turns a
    perfect fit into an error of 36. *)
Theorem C72_singular_refuted :
  let gesv := fun (n k : Z) (V B : list Z -> Z) => (1, B) in
  let F0 := fun l => match l with [0; 0] => 1 | _ => 0 end in
  let F1 := fun l => match l with [0; 0] => 2 | _ => 0 end in
  solver (O := ZOps) gesv /\
  (forall n k V B, 0 < fst (gesv n k V B)) /\
  misfit (O := ZOps) (fun _ => 1) [1; 1] 2 (fun _ => 2) [F0; F1] = 0 /\
  match als_update (O := ZOps) gesv [1; 1] 2 (fun _ => 2) None 0 [F0; F1] with
  | Ok (_, Fs') => misfit (O := ZOps) (fun _ => 1) [1; 1] 2 (fun _ => 2) Fs' = 36
  | _ => False
  end.
Proof.
  cbv zeta. split; [intros n k V B info X E Hi; injection E; intros; subst; discriminate|].
  split; [intros; simpl; lia|]. split; vm_compute; reflexivity.
Qed.
Print Assumptions C72_singular_refuted.

(** A tensor with one mode has no other factor: the update works with
    default-constructed matrices. *)
Theorem C72_one_mode_refuted : forall gesv t F, als_update (O := ZOps) gesv [2] 1 t None 0 [F] = UB.
Proof. reflexivity. Qed.
Print Assumptions C72_one_mode_refuted.

(** ** A case: rank 1, the solver divides when it can. *)
Definition gesv1 (n k : Z) (V B : list Z -> Z) : Z * (list Z -> Z) :=
  if (n =? 1) && forallb (fun i => (B [i; 0] / V [0; 0]) * V [0; 0] =? B [i; 0]) (zrange k)
  then (0, fun ir => B ir / V [0; 0]) else (1, B).
Lemma gesv1_ok : solver (O := ZOps) gesv1.
Proof.
  intros n k V B info X E Hi i s Hk Hs. unfold gesv1 in E.
  destruct ((n =? 1) && forallb (fun i => (B [i; 0] / V [0; 0]) * V [0; 0] =? B [i; 0]) (zrange k)) eqn:C; [|injection E; intros; subst; discriminate].
  apply andb_prop in C as (C1 & C2). apply Z.eqb_eq in C1. subst n. assert (s = 0) by lia. subst s.
  rewrite forallb_forall in C2. specialize (C2 i (proj2 (zrange_in k i) Hk)). apply Z.eqb_eq in C2.
  injection E as <- <-. unfold zsum. simpl. change (B [i; 0] / V [0; 0] * V [0; 0] + 0 = B [i; 0]). lia.
Qed.
Lemma Z_nonnegatives : nonnegatives (O := ZOps) (fun x => 0 <= x).
Proof. split; [|split]; simpl; intros; nia. Qed.
(** t = (2 3) x (1 2), started from (1 1) and (1 2), with weights (1 5). *)
Example C72_case :
  let t := fun l => match l with [i; j] => (2 + i) * (1 + j) | _ => 0 end in
  let F0 := fun _ => 1 in let F1 := fun l => match l with j :: _ => 1 + j | _ => 0 end in
  let w := fun l => match l with [0] => 1 | _ => 5 end in
  match als_loop (O := ZOps) gesv1 [2; 2] 1 t (Some w) (fun _ => 0) (fun _ _ => true) 1 5 0 0 [F0; F1] with
  | Ok (infos, Fs') =>
      (infos, misfit (O := ZOps) (weight_of (O := ZOps) (Some w)) [2; 2] 1 t [F0; F1],
              misfit (O := ZOps) (weight_of (O := ZOps) (Some w)) [2; 2] 1 t Fs',
              map (fun i => nth 0 Fs' F0 [i; 0]) [0; 1]) = ([0; 0; 0; 0], 505, 0, [2; 3])
  | _ => False
  end.
Proof. vm_compute. reflexivity. Qed.
