(** * L_TileGemv: lemmas about a tiled matrix times a vector. *)
From Coq Require Import List ZArith Lia Bool Permutation Ring.
From Verif Require Import Base Heap Conc M_Addr M_Elt M_Einsum M_Blas M_Block M_Tiled S_Addr S_Einsum S_Blas S_Block S_Tiled
  L_Addr L_Elt L_Einsum L_Blas L_Block L_Tiled T_Blas L_TGemm.
From Verif Require Import M_TileConc.
Import ListNotations.
Open Scope Z_scope.

Lemma one : forall l d, inb l [d] -> exists p, l = [p] /\ 0 <= p < d.
Proof. intros [|p l] d H; inversion H as [|p0 d0 l0 ds0 Hp Hl]; subst. inversion Hl; subst. eauto. Qed.

Section TGemv.
  Context {O : Ops} (HR : is_ring O).
  Variables (TA : bool) (alpha beta : car O) (A : tt) (si sk : list Z) (a : list Z -> car O).
  Hypothesis OA : tt_ok A.
  Hypothesis SA : tt_sizes A = if TA then [sk; si] else [si; sk].
  Hypothesis Ni : Forall (fun n => 0 <= n) si.
  Hypothesis Nk : Forall (fun n => 0 <= n) sk.
  Variables (x y : desc) (incx : Z) (xv yv : list Z -> car O).
  Hypothesis VX : vect x (off sk (length sk)) incx.
  Hypothesis VY : vect y (off si (length si)) 1.
  Hypothesis DX : disj y x.
  Hypothesis DA : forall z, cell y z -> ~ tt_cell A z.

  Definition term (p : Z) (ij : Z * Z) : car O :=
    if (off si (Z.to_nat (fst ij)) <=? p) && (p <? off si (S (Z.to_nat (fst ij)))) then
      zsum (nth (Z.to_nat (snd ij)) sk 0) (fun q => omul (op TA a p (off sk (Z.to_nat (snd ij)) + q)) (xv [off sk (Z.to_nat (snd ij)) + q]))
    else o0.
  Definition cur (done : list (Z * Z)) (l : list Z) : car O :=
    oadd (omul alpha (lsum done (term (nth 0 l 0)))) (omul beta (yv [nth 0 l 0])).

  Lemma window_at : forall axis s i v n inc, nth axis (tt_sizes A) [] = s -> (axis < length (tt_sizes A))%nat ->
    Forall (fun n => 0 <= n) s -> 0 <= i < Z.of_nat (length s) ->
    vect v n inc ->
    tile_window A axis i v = mkDesc (dbase v + off s (Z.to_nat i) * inc) [nth (Z.to_nat i) s 0] [inc].
  Proof.
    intros axis s i v n inc Hs Hax HF Hi (E1 & E2 & _). unfold tile_window.
    rewrite (ok_offsets A OA).
    rewrite (nth_indep _ [] (map (off []) (seq 0 (@length Z [])))) by (now rewrite map_length).
    rewrite (map_nth (fun s => map (off s) (seq 0 (length s)))), Hs.
    rewrite (nth_indep _ 0 (off s 0%nat)) by (rewrite map_length, seq_length; lia).
    rewrite (map_nth (off s)), seq_nth by lia. cbn [Nat.add].
    assert (N := off_nonneg s (Z.to_nat i) HF). assert (N2 := nth_nonneg s (Z.to_nat i) HF).
    unfold slice_ranges, tile_extent. rewrite E1, E2. cbn [slice_ranges_loop].
    destruct (Z.ltb_spec (off s (Z.to_nat i) + nth (Z.to_nat i) s 0) 0); [lia|].
    cbn [dotp]. f_equal; [lia|]. f_equal. lia.
  Qed.

  Lemma off_in : forall s i p, Forall (fun n => 0 <= n) s -> (i < length s)%nat -> 0 <= p < nth i s 0 -> 0 <= off s i + p < off s (length s).
  Proof.
    intros s i p HF Hi Hp. assert (N := off_nonneg s i HF). assert (M := off_mono s (S i) (length s) HF ltac:(lia)).
    rewrite off_S in M. lia.
  Qed.

  Lemma gemv_step_spec : forall h done i j,
    0 <= i < Z.of_nat (length si) -> 0 <= j < Z.of_nat (length sk) ->
    tt_holds h A a -> holds h x xv -> holds h y (cur done) ->
    exists h', gemv_step TA alpha A x y (i, j) h = Ok h' /\ holds h' y (cur ((i, j) :: done)) /\
      (forall z, ~ cell y z -> h' z = h z).
  Proof.
    intros h done i j Hi Hj HA HX HY. assert (R := ir_rt O HR).
    assert (ES0 : op_sizes TA A 0 = si) by (unfold op_sizes; rewrite SA; destruct TA; reflexivity).
    assert (Pi := nth_nonneg si (Z.to_nat i) Ni). assert (Pj := nth_nonneg sk (Z.to_nat j) Nk).
    assert (IA := op_in_A TA A si sk SA i j Hi Hj).
    assert (CONS : forall l, cur ((i, j) :: done) l = oadd (omul alpha (term (nth 0 l 0) (i, j))) (cur done l)).
    { intros l. unfold cur. change (lsum ((i, j) :: done) ?g) with (oadd (g (i, j)) (lsum done g)).
      rewrite (Rmul_comm R alpha), (Rdistr_l R), (Rmul_comm R _ alpha), (Rmul_comm R _ alpha). symmetry. apply (Radd_assoc R). }
    assert (SAME : (forall p, 0 <= p < off si (length si) -> term p (i, j) = o0) ->
              exists h', Ok h = Ok h' /\ holds h' y (cur ((i, j) :: done)) /\ (forall z, ~ cell y z -> h' z = h z)).
    { intros HT. exists h. split; auto. split; auto. intros l Hl. rewrite (HY l Hl). f_equal. rewrite CONS.
      destruct VY as (E & _). rewrite E in Hl. apply one in Hl as (p & -> & Hp). cbn [nth].
      rewrite HT, (omul_0_r HR), (Radd_0_l R); auto. }
    unfold gemv_step. cbn [fst snd]. rewrite ES0. unfold tile_extent.
    destruct (Z.eqb_spec (nth (Z.to_nat i) si 0) 0) as [Z0|Z0].
    { apply SAME. intros p Hp. unfold term. cbn [fst snd]. rewrite off_S, Z0.
      destruct (Z.leb_spec (off si (Z.to_nat i)) p); [|reflexivity].
      destruct (Z.ltb_spec p (off si (Z.to_nat i) + 0)); [lia|reflexivity]. }
    rewrite has_tile_inb by auto.
    destruct (find_tile (op_coords TA i j) (tt_tiles A)) as [da|] eqn:Ef; cbn [negb orb].
    2:{ apply SAME. intros p Hp. unfold term. cbn [fst snd].
        destruct (Z.leb_spec (off si (Z.to_nat i)) p); [|reflexivity].
        destruct (Z.ltb_spec p (off si (S (Z.to_nat i)))) as [L|]; [|reflexivity]. cbn [andb]. rewrite off_S in L.
        apply (zsum_zero O HR). intros q Hq.
        replace p with (off si (Z.to_nat i) + (p - off si (Z.to_nat i))) by lia.
        rewrite (missing_A TA A si sk a SA h i j (p - off si (Z.to_nat i)) q); auto; [|lia].
        apply (omul_0_l HR). }
    destruct (has_zero_size A (op_coords TA i j)) eqn:HZ.
    { apply SAME. intros p Hp. unfold term. cbn [fst snd].
      assert (Zj : nth (Z.to_nat j) sk 0 = 0).
      { unfold has_zero_size in HZ. rewrite SA in HZ. unfold op_coords in HZ.
        destruct TA; cbn [tile_dims existsb] in HZ; unfold tile_extent in HZ;
          rewrite (proj2 (Z.eqb_neq _ _) Z0), ?orb_false_r, ?orb_false_l in HZ; now apply Z.eqb_eq in HZ. }
      rewrite Zj. change (zsum 0 ?g) with (@o0 O). destruct (_ && _); reflexivity. }
    rewrite (const_tile_inb A _ da) by auto. cbn [bind].
    rewrite (window_at (if TA then 0 else 1)%nat sk j x (off sk (length sk)) incx); [|rewrite SA; destruct TA; reflexivity|rewrite SA; destruct TA; cbn [length]; lia|auto|auto|exact VX].
    rewrite (window_at (if TA then 1 else 0)%nat si i y (off si (length si)) 1); [|rewrite SA; destruct TA; reflexivity|rewrite SA; destruct TA; cbn [length]; lia|auto|auto|exact VY].
    set (m := nth (Z.to_nat i) si 0) in *. set (n := nth (Z.to_nat j) sk 0) in *.
    set (X := mkDesc (dbase x + off sk (Z.to_nat j) * incx) [n] [incx]). set (Y := mkDesc (dbase y + off si (Z.to_nat i) * 1) [m] [1]).
    assert (AX : forall q, addr X [q] = addr x [off sk (Z.to_nat j) + q]).
    { intros q. unfold addr, X. destruct VX as (_ & E & _). rewrite E. cbn [dbase dstrides dotp]. lia. }
    assert (AY : forall p, addr Y [p] = addr y [off si (Z.to_nat i) + p]).
    { intros p. unfold addr, Y. destruct VY as (_ & E & _). rewrite E. cbn [dbase dstrides dotp]. lia. }
    assert (IX : forall q, 0 <= q < n -> inb [off sk (Z.to_nat j) + q] (ddims x)).
    { intros q Hq. destruct VX as (E & _). rewrite E. apply inb_cons. split; [apply off_in; auto; lia|constructor]. }
    assert (IY : forall p, 0 <= p < m -> inb [off si (Z.to_nat i) + p] (ddims y)).
    { intros p Hp. destruct VY as (E & _). rewrite E. apply inb_cons. split; [apply off_in; auto; lia|constructor]. }
    assert (CY : forall z, cell Y z -> cell y z).
    { intros z (l & Hl & ->). apply one in Hl as (p & -> & Hp). rewrite AY. exists [off si (Z.to_nat i) + p]. auto. }
    destruct (C20_gemv_partial O HR TA alpha o1 da X Y (if TA then n else m) (if TA then m else n) (if TA then m else n) incx 1
      (at_tile a (tt_sizes A) (op_coords TA i j)) (fun l => xv [off sk (Z.to_nat j) + nth 0 l 0])
      (fun l => cur done [off si (Z.to_nat i) + nth 0 l 0]) h) as (h' & E & V & F).
    - destruct TA; auto.
    - destruct TA; auto.
    - auto.
    - unfold op_coords in Ef. destruct TA; (eapply tile_mat; [exact OA|exact SA|reflexivity|exact Ef]).
    - destruct TA; (split; [reflexivity|]; split; [reflexivity|]; apply VX).
    - destruct TA; (split; [reflexivity|]; split; [reflexivity|]; lia).
    - apply (holds_tile O h A a); auto.
    - intros l Hl. apply one in Hl as (q & -> & Hq). rewrite AX. cbn [nth]. apply HX. auto.
    - intros l Hl. apply one in Hl as (p & -> & Hp). rewrite AY. cbn [nth]. apply HY. auto.
    - intros l l' Hl Hl' El. apply (DA (addr Y l)); [apply CY; exists l; auto|]. exists (op_coords TA i j), da. split; auto.
      rewrite El. exists l'. auto.
    - intros l l' Hl Hl' El. apply one in Hl as (p & -> & Hp). apply one in Hl' as (q & -> & Hq).
      rewrite AY, AX in El. exact (DX _ _ (IY p Hp) (IX q Hq) El).
    - rewrite E. exists h'. split; auto. split.
      2:{ intros z Hz. apply F. intros Hc. auto. }
      intros l Hl. rewrite CONS. assert (Hl0 := Hl). destruct VY as (EY & SY & _). rewrite EY in Hl. apply one in Hl as (p & -> & Hp).
      cbn [nth]. unfold term. cbn [fst snd]. rewrite off_S. fold m n.
      destruct (Z.leb_spec (off si (Z.to_nat i)) p) as [L1|L1]; [destruct (Z.ltb_spec p (off si (Z.to_nat i) + m)) as [L2|L2]|]; cbn [andb].
      2,3: rewrite (omul_0_r HR), (Radd_0_l R), F; [apply HY; auto|]; intros (l & Hl & El); apply one in Hl as (p' & -> & Hp');
           rewrite AY in El; unfold addr in El; rewrite SY in El; cbn [dotp] in El; lia.
      replace p with (off si (Z.to_nat i) + (p - off si (Z.to_nat i))) at 1 by lia. rewrite <- AY.
      rewrite V by (destruct TA; lia). f_equal. rewrite (Rmul_1_l R). cbn [nth].
      replace (off si (Z.to_nat i) + (p - off si (Z.to_nat i))) with p by lia. f_equal. f_equal.
      replace (if TA then if TA then n else m else if TA then m else n) with n by (destruct TA; reflexivity).
      apply zsum_ext. intros q Hq. f_equal. rewrite SA. unfold op, op_coords, at_tile.
      destruct TA; cbn [combine map fst snd]; f_equal; f_equal; try lia; f_equal; lia.
  Qed.

  Lemma gemv_loop : forall order h done,
    (forall ij, In ij order -> 0 <= fst ij < Z.of_nat (length si) /\ 0 <= snd ij < Z.of_nat (length sk)) ->
    tt_holds h A a -> holds h x xv -> holds h y (cur done) ->
    exists h', forM order (gemv_step TA alpha A x y) h = Ok h' /\ holds h' y (cur (rev order ++ done)) /\
      (forall z, ~ cell y z -> h' z = h z).
  Proof.
    induction order as [|(i, j) r IH]; intros h done HI HA HX HY; [exists h; auto|].
    destruct (HI (i, j) (or_introl eq_refl)) as (Hi & Hj). cbn [fst snd] in *.
    destruct (gemv_step_spec h done i j Hi Hj HA HX HY) as (h1 & E1 & V1 & F1).
    cbn [forM]. rewrite E1. cbn [bind].
    destruct (IH h1 ((i, j) :: done)) as (h2 & E2 & V2 & F2); auto.
    - intros ij Hij. apply HI. right; auto.
    - apply (holds_frame O h h1 A a OA HA). intros z Hz. apply F1. intros Hc. apply (DA z Hc Hz).
    - intros l Hl. rewrite F1; [apply HX; auto|]. intros (l' & Hl' & El). symmetry in El. apply (DX l' l Hl' Hl). auto.
    - exists h2. split; auto. split; [|intros z Hz; rewrite F2, F1; auto].
      cbn [rev]. rewrite <- app_assoc. exact V2.
  Qed.

  (** All products, in any order. *)
  Lemma cur_all : forall order p, Permutation order (list_prod (zrange (Z.of_nat (length si))) (zrange (Z.of_nat (length sk)))) ->
    0 <= p < off si (length si) ->
    cur (rev order ++ []) [p] =
    oadd (omul alpha (zsum (off sk (length sk)) (fun q => omul (op TA a p q) (xv [q])))) (omul beta (yv [p])).
  Proof.
    intros order p HP Hp. unfold cur. cbn [nth]. f_equal. f_equal. rewrite app_nil_r.
    rewrite (lsum_perm O HR _ _ _ _ (Permutation_trans (Permutation_sym (Permutation_rev order)) HP)).
    assert (LP : forall l m (f : Z * Z -> car O), lsum (list_prod l m) f = lsum l (fun i : Z => lsum m (fun j : Z => f (i, j)))).
    { induction l as [|i l IH]; intros m f; [reflexivity|]. cbn [list_prod]. rewrite (lsum_app O HR), lsum_map, IH. reflexivity. }
    rewrite LP. destruct (off_cover si p Ni Hp) as (k & Hk & Bk).
    rewrite (lsum_single O HR _ _ (Z.of_nat k)).
    - rewrite (zsum_split O HR sk _ _ Nk).
      unfold zrange. rewrite Nat2Z.id, lsum_map. apply lsum_ext. intros j Hj. apply in_seq in Hj.
      unfold term. cbn [fst snd]. rewrite !Nat2Z.id.
      destruct (Z.leb_spec (off si k) p); [|lia]. destruct (Z.ltb_spec p (off si (S k))); [|lia]. reflexivity.
    - apply zrange_NoDup.
    - apply zrange_in. lia.
    - intros i Hi Hne. apply zrange_in in Hi. rewrite (lsum_ext O _ _ _ (fun _ => o0)); [apply (lsum_0 O HR)|].
      intros j _. unfold term. cbn [fst snd].
      destruct (Z.leb_spec (off si (Z.to_nat i)) p) as [L1|]; [|reflexivity].
      destruct (Z.ltb_spec p (off si (S (Z.to_nat i)))) as [L2|]; [|reflexivity]. exfalso.
      assert (Z.to_nat i = k) by (apply (off_unique si p); auto; lia). lia.
  Qed.
End TGemv.
