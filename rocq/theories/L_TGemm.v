(** * L_TGemm: matrix multiplication of tiled matrices, one tile of C. *)
From Coq Require Import List ZArith Lia Bool Permutation Ring.
From Verif Require Import Base Heap Conc M_Addr M_Elt M_Einsum M_Blas M_Block M_Tiled S_Addr S_Einsum S_Blas S_Block S_Tiled
  L_Addr L_Elt L_Einsum L_Blas L_Block L_Tiled T_Blas.
Import ListNotations.
Open Scope Z_scope.

(** ** GEMM on one tile of C *)
Section TGemm.
  Context {O : Ops} (HR : is_ring O).
  Variable al : heap (car O) -> Z -> option Z.
  Hypothesis Hal : al_ok al.
  Variables (TA TB : bool) (alpha beta : car O) (A B : tt) (si sj sk : list Z) (a b : list Z -> car O).
  Hypothesis OA : tt_ok A.
  Hypothesis OB : tt_ok B.
  Hypothesis SA : tt_sizes A = if TA then [sk; si] else [si; sk].
  Hypothesis SB : tt_sizes B = if TB then [sj; sk] else [sk; sj].
  Hypothesis Ni : Forall (fun n => 0 <= n) si.
  Hypothesis Nj : Forall (fun n => 0 <= n) sj.
  Hypothesis Nk : Forall (fun n => 0 <= n) sk.

  Definition inner (x y : Z) (p : Z) : car O := omul (op TA a x p) (op TB b p y).
  Definition gemm_val (c : list Z -> car O) (idx : list Z) : car O :=
    match idx with
    | [x; y] => oadd (omul alpha (zsum (off sk (length sk)) (inner x y))) (omul beta (c [x; y]))
    | _ => o0
    end.

  Lemma op_in_A : forall i k, 0 <= i < Z.of_nat (length si) -> 0 <= k < Z.of_nat (length sk) ->
    inb (op_coords TA i k) (map (fun s => Z.of_nat (length s)) (tt_sizes A)).
  Proof. intros i k Hi Hk. rewrite SA. destruct TA; apply inb2; auto. Qed.
  Lemma op_in_B : forall k j, 0 <= j < Z.of_nat (length sj) -> 0 <= k < Z.of_nat (length sk) ->
    inb (op_coords TB k j) (map (fun s => Z.of_nat (length s)) (tt_sizes B)).
  Proof. intros k j Hj Hk. rewrite SB. destruct TB; apply inb2; auto. Qed.

  (** Windows of missing tiles contribute nothing. *)
  Lemma missing_A : forall h i k x p, tt_holds h A a -> 0 <= i < Z.of_nat (length si) -> 0 <= k < Z.of_nat (length sk) ->
    find_tile (op_coords TA i k) (tt_tiles A) = None ->
    0 <= x < nth (Z.to_nat i) si 0 -> 0 <= p < nth (Z.to_nat k) sk 0 ->
    op TA a (off si (Z.to_nat i) + x) (off sk (Z.to_nat k) + p) = o0.
  Proof.
    intros h i k x p HA Hi Hk Hf Hx Hp. unfold op, op_coords in *.
    assert (H : forall idx j, tile_pos (tt_sizes A) idx (if TA then [k; i] else [i; k]) j -> a idx = o0).
    { intros idx j P. assert (H := HA _ _ _ P). now rewrite Hf in H. }
    rewrite SA in H. destruct TA.
    - apply (H _ [p; x]). repeat constructor; lia.
    - apply (H _ [x; p]). repeat constructor; lia.
  Qed.
  Lemma missing_B : forall h k j p y, tt_holds h B b -> 0 <= j < Z.of_nat (length sj) -> 0 <= k < Z.of_nat (length sk) ->
    find_tile (op_coords TB k j) (tt_tiles B) = None ->
    0 <= y < nth (Z.to_nat j) sj 0 -> 0 <= p < nth (Z.to_nat k) sk 0 ->
    op TB b (off sk (Z.to_nat k) + p) (off sj (Z.to_nat j) + y) = o0.
  Proof.
    intros h k j p y HB Hj Hk Hf Hy Hp. unfold op, op_coords in *.
    assert (H : forall idx q, tile_pos (tt_sizes B) idx (if TB then [j; k] else [k; j]) q -> b idx = o0).
    { intros idx q P. assert (H := HB _ _ _ P). now rewrite Hf in H. }
    rewrite SB in H. destruct TB.
    - apply (H _ [y; p]). repeat constructor; lia.
    - apply (H _ [p; y]). repeat constructor; lia.
  Qed.

  Lemma tile_mat : forall t c d s0 s1 i j, tt_ok t -> tt_sizes t = [s0; s1] -> c = [i; j] -> find_tile c (tt_tiles t) = Some d ->
    mat d (nth (Z.to_nat i) s0 0) (nth (Z.to_nat j) s1 0) (nth (Z.to_nat j) s1 0).
  Proof.
    intros t c d s0 s1 i j Hok Hs -> Hf. destruct (tile_facts t _ d Hok Hf) as (E & D & _). rewrite Hs in *.
    unfold mat. rewrite D. split; [reflexivity|]. split; [|lia]. rewrite E. simpl. unfold row_major_strides. simpl.
    unfold tile_extent. f_equal. lia.
  Qed.

  Lemma absent_zero : forall h i j k x y p, tt_holds h A a -> tt_holds h B b ->
    0 <= i < Z.of_nat (length si) -> 0 <= j < Z.of_nat (length sj) -> 0 <= k < Z.of_nat (length sk) ->
    0 <= x < nth (Z.to_nat i) si 0 -> 0 <= y < nth (Z.to_nat j) sj 0 -> 0 <= p < nth (Z.to_nat k) sk 0 ->
    gemm_present TA TB A B i j k = false ->
    inner (off si (Z.to_nat i) + x) (off sj (Z.to_nat j) + y) (off sk (Z.to_nat k) + p) = o0.
  Proof.
    intros h i j k x y p HA HB Hi Hj Hk Hx Hy Hp. unfold gemm_present.
    assert (IA := op_in_A i k Hi Hk). assert (IB := op_in_B k j Hj Hk).
    rewrite (has_tile_inb A) by auto. rewrite (has_tile_inb B) by auto. unfold inner.
    destruct (find_tile (op_coords TA i k) (tt_tiles A)) as [da|] eqn:Ea; cbn [andb].
    2:{ intros _. rewrite (missing_A h i k x p); auto. apply (omul_0_l HR). }
    destruct (find_tile (op_coords TB k j) (tt_tiles B)) as [db|] eqn:Eb; cbn [andb].
    2:{ intros _. rewrite (missing_B h k j p y); auto. apply (omul_0_r HR). }
    assert (ZA : has_zero_size A (op_coords TA i k) = false).
    { unfold has_zero_size. rewrite SA. unfold op_coords.
      destruct TA; cbn [tile_dims existsb]; unfold tile_extent; rewrite !(proj2 (Z.eqb_neq _ 0)) by lia; reflexivity. }
    assert (ZB : has_zero_size B (op_coords TB k j) = false).
    { unfold has_zero_size. rewrite SB. unfold op_coords.
      destruct TB; cbn [tile_dims existsb]; unfold tile_extent; rewrite !(proj2 (Z.eqb_neq _ 0)) by lia; reflexivity. }
    rewrite ZA, ZB. discriminate.
  Qed.

  (** The accumulation over the inner tiles. *)
  Lemma gemm_inner : forall h i j d (v : list Z -> car O),
    0 <= i < Z.of_nat (length si) -> 0 <= j < Z.of_nat (length sj) ->
    mat d (nth (Z.to_nat i) si 0) (nth (Z.to_nat j) sj 0) (nth (Z.to_nat j) sj 0) ->
    tt_holds h A a -> tt_holds h B b -> (forall z, cell d z -> ~ tt_cell A z) -> (forall z, cell d z -> ~ tt_cell B z) ->
    holds h d v ->
    forall n, (n <= length sk)%nat ->
    exists h', forM (zrange (Z.of_nat n)) (fun k h =>
                 if gemm_present TA TB A B i j k then
                   a <- const_tile A (op_coords TA i k) ;; b <- const_tile B (op_coords TB k j) ;;
                   la_gemm TA TB alpha a b o1 d h
                 else Ok h) h = Ok h' /\
      (forall z, ~ cell d z -> h' z = h z) /\
      holds h' d (fun l => oadd (omul alpha (lsum (seq 0 n) (fun k => zsum (nth k sk 0)
          (fun p => inner (off si (Z.to_nat i) + nth 0 l 0) (off sj (Z.to_nat j) + nth 1 l 0) (off sk k + p))))) (v l)).
  Proof.
    intros h i j d v Hi Hj MD HA HB DA DB HV. assert (R := ir_rt O HR).
    assert (Pi := nth_nonneg si (Z.to_nat i) Ni). assert (Pj := nth_nonneg sj (Z.to_nat j) Nj).
    set (m := nth (Z.to_nat i) si 0) in *. set (nn := nth (Z.to_nat j) sj 0) in *.
    induction n as [|n IH]; intros Hn.
    - exists h. split; [reflexivity|]. split; auto. intros l Hl. rewrite (HV l Hl). cbn [seq lsum]. f_equal.
      unfold lsum. simpl. rewrite (omul_0_r HR), (Radd_0_l R). reflexivity.
    - destruct IH as (h1 & E1 & F1 & V1); [lia|].
      replace (Z.of_nat (S n)) with (Z.of_nat n + 1) by lia. rewrite zrange_succ by lia. rewrite forM_app, E1. cbn [bind forM].
      set (k := Z.of_nat n). assert (Hk : 0 <= k < Z.of_nat (length sk)) by lia.
      assert (Pk := nth_nonneg sk n Nk). assert (En : Z.to_nat k = n) by lia.
      assert (HA1 : tt_holds h1 A a) by (apply (holds_frame O h h1 A a OA HA); intros z Hz; apply F1; intros Hd; apply (DA z Hd Hz)).
      assert (HB1 : tt_holds h1 B b) by (apply (holds_frame O h h1 B b OB HB); intros z Hz; apply F1; intros Hd; apply (DB z Hd Hz)).
      assert (IA := op_in_A i k Hi Hk). assert (IB := op_in_B k j Hj Hk).
      set (acc := fun n (l : list Z) => omul alpha (lsum (seq 0 n) (fun k => zsum (nth k sk 0)
          (fun p => inner (off si (Z.to_nat i) + nth 0 l 0) (off sj (Z.to_nat j) + nth 1 l 0) (off sk k + p))))).
      set (new := fun l : list Z => zsum (nth n sk 0) (fun p => inner (off si (Z.to_nat i) + nth 0 l 0) (off sj (Z.to_nat j) + nth 1 l 0) (off sk n + p))).
      assert (SUM : forall l w, oadd (acc (S n) l) w = oadd (omul alpha (new l)) (oadd (acc n l) w)).
      { intros l w. unfold acc, new. replace (S n) with (n + 1)%nat by lia. rewrite seq_app, (lsum_app O HR).
        change (lsum (seq (0 + n) 1) ?g) with (oadd (g n) (@o0 O)). cbv beta.
        rewrite (Radd_comm R _ o0), (Radd_0_l R).
        rewrite (Rmul_comm R alpha), (Rdistr_l R), (Rmul_comm R _ alpha), (Rmul_comm R _ alpha).
        rewrite (Radd_comm R (omul alpha (lsum _ _))). symmetry. apply (Radd_assoc R). }
      destruct (gemm_present TA TB A B i j k) eqn:GP.
      2:{ exists h1. split; auto. split; auto. intros l Hl. rewrite (V1 l Hl). f_equal. change (oadd (acc n l) (v l) = oadd (acc (S n) l) (v l)).
          rewrite SUM. destruct MD as (DD & _). rewrite DD in Hl. apply inb2_inv in Hl as (x & y & -> & Hx & Hy).
          unfold new. cbn [nth]. rewrite (zsum_zero O HR).
          - rewrite (omul_0_r HR), (Radd_0_l R). reflexivity.
          - intros p Hp. rewrite <- En. apply (absent_zero h1); auto. rewrite En. auto. }
      unfold gemm_present in GP. rewrite (has_tile_inb A), (has_tile_inb B) in GP by auto.
      destruct (find_tile (op_coords TA i k) (tt_tiles A)) as [da|] eqn:Ea; cbn [andb] in GP; [|discriminate].
      destruct (find_tile (op_coords TB k j) (tt_tiles B)) as [db|] eqn:Eb; cbn [andb] in GP; [|discriminate].
      clear GP.
      rewrite (const_tile_inb A _ da) by auto. rewrite (const_tile_inb B _ db) by auto. cbn [bind].
      assert (CA : forall z, cell da z -> tt_cell A z) by (intros z Hz; exists (op_coords TA i k), da; auto).
      assert (CB : forall z, cell db z -> tt_cell B z) by (intros z Hz; exists (op_coords TB k j), db; auto).
      destruct (C19_gemm_partial O HR TA TB alpha o1 da db d m nn (nth n sk 0)
        (if TA then m else nth n sk 0) (if TB then nth n sk 0 else nn) nn
        (at_tile a (tt_sizes A) (op_coords TA i k)) (at_tile b (tt_sizes B) (op_coords TB k j))
        (fun l => oadd (acc n l) (v l)) h1) as (h2 & E2 & V2 & F2); auto.
      + unfold op_coords in Ea. rewrite <- En. unfold m. destruct TA; (eapply tile_mat; [exact OA|exact SA|reflexivity|exact Ea]).
      + unfold op_coords in Eb. rewrite <- En. unfold nn. destruct TB; (eapply tile_mat; [exact OB|exact SB|reflexivity|exact Eb]).
      + apply (holds_tile O h1 A a); auto.
      + apply (holds_tile O h1 B b); auto.
      + intros x y Hx Hy Exy. apply (DA (addr d x)); [exists x; auto|]. apply CA. rewrite Exy. exists y; auto.
      + intros x y Hx Hy Exy. apply (DB (addr d x)); [exists x; auto|]. apply CB. rewrite Exy. exists y; auto.
      + rewrite E2. exists h2. split; auto. split; [intros z Hz; rewrite F2; auto|].
        intros l Hl. change (h2 (addr d l) = Some (oadd (acc (S n) l) (v l))). rewrite SUM.
        destruct MD as (DD & _). rewrite DD in Hl. apply inb2_inv in Hl as (x & y & -> & Hx & Hy).
        rewrite V2 by auto. f_equal. rewrite (Rmul_1_l R). f_equal. f_equal. unfold new. cbn [nth].
        apply zsum_ext. intros p Hp. unfold inner. rewrite SA, SB. unfold op_coords, op, at_tile.
        destruct TA, TB; cbn [combine map fst snd]; rewrite En; reflexivity.
  Qed.

  Lemma gemm_val_tile : forall c i j l v, 0 <= i < Z.of_nat (length si) -> 0 <= j < Z.of_nat (length sj) ->
    inb l [nth (Z.to_nat i) si 0; nth (Z.to_nat j) sj 0] ->
    v = omul beta (at_tile c [si; sj] [i; j] l) ->
    oadd (omul alpha (lsum (seq 0 (length sk)) (fun k => zsum (nth k sk 0)
          (fun p => inner (off si (Z.to_nat i) + nth 0 l 0) (off sj (Z.to_nat j) + nth 1 l 0) (off sk k + p))))) v =
    at_tile (gemm_val c) [si; sj] [i; j] l.
  Proof.
    intros c i j l v Hi Hj Hl ->. apply inb2_inv in Hl as (x & y & -> & Hx & Hy).
    unfold at_tile. cbn [combine map fst snd nth gemm_val]. f_equal. f_equal. symmetry. apply (zsum_split O HR). auto.
  Qed.

  Lemma gemm_val_none : forall h c i j l, tt_holds h A a -> tt_holds h B b ->
    0 <= i < Z.of_nat (length si) -> 0 <= j < Z.of_nat (length sj) ->
    existsb (gemm_present TA TB A B i j) (zrange (Z.of_nat (length sk))) = false ->
    inb l [nth (Z.to_nat i) si 0; nth (Z.to_nat j) sj 0] ->
    at_tile (gemm_val c) [si; sj] [i; j] l = omul beta (at_tile c [si; sj] [i; j] l).
  Proof.
    intros h c i j l HA HB Hi Hj HE Hl. assert (R := ir_rt O HR). rewrite <- (gemm_val_tile c i j l _ Hi Hj Hl eq_refl).
    apply inb2_inv in Hl as (x & y & -> & Hx & Hy). cbn [nth].
    rewrite (lsum_ext O _ _ _ (fun _ => o0)).
    - rewrite (lsum_0 O HR), (omul_0_r HR). apply (Radd_0_l R).
    - intros k Hk. apply in_seq in Hk. apply (zsum_zero O HR). intros p Hp.
      assert (En : Z.to_nat (Z.of_nat k) = k) by lia. rewrite <- En in Hp |- *.
      apply (absent_zero h); auto; [lia|].
      destruct (gemm_present TA TB A B i j (Z.of_nat k)) eqn:E; auto.
      assert (X : existsb (gemm_present TA TB A B i j) (zrange (Z.of_nat (length sk))) = true).
      { apply existsb_exists. exists (Z.of_nat k). split; auto. apply zrange_in. lia. }
      congruence.
  Qed.

  Lemma gemm_tile_spec : forall t h c i j,
    0 <= i < Z.of_nat (length si) -> 0 <= j < Z.of_nat (length sj) ->
    tt_ok t -> tt_sizes t = [si; sj] -> tt_holds h t c -> tt_holds h A a -> tt_holds h B b -> tt_disj t A -> tt_disj t B ->
    ((exists n, al h n = None) /\
      gemm_tile al TA TB alpha A B beta (Z.of_nat (length sk)) [i; j] (t, h) = Throw) \/
    exists t' h', gemm_tile al TA TB alpha A B beta (Z.of_nat (length sk)) [i; j] (t, h) = Ok (t', h') /\
      tt_ok t' /\ tt_sizes t' = [si; sj] /\ tt_holds h' t' (patch [si; sj] c (gemm_val c) [i; j]) /\
      (forall z, tt_cell t' z -> tt_cell t z \/ h z = None) /\
      (forall z, h z <> None -> h' z <> None) /\
      (forall z, h z <> None -> ~ tt_cell t z -> h' z = h z).
  Proof.
    intros t h c i j Hi Hj Hok Hs HC HA HB DA DB. assert (R := ir_rt O HR).
    assert (HF : Forall (Forall (fun n => 0 <= n)) [si; sj]) by (repeat constructor; auto).
    assert (Iij : inb [i; j] (map (fun s => Z.of_nat (length s)) (tt_sizes t))) by (rewrite Hs; apply inb2; auto).
    unfold gemm_tile. cbn [nth fst snd]. cbv zeta.
    destruct (has_zero_size t [i; j]) eqn:HZ.
    { right. exists t, h. split; auto. split; auto. split; auto. split; [|split; [|split]; auto].
      apply (tt_holds_ext O h t c); auto. rewrite Hs. intros idx c' l P. symmetry. apply (patch_out _ _ _ _ _ _ _ _ HF P).
      intros ->. unfold has_zero_size in HZ. rewrite Hs in HZ. cbn [tile_dims existsb] in HZ. unfold tile_extent in HZ.
      destruct (tile_pos_inb _ _ _ _ HF P) as (_ & _ & Ij). cbn [tile_dims] in Ij. unfold tile_extent in Ij.
      apply inb2_inv in Ij as (x & y & _ & Hx & Hy).
      rewrite !(proj2 (Z.eqb_neq _ 0)) in HZ by lia. discriminate. }
    destruct (existsb _ _) eqn:EX.
    - destruct (tile_spec O al h t c [i; j] Hal Hok HC Iij) as [(E1 & E2 & E3)|(d & t1 & h1 & E1 & O1 & H1 & S1 & F1 & F2 & N1 & N2)].
      { left. split; [eauto|]. rewrite E3. reflexivity. }
      right. rewrite E1. cbn [bind fst snd].
      rewrite Hs in S1. destruct (tile_facts t1 [i; j] d O1 F1) as (Ed & Dd & Dne & DN & _). rewrite S1 in *.
      assert (Hd : holds h1 d (at_tile c [si; sj] [i; j])) by (rewrite <- S1; apply (holds_tile O h1 t1); auto).
      assert (MD := tile_mat t1 [i; j] d si sj i j O1 S1 eq_refl F1).
      assert (SC : exists h2, (if oeqb beta o0 || negb (has_tile t [i; j]) then tile_fill o0 d h1 else tile_op omul beta d h1) = Ok h2 /\
                 holds h2 d (fun l => omul beta (at_tile c [si; sj] [i; j] l)) /\ (forall z, ~ cell d z -> h2 z = h1 z)).
      { destruct (oeqb beta o0 || negb (has_tile t [i; j])) eqn:EB.
        - destruct (tile_fill_spec O o0 d _ h1 Ed Dne DN) as (h2 & E2 & V2 & G2); [intros l Hl; eauto|].
          exists h2. split; auto. split; auto. intros l Hl. rewrite (V2 l Hl). f_equal.
          apply orb_true_iff in EB as [EB|EB].
          + apply (ir_eqb O HR) in EB. rewrite EB. symmetry. apply (omul_0_l HR).
          + rewrite has_tile_inb in EB by exact Iij.
            destruct (find_tile [i; j] (tt_tiles t)) eqn:Ef; [discriminate|].
            rewrite Dd in Hl. cbn [tile_dims] in Hl. apply inb2_inv in Hl as (x & y & -> & Hx & Hy).
            assert (Z0 := HC [off si (Z.to_nat i) + x; off sj (Z.to_nat j) + y] [i; j] [x; y]). rewrite Ef in Z0.
            unfold at_tile. cbn [combine map fst snd]. rewrite Z0; [symmetry; apply (omul_0_r HR)|].
            rewrite Hs. apply tp_cons; auto. apply tp_cons; auto. constructor.
        - destruct (tile_op_spec O omul beta d _ _ h1 Ed Dne DN Hd) as (h2 & E2 & V2 & G2).
          exists h2. split; auto. split; auto. intros l Hl. rewrite (V2 l Hl). f_equal. apply (Rmul_comm R). }
      destruct SC as (h2 & E2 & V2 & G2). rewrite E2. cbn [bind].
      assert (CD : forall z, cell d z -> tt_cell t1 z) by (intros z Hz; exists [i; j], d; auto).
      assert (KA : forall z, tt_cell A z -> h2 z = h z /\ ~ cell d z).
      { intros z Hz. assert (Hn := cell_alloc O h A a z OA HA Hz).
        assert (~ cell d z).
        { intros Hd'. destruct (N1 z (CD z Hd')) as [H|H]; [apply (DA z H Hz)|contradiction]. }
        split; auto. rewrite G2 by auto. auto. }
      assert (KB : forall z, tt_cell B z -> h2 z = h z /\ ~ cell d z).
      { intros z Hz. assert (Hn := cell_alloc O h B b z OB HB Hz).
        assert (~ cell d z).
        { intros Hd'. destruct (N1 z (CD z Hd')) as [H|H]; [apply (DB z H Hz)|contradiction]. }
        split; auto. rewrite G2 by auto. auto. }
      destruct (gemm_inner h2 i j d (fun l => omul beta (at_tile c [si; sj] [i; j] l)) Hi Hj MD) with (n := length sk)
        as (h3 & E3 & F3 & V3); auto.
      + apply (holds_frame O h h2 A a OA HA). intros z Hz. apply KA. auto.
      + apply (holds_frame O h h2 B b OB HB). intros z Hz. apply KB. auto.
      + intros z Hz HzA. apply (proj2 (KA z HzA)). auto.
      + intros z Hz HzB. apply (proj2 (KB z HzB)). auto.
      + rewrite E3. cbn [bind]. exists t1, h3. split; auto. split; auto. split; auto. split; [|split].
        * rewrite <- S1. apply (update_patch O h1 h3 t1 c (gemm_val c) [i; j] d); auto.
          -- intros z Hz. rewrite F3, G2; auto.
          -- rewrite S1. intros l Hl. rewrite (V3 l Hl). f_equal. apply gemm_val_tile; auto.
             rewrite Dd in Hl. exact Hl.
        * intros z Hz. auto.
        * split.
          { intros z Hz. destruct (tile_cell_dec d _ z Ed Dne DN) as [(l & Hl & ->)|Hc]; [rewrite (V3 l Hl); discriminate|].
            rewrite F3, G2, N2 by auto. auto. }
          intros z Hz HzC. assert (~ cell d z).
          { intros Hd'. destruct (N1 z (CD z Hd')) as [H|H]; auto. }
          rewrite F3, G2 by auto. auto.
    - right. rewrite has_tile_inb by auto. destruct (find_tile [i; j] (tt_tiles t)) as [d|] eqn:Ef.
      + rewrite (const_tile_inb t [i; j] d) by auto. cbn [bind].
        destruct (tile_facts t [i; j] d Hok Ef) as (Ed & Dd & Dne & DN & _). rewrite Hs in *.
        assert (Hd : holds h d (at_tile c [si; sj] [i; j])) by (rewrite <- Hs; apply (holds_tile O h t); auto).
        assert (SC : exists h2, (if oeqb beta o0 then tile_fill o0 d h else tile_op omul beta d h) = Ok h2 /\
                   holds h2 d (fun l => omul beta (at_tile c [si; sj] [i; j] l)) /\ (forall z, ~ cell d z -> h2 z = h z)).
        { destruct (oeqb beta o0) eqn:EB.
          - destruct (tile_fill_spec O o0 d _ h Ed Dne DN) as (h2 & E2 & V2 & G2); [intros l Hl; eauto|].
            exists h2. split; auto. split; auto. intros l Hl. rewrite (V2 l Hl). f_equal.
            apply (ir_eqb O HR) in EB. rewrite EB. symmetry. apply (omul_0_l HR).
          - destruct (tile_op_spec O omul beta d _ _ h Ed Dne DN Hd) as (h2 & E2 & V2 & G2).
            exists h2. split; auto. split; auto. intros l Hl. rewrite (V2 l Hl). f_equal. apply (Rmul_comm R). }
        destruct SC as (h2 & E2 & V2 & G2). rewrite E2. cbn [bind]. exists t, h2.
        split; auto. split; auto. split; auto. split; [|split; [|split]; auto].
        * rewrite <- Hs. apply (update_patch O h h2 t c (gemm_val c) [i; j] d); auto.
          rewrite Hs. intros l Hl. rewrite (V2 l Hl). f_equal. symmetry. apply (gemm_val_none h); auto.
          rewrite Dd in Hl. exact Hl.
        * intros z Hz. destruct (tile_cell_dec d _ z Ed Dne DN) as [(l & Hl & ->)|Hc]; [rewrite (V2 l Hl); discriminate|].
          rewrite G2 by auto. auto.
        * intros z Hz HzC. apply G2. intros Hc. apply HzC. exists [i; j], d. auto.
      + exists t, h. split; auto. split; auto. split; auto. split; [|split; [|split]; auto].
        intros idx c' l P. rewrite Hs in P. assert (X := HC idx c' l). rewrite Hs in X. specialize (X P).
        destruct (list_eq_dec Z.eq_dec c' [i; j]) as [->|Hne].
        * rewrite Ef in X |- *. rewrite (patch_in _ _ _ _ _ _ _ HF P).
          assert (Y := gemm_val_none h c i j l HA HB Hi Hj EX). rewrite !(at_tile_pos _ _ _ _ _ _ P) in Y.
          rewrite Y, X; [apply (omul_0_r HR)|]. destruct (tile_pos_inb _ _ _ _ HF P) as (_ & _ & Ij). exact Ij.
        * rewrite (patch_out _ _ _ _ _ _ _ _ HF P Hne). exact X.
  Qed.

  (** All tiles, in any order. *)
  Lemma gemm_loop : forall order t h c,
    NoDup order -> (forall ij, In ij order -> inb ij [Z.of_nat (length si); Z.of_nat (length sj)]) ->
    tt_ok t -> tt_sizes t = [si; sj] -> tt_holds h t c -> tt_holds h A a -> tt_holds h B b -> tt_disj t A -> tt_disj t B ->
    ((exists h1 n, al h1 n = None) /\ forM order (gemm_tile al TA TB alpha A B beta (Z.of_nat (length sk))) (t, h) = Throw) \/
    exists t' h', forM order (gemm_tile al TA TB alpha A B beta (Z.of_nat (length sk))) (t, h) = Ok (t', h') /\
      tt_ok t' /\ tt_sizes t' = [si; sj] /\
      tt_holds h' t' (fun idx => if in_dec (list_eq_dec Z.eq_dec) (coord [si; sj] idx) order then gemm_val c idx else c idx) /\
      (forall z, tt_cell t' z -> tt_cell t z \/ h z = None) /\
      (forall z, h z <> None -> h' z <> None) /\
      (forall z, h z <> None -> ~ tt_cell t z -> h' z = h z).
  Proof.
    intros order t h c ND HI Hok Hs HC HA HB DA DB.
    assert (HF : Forall (Forall (fun n => 0 <= n)) [si; sj]) by (repeat constructor; auto).
    destruct (patch_loop (fun ij : list Z => ij) (gemm_tile al TA TB alpha A B beta (Z.of_nat (length sk))) [si; sj]
      (fun idx v => gemm_val (fun _ => v) idx) [(A, a); (B, b)] (exists h1 n, al h1 n = None) order) with (t := t) (h := h) (c := c)
      as [X|(t' & h' & E & O1 & S1 & H1 & N)]; auto.
    - now rewrite map_id.
    - intros ij t0 h0 c' Hij O1 S1 H1 HP.
      destruct (inb2_inv ij _ _ (HI ij Hij)) as (i & j & -> & Hi & Hj).
      inversion HP as [|p l (PA1 & PA2 & PA3) HP']; subst p l. inversion HP' as [|p l (PB1 & PB2 & PB3) _]; subst p l.
      cbn [fst snd] in *.
      destruct (gemm_tile_spec t0 h0 c' i j Hi Hj O1 S1 H1 PA2 PB2 PA3 PB3) as [((n & E1) & E2)|(t1 & h1 & E1 & R1 & R2 & R3 & R4)].
      + left. eauto.
      + right. exists t1, h1. split; [auto|]. split; [auto|]. split; [auto|]. split; [|exact R4].
        apply (tt_holds_ext O h1 t1 (patch [si; sj] c' (gemm_val c') [i; j])); auto. rewrite R2.
        intros idx k l P. unfold patch. destruct (list_eq_dec _ _ _); auto.
        destruct (tile_pos_inb _ _ _ _ HF P) as (Ix & _). apply inb2_inv in Ix as (x & y & -> & _ & _). reflexivity.
    - right. exists t', h'. split; [auto|]. split; [auto|]. split; [auto|]. split; [|exact N].
      revert H1. rewrite map_id. apply tt_holds_ext. rewrite S1.
      intros idx k l P. destruct (in_dec _ _ _); auto.
      destruct (tile_pos_inb _ _ _ _ HF P) as (Ix & _). apply inb2_inv in Ix as (x & y & -> & _ & _). reflexivity.
  Qed.
End TGemm.
