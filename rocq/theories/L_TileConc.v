(** * L_TileConc: lemmas about interleaved tiled matrix products. *)
From Coq Require Import List ZArith Lia Bool Permutation Ring.
From Verif Require Import Base Heap Conc M_Addr M_Elt M_Einsum M_Blas M_Block M_Tiled S_Addr S_Einsum S_Blas S_Block S_Tiled
  L_Addr L_Elt L_Einsum L_Blas L_Block L_Tiled T_Blas L_TGemm.
From Verif Require Import M_TileConc.
Import ListNotations.
Open Scope Z_scope.

Section TGConc.
  Context {O : Ops} (HR : is_ring O).
  Variable al : heap (car O) -> Z -> option Z.
  Hypothesis Hal : al_ok al.
  Variables (TA TB : bool) (alpha beta : car O) (A B : tt) (si sj sk : list Z) (a b : list Z -> car O).
  Hypothesis OA : tt_ok A.
  Hypothesis OB : tt_ok B.
  Hypothesis SA : tt_sizes A = if TA then [sk; si] else [si; sk].
  Hypothesis SB : tt_sizes B = if TB then [sj; sk] else [sk; sj].
  Hypothesis Ni : Forall (fun n => 0 <= n) si.
  Hypothesis Nj : Forall (fun n => 0 <= n) sj.
  Hypothesis Nk : Forall (fun n => 0 <= n) sk.
  Variable c : list Z -> car O.
  Notation zs := (Z.of_nat (length sk)).
  Notation inr := (inner TA TB a b).
  Notation gval := (gemm_val TA TB alpha beta sk a b c).

  (** Value of an element after [k] inner tiles. *)
  Definition gpart (k : nat) (idx : list Z) : car O :=
    match idx with
    | [x; y] => oadd (omul alpha (zsum (off sk k) (inr x y))) (omul beta (c [x; y]))
    | _ => o0
    end.
  Lemma gpart_all : forall idx, gpart (length sk) idx = gval idx.
  Proof. reflexivity. Qed.

  (** One pair of inner tiles. *)
  Lemma mul_step : forall h t i j d k cc,
    0 <= i < Z.of_nat (length si) -> 0 <= j < Z.of_nat (length sj) -> 0 <= k < zs ->
    tt_ok t -> tt_sizes t = [si; sj] -> tt_holds h t cc -> tt_holds h A a -> tt_holds h B b -> tt_disj t A -> tt_disj t B ->
    find_tile [i; j] (tt_tiles t) = Some d ->
    (forall l, inb l [nth (Z.to_nat i) si 0; nth (Z.to_nat j) sj 0] ->
       at_tile cc [si; sj] [i; j] l = at_tile (gpart (Z.to_nat k)) [si; sj] [i; j] l) ->
    exists h', (if gemm_present TA TB A B i j k then
                   a <- const_tile A (op_coords TA i k) ;; b <- const_tile B (op_coords TB k j) ;;
                   la_gemm TA TB alpha a b o1 d h
                 else Ok h) = Ok h' /\
      (forall z, ~ cell d z -> h' z = h z) /\
      holds h' d (at_tile (gpart (S (Z.to_nat k))) [si; sj] [i; j]).
  Proof.
    intros h t i j d k cc Hi Hj Hk Hok Hs HC HA HB DA DB Hf HV. assert (R := ir_rt O HR).
    assert (Pi := nth_nonneg si (Z.to_nat i) Ni). assert (Pj := nth_nonneg sj (Z.to_nat j) Nj).
    assert (Pk := nth_nonneg sk (Z.to_nat k) Nk).
    assert (MD := tile_mat t [i; j] d si sj i j Hok Hs eq_refl Hf).
    assert (Hd : holds h d (at_tile (gpart (Z.to_nat k)) [si; sj] [i; j])).
    { intros l Hl. assert (X := holds_tile O h t cc [i; j] d Hok HC Hf l Hl). rewrite Hs in X.
      destruct MD as (DD & _). rewrite DD in Hl. rewrite X, HV; auto. }
    assert (CD : forall z, cell d z -> tt_cell t z) by (intros z Hz; exists [i; j], d; auto).
    set (m := nth (Z.to_nat i) si 0) in *. set (nn := nth (Z.to_nat j) sj 0) in *.
    set (new := fun l : list Z => zsum (nth (Z.to_nat k) sk 0)
       (fun p => inr (off si (Z.to_nat i) + nth 0 l 0) (off sj (Z.to_nat j) + nth 1 l 0) (off sk (Z.to_nat k) + p))).
    assert (SUM : forall l, inb l [m; nn] -> at_tile (gpart (S (Z.to_nat k))) [si; sj] [i; j] l =
              oadd (omul alpha (new l)) (at_tile (gpart (Z.to_nat k)) [si; sj] [i; j] l)).
    { intros l Hl. apply inb2_inv in Hl as (x & y & -> & Hx & Hy). unfold at_tile, new. cbn [combine map fst snd gpart nth].
      rewrite !(zsum_split O HR _ _ _ Nk). replace (S (Z.to_nat k)) with (Z.to_nat k + 1)%nat by lia.
      rewrite seq_app, (lsum_app O HR).
      change (lsum (seq (0 + Z.to_nat k) 1) ?g) with (oadd (g (Z.to_nat k)) (@o0 O)). cbv beta.
      rewrite (Radd_comm R _ o0), (Radd_0_l R).
      rewrite (Rmul_comm R alpha), (Rdistr_l R), (Rmul_comm R _ alpha), (Rmul_comm R _ alpha).
      rewrite (Radd_comm R (omul alpha (lsum _ _))). symmetry. apply (Radd_assoc R). }
    destruct (gemm_present TA TB A B i j k) eqn:GP.
    2:{ exists h. split; auto. split; auto. intros l Hl. rewrite (Hd l Hl). f_equal.
        destruct MD as (DD & _). rewrite DD in Hl. rewrite SUM by auto.
        apply inb2_inv in Hl as (x & y & -> & Hx & Hy). unfold new. cbn [nth]. rewrite (zsum_zero O HR).
        - rewrite (omul_0_r HR), (Radd_0_l R). reflexivity.
        - intros p Hp. apply (absent_zero HR TA TB A B si sj sk a b SA SB h); auto. }
    assert (IA := op_in_A TA A si sk SA i k Hi Hk). assert (IB := op_in_B TB B sj sk SB k j Hj Hk).
    unfold gemm_present in GP. rewrite (has_tile_inb A), (has_tile_inb B) in GP by auto.
    destruct (find_tile (op_coords TA i k) (tt_tiles A)) as [da|] eqn:Ea; cbn [andb] in GP; [|discriminate].
    destruct (find_tile (op_coords TB k j) (tt_tiles B)) as [db|] eqn:Eb; cbn [andb] in GP; [|discriminate].
    clear GP.
    rewrite (const_tile_inb A _ da) by auto. rewrite (const_tile_inb B _ db) by auto. cbn [bind].
    assert (CA : forall z, cell da z -> tt_cell A z) by (intros z Hz; exists (op_coords TA i k), da; auto).
    assert (CB : forall z, cell db z -> tt_cell B z) by (intros z Hz; exists (op_coords TB k j), db; auto).
    destruct (C19_gemm_partial O HR TA TB alpha o1 da db d m nn (nth (Z.to_nat k) sk 0)
      (if TA then m else nth (Z.to_nat k) sk 0) (if TB then nth (Z.to_nat k) sk 0 else nn) nn
      (at_tile a (tt_sizes A) (op_coords TA i k)) (at_tile b (tt_sizes B) (op_coords TB k j))
      (at_tile (gpart (Z.to_nat k)) [si; sj] [i; j]) h) as (h2 & E2 & V2 & F2); auto.
    - unfold op_coords in Ea. unfold m. destruct TA; (eapply tile_mat; [exact OA|exact SA|reflexivity|exact Ea]).
    - unfold op_coords in Eb. unfold nn. destruct TB; (eapply tile_mat; [exact OB|exact SB|reflexivity|exact Eb]).
    - apply (holds_tile O h A a); auto.
    - apply (holds_tile O h B b); auto.
    - intros x y Hx Hy Exy. apply (DA (addr d x)); [apply CD; exists x; auto|]. apply CA. rewrite Exy. exists y; auto.
    - intros x y Hx Hy Exy. apply (DB (addr d x)); [apply CD; exists x; auto|]. apply CB. rewrite Exy. exists y; auto.
    - rewrite E2. exists h2. split; auto. split; [intros z Hz; rewrite F2; auto|].
      intros l Hl. destruct MD as (DD & _). rewrite DD in Hl. rewrite SUM by auto.
      apply inb2_inv in Hl as (x & y & -> & Hx & Hy).
      rewrite V2 by auto. f_equal. rewrite (Rmul_1_l R). f_equal. f_equal. unfold new. cbn [nth].
      apply zsum_ext. intros p Hp. unfold inner. rewrite SA, SB. unfold op_coords, op, at_tile.
      destruct TA, TB; cbn [combine map fst snd]; reflexivity.
  Qed.

  (** What the elements of a position are, given the phase of its thread. *)
  Definition pval (p : gphase) (idx : list Z) : car O :=
    match p with
    | GStart | GInit _ _ => c idx
    | GMul _ k => gpart (Z.to_nat k) idx
    | GDone => gval idx
    end.
  Definition pok (t : tt) (ij : list Z) (p : gphase) : Prop :=
    match p with
    | GStart | GDone => True
    | GInit d cr => find_tile ij (tt_tiles t) = Some d /\
        (cr = true -> forall idx l, tile_pos [si; sj] idx ij l -> c idx = o0)
    | GMul d k => find_tile ij (tt_tiles t) = Some d /\ 0 <= k <= zs
    end.
  Definition ginv (h0 : heap (car O)) (C0 : tt) (s : @gstate O) : Prop :=
    let ph := fst s in let t := fst (snd s) in let h := snd (snd s) in
    tt_ok t /\ tt_sizes t = [si; sj] /\
    tt_holds h t (fun idx => pval (ph (coord [si; sj] idx)) idx) /\
    (forall ij, pok t ij (ph ij)) /\
    (forall z, tt_cell t z -> tt_cell C0 z \/ h0 z = None) /\
    (forall z, h0 z <> None -> h z <> None) /\
    (forall z, h0 z <> None -> ~ tt_cell C0 z -> h z = h0 z).
  Definition gpos : list Z := [Z.of_nat (length si); Z.of_nat (length sj)].

  Lemma gHF : Forall (Forall (fun n => 0 <= n)) [si; sj].
  Proof. repeat constructor; auto. Qed.

  (** Changing one tile and the phase of its position. *)
  Lemma ginv_upd : forall h0 C0 ph t h i j d p h',
    ginv h0 C0 (ph, (t, h)) -> find_tile [i; j] (tt_tiles t) = Some d ->
    (forall z, ~ cell d z -> h' z = h z) -> holds h' d (at_tile (pval p) [si; sj] [i; j]) ->
    pok t [i; j] p -> ginv h0 C0 (set_phase ph [i; j] p, (t, h')).
  Proof.
    intros h0 C0 ph t h i j d p h' (Ok' & Hs & HC & HP & N1 & N2 & N3) Hf HF Hd Hp. cbn [fst snd] in *.
    assert (CD : forall z, cell d z -> tt_cell t z) by (intros z Hz; exists [i; j], d; auto).
    destruct (tile_facts t [i; j] d Ok' Hf) as (Ed & Dd & Dne & DN & _).
    unfold ginv. cbn [fst snd]. split; auto. split; auto. split.
    - apply (tt_holds_ext O h' t (patch (tt_sizes t) (fun idx => pval (ph (coord [si; sj] idx)) idx) (pval p) [i; j])).
      + rewrite Hs. intros idx k l P. unfold patch. rewrite (coord_pos _ _ _ _ gHF P). unfold set_phase.
        destruct (list_eq_dec Z.eq_dec k [i; j]); reflexivity.
      + apply (update_patch O h h' t _ _ [i; j] d); auto. rewrite Hs. auto.
    - split; [|split; [|split]]; auto.
      + intros ij. unfold set_phase. destruct (list_eq_dec Z.eq_dec ij [i; j]) as [->|_]; auto.
      + intros z Hz. destruct (tile_cell_dec d _ z Ed Dne DN) as [(l & Hl & ->)|Hc]; [rewrite (Hd l Hl); discriminate|].
        rewrite HF by auto. auto.
      + intros z Hz HzC. rewrite HF; auto. intros Hc. destruct (N1 z (CD z Hc)); auto.
  Qed.
  (** Changing only the phase, when the elements already have the new value. *)
  Lemma ginv_phase : forall h0 C0 ph t h i j p,
    ginv h0 C0 (ph, (t, h)) ->
    (forall idx l, tile_pos [si; sj] idx [i; j] l -> pval p idx = pval (ph [i; j]) idx) ->
    pok t [i; j] p -> ginv h0 C0 (set_phase ph [i; j] p, (t, h)).
  Proof.
    intros h0 C0 ph t h i j p (Ok' & Hs & HC & HP & N1 & N2 & N3) HV Hp. cbn [fst snd] in *.
    unfold ginv. cbn [fst snd]. split; auto. split; auto. split.
    - revert HC. apply tt_holds_ext. rewrite Hs. intros idx k l P. rewrite (coord_pos _ _ _ _ gHF P). unfold set_phase.
      destruct (list_eq_dec Z.eq_dec k [i; j]) as [->|_]; auto. symmetry. apply (HV idx l P).
    - split; [|split; [|split]]; auto.
      intros ij. unfold set_phase. destruct (list_eq_dec Z.eq_dec ij [i; j]) as [->|_]; auto.
  Qed.

  Section Run.
    Variables (h0 : heap (car O)) (C0 : tt).
    Hypothesis HA0 : tt_holds h0 A a.
    Hypothesis HB0 : tt_holds h0 B b.
    Hypothesis DA0 : tt_disj C0 A.
    Hypothesis DB0 : tt_disj C0 B.

    Lemma inputs_kept : forall s, ginv h0 C0 s ->
      tt_holds (snd (snd s)) A a /\ tt_holds (snd (snd s)) B b /\ tt_disj (fst (snd s)) A /\ tt_disj (fst (snd s)) B.
    Proof.
      intros (ph & t & h) (Ok' & Hs & HC & HP & N1 & N2 & N3). cbn [fst snd] in *.
      assert (XA : forall z, tt_cell A z -> h0 z <> None) by (intros z Hz; apply (cell_alloc O h0 A a z OA HA0 Hz)).
      assert (XB : forall z, tt_cell B z -> h0 z <> None) by (intros z Hz; apply (cell_alloc O h0 B b z OB HB0 Hz)).
      split; [|split; [|split]].
      - apply (holds_frame O h0 h A a OA HA0). intros z Hz. apply N3; auto. intros Hc. apply (DA0 z Hc Hz).
      - apply (holds_frame O h0 h B b OB HB0). intros z Hz. apply N3; auto. intros Hc. apply (DB0 z Hc Hz).
      - intros z Hz Hz'. destruct (N1 z Hz) as [X|X]; [apply (DA0 z X Hz')|apply (XA z Hz' X)].
      - intros z Hz Hz'. destruct (N1 z Hz) as [X|X]; [apply (DB0 z X Hz')|apply (XB z Hz' X)].
    Qed.

    Lemma step_inv : forall s ij, ginv h0 C0 s -> inb ij gpos ->
      ((exists h1 n, al h1 n = None) /\ gemm_step al TA TB alpha A B beta zs ij s = Throw) \/
      exists s', gemm_step al TA TB alpha A B beta zs ij s = Ok s' /\ ginv h0 C0 s' /\
        (forall z, snd (snd s) z <> None -> (forall d, find_tile ij (tt_tiles (fst (snd s'))) = Some d -> ~ cell d z) ->
           snd (snd s') z = snd (snd s) z).
    Proof.
      intros (ph & t & h) ij GI Hij. apply inb2_inv in Hij as (i & j & -> & Hi & Hj).
      assert (R := ir_rt O HR).
      destruct (inputs_kept _ GI) as (HA & HB & DA & DB). assert (GI0 := GI).
      destruct GI as (Hok & Hs & HC & HP & N1 & N2 & N3). cbn [fst snd] in *.
      assert (Iij : inb [i; j] (map (fun s => Z.of_nat (length s)) (tt_sizes t))) by (rewrite Hs; apply inb2; auto).
      assert (Hp := HP [i; j]). unfold gemm_step. cbn [nth fst snd]. cbv zeta.
      assert (ATV : forall p, ph [i; j] = p -> forall l, inb l [nth (Z.to_nat i) si 0; nth (Z.to_nat j) sj 0] ->
         at_tile (fun idx => pval (ph (coord [si; sj] idx)) idx) [si; sj] [i; j] l = at_tile (pval p) [si; sj] [i; j] l).
      { intros p Ep l Hl. destruct (tile_pos_exists [si; sj] [i; j] l) as (idx & P).
        - apply inb2; auto.
        - exact Hl.
        - rewrite !(at_tile_pos _ _ _ _ _ _ P), (coord_pos _ _ _ _ gHF P), Ep. reflexivity. }
      destruct (ph [i; j]) as [|d cr|d k|] eqn:EP.
      - destruct (has_zero_size t [i; j]) eqn:HZ.
        { right. eexists. split; [reflexivity|]. split; [|intros z Hz _; reflexivity]. apply ginv_phase; [exact GI0| |exact I].
          intros idx l P. exfalso. unfold has_zero_size in HZ. rewrite Hs in HZ. cbn [tile_dims existsb] in HZ. unfold tile_extent in HZ.
          destruct (tile_pos_inb _ _ _ _ gHF P) as (_ & _ & Ij). cbn [tile_dims] in Ij. unfold tile_extent in Ij.
          apply inb2_inv in Ij as (x & y & _ & Hx & Hy).
          rewrite !(proj2 (Z.eqb_neq _ 0)) in HZ by lia. discriminate. }
        destruct (existsb _ _) eqn:EX.
        + destruct (tile_spec O al h t _ [i; j] Hal Hok HC Iij) as [(E1 & E2 & E3)|(d & t1 & h1 & E1 & O1 & H1 & S1 & F1 & F2 & M1 & M2)].
          { left. split; [eauto|]. rewrite E3. reflexivity. }
          right. rewrite E1. cbn [bind fst snd]. eexists. split; [reflexivity|].
          rewrite Hs in S1.
          assert (G1 : ginv h0 C0 (set_phase ph [i; j] (GInit d (negb (has_tile t [i; j]))), (t1, h1))).
          { unfold ginv. cbn [fst snd]. split; auto. split; auto. split.
            - revert H1. apply tt_holds_ext. rewrite S1. intros idx k l P. rewrite (coord_pos _ _ _ _ gHF P). unfold set_phase.
              destruct (list_eq_dec Z.eq_dec k [i; j]) as [->|_]; auto. rewrite EP. reflexivity.
            - split; [|split; [|split]].
              + intros ij. unfold set_phase. destruct (list_eq_dec Z.eq_dec ij [i; j]) as [->|Hne].
                * cbn [pok]. split; auto. rewrite has_tile_inb by auto.
                  destruct (find_tile [i; j] (tt_tiles t)) eqn:Ef; [discriminate|]. intros _ idx l P.
                  assert (X := HC idx [i; j] l). rewrite Hs in X. specialize (X P). rewrite Ef in X.
                  rewrite (coord_pos _ _ _ _ gHF P), EP in X. exact X.
                * assert (X := HP ij). destruct (ph ij) as [|d' cr'|d' k'|]; cbn [pok] in *; auto; rewrite F2 by auto; auto.
              + intros z Hz. destruct (M1 z Hz) as [X|X]; auto. right. destruct (h0 z) eqn:E0; auto.
                exfalso. apply (N2 z); congruence.
              + intros z Hz. rewrite M2; auto.
              + intros z Hz HzC. rewrite M2; auto. }
          split; [exact G1|]. intros z Hz _. apply M2. exact Hz.
        + rewrite has_tile_inb by auto. destruct (find_tile [i; j] (tt_tiles t)) as [d|] eqn:Ef.
          * rewrite (const_tile_inb t _ d) by auto. cbn [bind].
            destruct (tile_facts t [i; j] d Hok Ef) as (Ed & Dd & Dne & DN & _).
            assert (Hd : holds h d (at_tile c [si; sj] [i; j])).
            { intros l Hl. rewrite (holds_tile O h t _ [i; j] d Hok HC Ef l Hl). rewrite Hs. f_equal.
              apply (ATV GStart); auto. rewrite Dd, Hs in Hl. exact Hl. }
            assert (SC : exists h2, (if oeqb beta o0 then tile_fill o0 d h else tile_op omul beta d h) = Ok h2 /\
                 holds h2 d (fun l => omul beta (at_tile c [si; sj] [i; j] l)) /\ (forall z, ~ cell d z -> h2 z = h z)).
            { destruct (oeqb beta o0) eqn:EB.
              - destruct (tile_fill_spec O o0 d _ h Ed Dne DN) as (h2 & E2 & V2 & G2); [intros l Hl; eauto|].
                exists h2. split; auto. split; auto. intros l Hl. rewrite (V2 l Hl). f_equal.
                apply (ir_eqb O HR) in EB. rewrite EB. symmetry. apply (omul_0_l HR).
              - destruct (tile_op_spec O omul beta d _ _ h Ed Dne DN Hd) as (h2 & E2 & V2 & G2).
                exists h2. split; auto. split; auto. intros l Hl. rewrite (V2 l Hl). f_equal. apply (Rmul_comm R). }
            destruct SC as (h2 & E2 & V2 & G2). rewrite E2. cbn [bind]. right. eexists. split; [reflexivity|].
            split; [|intros z Hz Hc; apply G2; apply Hc; exact Ef].
            apply (ginv_upd h0 C0 ph t h i j d); [exact GI0|exact Ef|exact G2| |exact I].
            intros l Hl. rewrite (V2 l Hl). f_equal. symmetry.
            apply (gemm_val_none HR TA TB alpha beta A B si sj sk a b SA SB Nk h); auto.
            rewrite Dd, Hs in Hl. exact Hl.
          * right. eexists. split; [reflexivity|]. split; [|intros z Hz _; reflexivity]. apply ginv_phase; [exact GI0| |exact I].
            intros idx l P. rewrite EP. cbn [pval].
            assert (X := HC idx [i; j] l). rewrite Hs in X. specialize (X P). rewrite Ef in X.
            rewrite (coord_pos _ _ _ _ gHF P), EP in X. cbn [pval] in X.
            assert (Y := gemm_val_none HR TA TB alpha beta A B si sj sk a b SA SB Nk h c i j l HA HB Hi Hj EX).
            rewrite !(at_tile_pos _ _ _ _ _ _ P) in Y. rewrite Y, X; [apply (omul_0_r HR)|].
            destruct (tile_pos_inb _ _ _ _ gHF P) as (_ & _ & Ij). exact Ij.
      - destruct Hp as (Ef & Hcr).
        destruct (tile_facts t [i; j] d Hok Ef) as (Ed & Dd & Dne & DN & _).
        assert (Hd : holds h d (at_tile c [si; sj] [i; j])).
        { intros l Hl. rewrite (holds_tile O h t _ [i; j] d Hok HC Ef l Hl). rewrite Hs. f_equal.
          apply (ATV (GInit d cr)); auto. rewrite Dd, Hs in Hl. exact Hl. }
        assert (SC : exists h2, (if oeqb beta o0 || cr then tile_fill o0 d h else tile_op omul beta d h) = Ok h2 /\
                 holds h2 d (fun l => omul beta (at_tile c [si; sj] [i; j] l)) /\ (forall z, ~ cell d z -> h2 z = h z)).
        { destruct (oeqb beta o0 || cr) eqn:EB.
          - destruct (tile_fill_spec O o0 d _ h Ed Dne DN) as (h2 & E2 & V2 & G2); [intros l Hl; eauto|].
            exists h2. split; auto. split; auto. intros l Hl. rewrite (V2 l Hl). f_equal.
            apply orb_true_iff in EB as [EB|EB].
            + apply (ir_eqb O HR) in EB. rewrite EB. symmetry. apply (omul_0_l HR).
            + rewrite Dd, Hs in Hl. destruct (tile_pos_exists [si; sj] [i; j] l) as (idx & P); [apply inb2; auto|exact Hl|].
              rewrite (at_tile_pos _ _ _ _ _ _ P), (Hcr EB idx l P). symmetry. apply (omul_0_r HR).
          - destruct (tile_op_spec O omul beta d _ _ h Ed Dne DN Hd) as (h2 & E2 & V2 & G2).
            exists h2. split; auto. split; auto. intros l Hl. rewrite (V2 l Hl). f_equal. apply (Rmul_comm R). }
        destruct SC as (h2 & E2 & V2 & G2). rewrite E2. cbn [bind]. right. eexists. split; [reflexivity|].
        split; [|intros z Hz Hc; apply G2; apply Hc; exact Ef]. apply (ginv_upd h0 C0 ph t h i j d); [exact GI0|exact Ef|auto| |split; auto; lia].
        intros l Hl. rewrite (V2 l Hl). f_equal. rewrite Dd, Hs in Hl.
        apply inb2_inv in Hl as (x & y & -> & Hx & Hy). unfold at_tile. cbn [combine map fst snd pval gpart Z.to_nat].
        change (off sk 0) with 0. change (zsum 0 ?g) with (@o0 O). rewrite (omul_0_r HR), (Radd_0_l R). reflexivity.
      - destruct Hp as (Ef & Hk). destruct (Z.ltb_spec k zs) as [Lk|Lk].
        + destruct (mul_step h t i j d k _ Hi Hj ltac:(lia) Hok Hs HC HA HB DA DB Ef) as (h1 & E1 & F1 & V1).
          { intros l Hl. apply (ATV (GMul d k)); auto. }
          rewrite E1. cbn [bind]. right. eexists. split; [reflexivity|].
          split; [|intros z Hz Hc; apply F1; apply Hc; exact Ef]. apply (ginv_upd h0 C0 ph t h i j d); [exact GI0|exact Ef|auto| |split; auto; lia].
          intros l Hl. rewrite (V1 l Hl). f_equal. unfold at_tile, pval.
          replace (Z.to_nat (k + 1)) with (S (Z.to_nat k)) by lia. reflexivity.
        + right. eexists. split; [reflexivity|]. split; [|intros z Hz _; reflexivity]. apply ginv_phase; [exact GI0| |exact I].
          intros idx l P. rewrite EP. cbn [pval]. replace (Z.to_nat k) with (length sk) by lia. reflexivity.
      - right. eexists. split; [reflexivity|]. split; [exact GI0|]. intros z Hz _. reflexivity.
    Qed.

    Lemma run_inv : forall sched s, ginv h0 C0 s -> (forall ij, In ij sched -> inb ij gpos) ->
      ((exists h1 n, al h1 n = None) /\ forM sched (gemm_step al TA TB alpha A B beta zs) s = Throw) \/
      exists s', forM sched (gemm_step al TA TB alpha A B beta zs) s = Ok s' /\ ginv h0 C0 s'.
    Proof.
      induction sched as [|ij r IH]; intros s GI HI; [right; exists s; auto|].
      cbn [forM]. destruct (step_inv s ij GI (HI ij (or_introl eq_refl))) as [(X & E)|(s1 & E & G1 & _)].
      - left. split; auto. rewrite E. reflexivity.
      - rewrite E. cbn [bind]. apply IH; auto. intros x Hx. apply HI. right; auto.
    Qed.
  End Run.
End TGConc.
