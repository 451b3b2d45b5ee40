(** * T_Tiled: tiled tensors (C28-C32, C49, C50). *)
From Coq Require Import List ZArith Lia Bool Permutation Ring.
From Verif Require Import Base Heap Conc M_Addr M_Elt M_Einsum M_Blas M_Block M_Tiled S_Addr S_Einsum S_Blas S_Block S_Tiled
  L_Addr L_Elt L_Einsum L_Blas L_Block L_Tiled L_Tiled2 L_TGemm T_Addr T_Blas.
Import ListNotations.
Open Scope Z_scope.

(** ** C28: [tile_of] is total on valid indices, finds the one tile containing
    the element, and throws on all other indices; every element lies in exactly
    one tile and every place of every tile is an element. *)
Theorem C28_tile_of :
  forall (sizes : list (list Z)), sizes_ok sizes ->
  (forall ks idx, spell (dense_dims sizes) ks idx ->
     exists c j, tile_of (tt_ctor sizes) ks = Ok c /\ tile_pos sizes idx c j /\
       (forall c' j', tile_pos sizes idx c' j' -> c' = c /\ j' = j)) /\
  (forall ks, length ks = length sizes -> ~ (exists idx, spell (dense_dims sizes) ks idx) ->
     tile_of (tt_ctor sizes) ks = Throw).
Proof.
  intros sizes HS. assert (Hok := ctor_ok sizes HS). destruct (HS) as (_ & HF). split.
  - intros ks idx H. destruct (tile_of_ok (tt_ctor sizes) ks idx Hok) as (c & j & E & P & _).
    + rewrite (ok_dims _ Hok). exact H.
    + exists c, j. split; auto. split; auto. intros c' j' P'. apply (tile_pos_unique _ _ _ _ _ _ HF P P').
  - intros ks HL Hn. apply throw_spec; auto; rewrite (ok_dims _ Hok); auto. simpl. unfold dense_dims. now rewrite map_length.
Qed.

(** The tiles partition the index space. *)
Theorem C28_partition :
  forall (sizes : list (list Z)), sizes_ok sizes ->
  (forall idx, inb idx (dense_dims sizes) -> exists c j, tile_pos sizes idx c j) /\
  (forall idx c j, tile_pos sizes idx c j ->
     inb idx (dense_dims sizes) /\ forall c' j', tile_pos sizes idx c' j' -> c' = c /\ j' = j) /\
  (forall c j, inb c (map (fun s => Z.of_nat (length s)) sizes) -> inb j (tile_dims sizes c) ->
     exists idx, tile_pos sizes idx c j).
Proof.
  intros sizes (_ & HF). split; [|split].
  - intros idx H. apply tile_pos_cover; auto.
  - intros idx c j P. split; [apply (tile_pos_inb _ _ _ _ HF P)|]. intros c' j' P'.
    apply (tile_pos_unique _ _ _ _ _ _ HF P P').
  - intros c j. apply tile_pos_exists.
Qed.

Example C28_case :
  tile_of (tt_ctor [[2; 0; 3]; [1; 1]]) [-1; 1] = Ok [2; 1] /\ tile_of (tt_ctor [[2; 0; 3]; [1; 1]]) [1; -2] = Ok [0; 0] /\
  tile_of (tt_ctor [[2; 0; 3]; [1; 1]]) [5; 0] = Throw /\ tile_pos [[2; 0; 3]; [1; 1]] [4; 1] [2; 1] [2; 0].
Proof. repeat split; try (vm_compute; reflexivity). repeat constructor; vm_compute; congruence. Qed.

(** ** C29 *)
Lemma tstep_spec : forall (O : Ops) (HR : is_ring O) al (o : top (car O)) (h : heap (car O)) t f,
  al_ok al -> tt_ok t -> tt_holds h t f -> top_wf (length (tt_sizes t)) o ->
  match tstep al o (t, h) with
  | UB => False
  | Throw => ~ top_in_range (tt_sizes t) o \/ exists n, al h n = None
  | Ok (t', h') => tt_ok t' /\ tt_sizes t' = tt_sizes t /\ tt_holds h' t' (dense_step (tt_dims t) f o) /\
      (forall a, tt_cell t' a -> tt_cell t a \/ h a = None) /\
      (forall a, h a <> None -> ~ tt_cell t a -> h' a = h a)
  end.
Proof.
  intros O HR al o h t f Hal Hok HH Hw. assert (R := ir_rt O HR).
  destruct (ok_sizes t Hok) as (HSne & HF).
  destruct o as [ks v|c|v| |]; cbn [tstep top_wf top_in_range dense_step] in *.
  - assert (Dec : (exists idx, spell (tt_dims t) ks idx) \/ ~ (exists idx, spell (tt_dims t) ks idx)).
    { assert (D2 : Forall2 (fun k d => - d <= k < d) ks (tt_dims t) \/ ~ Forall2 (fun k d => - d <= k < d) ks (tt_dims t)).
      { assert (G : forall l m, Forall2 (fun k d => - d <= k < d) l m \/ ~ Forall2 (fun k d => - d <= k < d) l m).
        { induction l as [|x l IH]; intros [|y m]; try (right; intros H; inversion H; fail); [left; constructor|].
          destruct (IH m) as [H|H]; [|right; intros H'; inversion H'; auto].
          assert (X : - y <= x < y \/ ~ (- y <= x < y)) by lia. destruct X; [left; constructor; auto|].
          right. intros H'. inversion H'; auto. }
        apply G. }
      destruct D2 as [D|D]; [left; now apply spell_exists|]. right. intros (idx & Hi). apply D. clear -Hi.
      induction Hi as [|d ds k ks i is (Hi & Hk) Hi' IH]; constructor; auto. lia. }
    destruct Dec as [(idx & Hi)|Hno].
    + destruct (write_spec O al h t f ks idx v Hal Hok HH Hi) as [(E1 & E2)|(t' & h' & E1 & O1 & S1 & H1 & N1 & N2)].
      * rewrite E2. right. auto.
      * rewrite E1. repeat (split; auto). rewrite (spell_normal _ _ _ Hi). exact H1.
    + unfold tt_write. simpl fst. rewrite throw_spec; auto.
      * cbn [bind]. left. intros Hr. apply Hno. rewrite (ok_dims t Hok). now apply spell_exists.
      * rewrite (ok_dims t Hok). unfold dense_dims. now rewrite map_length.
  - destruct (wrap_coords (tt_sizes t) c) as [x|] eqn:Ew.
    + assert (Ix := wrap_coords_some _ _ _ Hw Ew).
      assert (ET : tile al c (t, h) = tile al x (t, h)).
      { unfold tile. simpl fst. now rewrite Ew, wrap_coords_inb by auto. }
      rewrite ET.
      destruct (tile_spec O al h t f x Hal Hok HH Ix) as [(E1 & E2 & E3)|(d & t' & h1 & E1 & O1 & H1 & S1 & F1 & F2 & N1 & N2)].
      * rewrite E3. cbn [bind]. right. eauto.
      * rewrite E1. cbn [bind snd]. repeat (split; auto).
    + unfold tile. simpl fst. rewrite Ew. cbn [bind]. left. intros Hr. revert Ew. clear -Hr. revert c Hr.
      induction (tt_sizes t) as [|s ss IH]; intros [|k c] Hr; simpl; try discriminate; try (inversion Hr; fail).
      apply (f_equal (fun l => l)) in Hr || idtac. cbn [map] in Hr. inversion Hr as [|? ? ? ? Hk Hr']; subst.
      set (y := if k <? 0 then k + Z.of_nat (length s) else k).
      assert (0 <= y < Z.of_nat (length s)) by (unfold y; destruct (Z.ltb_spec k 0); lia).
      destruct (Z.geb_spec y (Z.of_nat (length s))); [lia|]. destruct (Z.ltb_spec y 0); [lia|]. cbn [orb].
      specialize (IH c Hr'). destruct (wrap_coords ss c); [discriminate|]. intros _. now apply IH.
  - unfold tt_scale. destruct (oeqb v o0) eqn:Ev.
    + apply (ir_eqb O HR) in Ev. subst v. destruct (zero_spec O h t Hok) as (Z1 & Z2 & Z3 & Z4).
      destruct (tt_zero (t, h)) as [t' h'] eqn:Et. simpl fst in *. simpl snd in *. split; auto. split; auto. split; [|split].
      * intros idx c j P. rewrite Z3. apply omul_0_r; auto.
      * intros a (c & d & Hc & _). rewrite Z3 in Hc. discriminate.
      * intros a _ Ha. auto.
    + destruct (for_tiles_spec O h t f (tile_op omul v) (fun x => omul x v) Hok HH) as (h' & E & H1 & H2).
      { intros d dims g h1 Ed Dne DN Hg. apply (tile_op_spec O omul v d dims g h1); auto. }
      rewrite E. split; auto. split; auto. split; [|split; auto].
      intros idx c j P. assert (H := H1 idx c j P). destruct (find_tile c (tt_tiles t)); auto.
      rewrite H. apply omul_0_l; auto.
  - destruct (zero_spec O h t Hok) as (Z1 & Z2 & Z3 & Z4).
    destruct (tt_zero (t, h)) as [t' h'] eqn:Et. simpl fst in *. simpl snd in *. split; auto. split; auto. split; [|split].
    + intros idx c j P. rewrite Z3. auto.
    + intros a (c & d & Hc & _). rewrite Z3 in Hc. discriminate.
    + intros a _ Ha. auto.
  - unfold tt_zero_no_clear.
    destruct (for_tiles_spec O h t f (tile_fill o0) (fun _ => o0) Hok HH) as (h' & E & H1 & H2).
    { intros d dims g h1 Ed Dne DN Hg. apply (tile_fill_spec O o0 d dims h1); auto. intros i Hi. exists (g i). auto. }
    rewrite E. split; auto. split; auto. split; [|split; auto].
    intros idx c j P. assert (H := H1 idx c j P). destruct (find_tile c (tt_tiles t)); auto.
Qed.

Lemma run_spec : forall (O : Ops) (HR : is_ring O) al sizes (h0 : heap (car O)), al_ok al ->
  forall ops t h f, Forall (top_wf (length sizes)) ops -> tt_ok t -> tt_sizes t = sizes -> tt_holds h t f ->
    (forall a, h0 a <> None -> h a = h0 a) -> (forall a, tt_cell t a -> h0 a = None) ->
    exists performed t' h', trun al ops (t, h) = Ok (performed, (t', h')) /\ tt_ok t' /\ tt_sizes t' = sizes /\
      tt_holds h' t' (fold_left (dense_step (dense_dims sizes)) performed f) /\
      (forall a, h0 a <> None -> h' a = h0 a) /\ (forall a, tt_cell t' a -> h0 a = None).
Proof.
  intros O HR al sizes h0 Hal. induction ops as [|o ops IH]; intros t h f HW Hok Hs HH Hfr Hc.
  - exists [], t, h. split; auto 8.
  - inversion HW as [|x l Ho HW']; subst x l. assert (St := tstep_spec O HR al o h t f Hal Hok HH).
    rewrite Hs in St. specialize (St Ho). cbn [trun].
    destruct (tstep al o (t, h)) as [(t1, h1)| |]; [|apply IH; auto|contradiction].
    destruct St as (O1 & S1 & H1 & N1 & N2).
    destruct (IH t1 h1 (dense_step (tt_dims t) f o)) as (perf & t' & h' & E & O2 & S2 & H2 & F2); auto; try congruence.
    + intros a Ha. rewrite <- (Hfr a Ha). apply N2; [rewrite Hfr; auto|]. intros Hca. apply Ha. auto.
    + intros a Ha. destruct (N1 a Ha) as [Hca|Hn]; auto. destruct (h0 a) eqn:Ea; auto. rewrite Hfr in Hn by congruence. congruence.
    + exists (o :: perf), t', h'. rewrite E. cbn [bind fst snd]. split; auto. split; auto. split; auto. split; auto.
      cbn [fold_left]. rewrite (ok_dims t Hok), Hs in H2. exact H2.
Qed.

(** A tensor produced by a history, for examples. *)
Lemma reach : forall (O : Ops) (HR : is_ring O) al sizes (h0 : heap (car O)) ops performed t h,
  al_ok al -> sizes_ok sizes -> Forall (top_wf (length sizes)) ops ->
  trun al ops (tt_ctor sizes, h0) = Ok (performed, (t, h)) ->
  tt_ok t /\ tt_sizes t = sizes /\ tt_holds h t (fold_left (dense_step (dense_dims sizes)) performed (fun _ => o0)) /\
  (forall a, h0 a <> None -> h a = h0 a) /\ (forall a, tt_cell t a -> h0 a = None).
Proof.
  intros O HR al sizes h0 ops performed t h Hal HS HW E.
  destruct (run_spec O HR al sizes h0 Hal ops (tt_ctor sizes) h0 (fun _ => o0) HW (ctor_ok sizes HS) eq_refl)
    as (perf & t' & h' & E' & R); auto.
  - intros idx c j P. reflexivity.
  - intros a (c & d & Hc & _). discriminate.
  - rewrite E in E'. injection E' as <- <- <-. exact R.
Qed.

(** For every grid, every allocator that hands out unused memory and every
    history of element writes, tile accesses, scalings, [zero] and
    [zero_no_clear] (throwing operations included): nothing undefined happens,
    every element reads as the dense zero-initialised tensor does after the
    performed operations, other indices throw, and memory in use before the
    history is untouched. *)
Theorem C29_history :
  forall (O : Ops), is_ring O ->
  forall (al : heap (car O) -> Z -> option Z) (sizes : list (list Z)) (h0 : heap (car O)) (ops : list (top (car O))),
    al_ok al -> sizes_ok sizes -> Forall (top_wf (length sizes)) ops ->
    exists performed t h, trun al ops (tt_ctor sizes, h0) = Ok (performed, (t, h)) /\
      (forall ks idx, spell (dense_dims sizes) ks idx ->
         tt_read t ks h = Ok (fold_left (dense_step (dense_dims sizes)) performed (fun _ => o0) idx)) /\
      (forall ks, length ks = length sizes -> ~ (exists idx, spell (dense_dims sizes) ks idx) -> tt_read t ks h = Throw) /\
      (forall a, h0 a <> None -> h a = h0 a).
Proof.
  intros O HR al sizes h0 ops Hal HS HW.
  destruct (run_spec O HR al sizes h0 Hal ops (tt_ctor sizes) h0 (fun _ => o0) HW (ctor_ok sizes HS) eq_refl) as (perf & t & h & E & Ok' & Sz & HH & Fr & _); auto.
  - intros idx c j P. reflexivity.
  - intros a (c & d & Hc & _). discriminate.
  - exists perf, t, h. split; auto. split; [|split]; auto.
    + intros ks idx Hs. apply read_spec; auto. now rewrite (ok_dims t Ok'), Sz.
    + intros ks HL Hn. unfold tt_read. rewrite throw_spec; auto; rewrite (ok_dims t Ok'), Sz; auto.
      unfold dense_dims. now rewrite map_length.
Qed.

(** An operation on a tensor in a reachable state fails only because its index is
    out of range or memory is exhausted. *)
Theorem C29_no_spurious_failure :
  forall (O : Ops), is_ring O ->
  forall (al : heap (car O) -> Z -> option Z) (sizes : list (list Z)) (h0 : heap (car O)) (ops : list (top (car O)))
         (o : top (car O)) performed t h,
    al_ok al -> sizes_ok sizes -> Forall (top_wf (length sizes)) ops -> top_wf (length sizes) o ->
    trun al ops (tt_ctor sizes, h0) = Ok (performed, (t, h)) ->
    top_in_range sizes o -> (forall n, al h n <> None) ->
    exists s', tstep al o (t, h) = Ok s'.
Proof.
  intros O HR al sizes h0 ops o performed t h Hal HS HW Ho E Hr Hm.
  assert (G : forall ops t0 h0 f, Forall (top_wf (length sizes)) ops -> tt_ok t0 -> tt_sizes t0 = sizes -> tt_holds h0 t0 f ->
    forall performed, trun al ops (t0, h0) = Ok (performed, (t, h)) -> exists f', tt_ok t /\ tt_sizes t = sizes /\ tt_holds h t f').
  { clear - HR Hal. induction ops as [|o ops IH]; intros t0 h0 f HW Hok Hs HH perf E.
    - cbn [trun] in E. injection E as _ <- <-. eauto.
    - inversion HW as [|x l Ho HW']; subst x l. assert (St := tstep_spec O HR al o h0 t0 f Hal Hok HH).
      rewrite Hs in St. specialize (St Ho). cbn [trun] in E.
      destruct (tstep al o (t0, h0)) as [(t1, h1)| |]; [|eapply IH; eauto|contradiction].
      destruct St as (O1 & S1 & H1 & _).
      destruct (trun al ops (t1, h1)) as [(p, s)| |] eqn:Er; try discriminate. cbn [bind fst snd] in E. injection E as _ ->.
      apply (IH t1 h1 _ HW' O1 S1 H1 p); auto. }
  destruct (G ops (tt_ctor sizes) h0 (fun _ => o0) HW (ctor_ok sizes HS) eq_refl ltac:(intros idx c j P; reflexivity) _ E)
    as (f & Ok' & Sz & HH).
  assert (St := tstep_spec O HR al o h t f Hal Ok' HH). rewrite Sz in St. specialize (St Ho).
  destruct (tstep al o (t, h)) as [s'| |]; [eauto| |contradiction].
  destruct St as [H|(n & H)]; [contradiction|]. elim (Hm n). auto.
Qed.

(** An allocator: the first free place below [limit]. *)
Definition first_fit {T} (limit : Z) (h : heap T) (n : Z) : option Z :=
  find (fun b => forallb (fun i => match h (b + i) with None => true | Some _ => false end) (zrange n)) (zrange limit).
Lemma first_fit_ok : forall T limit, al_ok (@first_fit T limit).
Proof.
  intros T limit h n b H a Ha. unfold first_fit in H. apply find_some in H as (_ & H).
  rewrite forallb_forall in H. specialize (H (a - b)). rewrite zrange_in in H. specialize (H ltac:(lia)).
  replace (b + (a - b)) with a in H by lia. destruct (h a); [discriminate|auto].
Qed.
Example C29_case :
  let al := first_fit 20 in let h0 : heap Z := fun a => if (0 <=? a) && (a <? 3) then Some (-7) else None in
  let ops : list (top Z) := [TWrite [3; 0] 5; TTile [0; 0]; TWrite [-1; 1] 8; TScale 3; TWrite [7; 0] 9; TWrite [0; -1] 2] in
  al_ok al /\ sizes_ok [[2; 0; 3]; [1; 1]] /\ Forall (top_wf 2) ops /\
  exists t h, @trun ZOps al ops (tt_ctor [[2; 0; 3]; [1; 1]], h0) =
      Ok ([TWrite [3; 0] 5; TTile [0; 0]; TWrite [-1; 1] 8; TScale 3; TWrite [0; -1] 2], (t, h)) /\
    tt_read (O:=ZOps) t [3; 0] h = Ok 15 /\ tt_read (O:=ZOps) t [4; -1] h = Ok 24 /\ tt_read (O:=ZOps) t [1; 0] h = Ok 0 /\
    tt_read (O:=ZOps) t [-5; 1] h = Ok 2 /\ tt_read (O:=ZOps) t [5; 1] h = Throw /\ h 2 = Some (-7).
Proof.
  split; [apply first_fit_ok|]. split; [split; [discriminate|]; repeat constructor; lia|].
  split; [repeat constructor|].
  eexists. eexists. split; [vm_compute; reflexivity|]. repeat split; vm_compute; reflexivity.
Qed.

Print Assumptions C28_tile_of.
Print Assumptions C28_partition.
Print Assumptions C29_history.
Print Assumptions C29_no_spurious_failure.

(** Two tensors produced one after the other. *)
Lemma reach2 : forall (O : Ops) (HR : is_ring O) al sizes sizes2 (h0 h1 h : heap (car O)) ops ops2 p p2 t u,
  al_ok al -> sizes_ok sizes -> sizes_ok sizes2 -> Forall (top_wf (length sizes)) ops -> Forall (top_wf (length sizes2)) ops2 ->
  trun al ops (tt_ctor sizes, h0) = Ok (p, (t, h1)) -> trun al ops2 (tt_ctor sizes2, h1) = Ok (p2, (u, h)) ->
  tt_ok t /\ tt_ok u /\ tt_sizes t = sizes /\ tt_sizes u = sizes2 /\
  tt_holds h t (fold_left (dense_step (dense_dims sizes)) p (fun _ => o0)) /\
  tt_holds h u (fold_left (dense_step (dense_dims sizes2)) p2 (fun _ => o0)) /\ tt_disj t u /\ tt_disj u t.
Proof.
  intros O HR al sizes sizes2 h0 h1 h ops ops2 p p2 t u Hal HS HS2 HW HW2 E E2.
  destruct (reach O HR al sizes h0 ops p t h1 Hal HS HW E) as (A1 & A2 & A3 & A4 & A5).
  destruct (reach O HR al sizes2 h1 ops2 p2 u h Hal HS2 HW2 E2) as (B1 & B2 & B3 & B4 & B5).
  assert (D : tt_disj t u).
  { intros a Ha Hb. apply (cell_alloc O h1 t _ a A1 A3 Ha). auto. }
  split; auto. split; auto. split; auto. split; auto. split.
  - apply (holds_frame O h1 h t _ A1 A3). intros a Ha. apply B4. apply (cell_alloc O h1 t _ a A1 A3 Ha).
  - split; auto. split; auto. intros a Ha Hb. apply (D a Hb Ha).
Qed.

(** ** C30: matrix multiplication.
    [a b c]: the matrices A, B, C represent; any subset of their tiles exists.
    The tiles of C are processed in any order.  The result represents
    [alpha * op(a) * op(b) + beta * c]; the only possible failure is an
    exhausted allocator; memory outside C is unchanged. *)
Theorem C30_gemm :
  forall (O : Ops), is_ring O ->
  forall (al : heap (car O) -> Z -> option Z) (TransA TransB : bool) (alpha beta : car O) (A B C : tt)
         (si sj sk : list Z) (a b c : list Z -> car O) (order : list (list Z)) (h : heap (car O)),
    al_ok al -> tt_ok A -> tt_ok B -> tt_ok C ->
    tt_sizes A = (if TransA then [sk; si] else [si; sk]) ->
    tt_sizes B = (if TransB then [sj; sk] else [sk; sj]) ->
    tt_sizes C = [si; sj] ->
    tt_holds h A a -> tt_holds h B b -> tt_holds h C c -> tt_disj C A -> tt_disj C B ->
    Permutation order (indices [Z.of_nat (length si); Z.of_nat (length sj)]) ->
    ((exists h1 n, al h1 n = None) /\ tt_gemm al TransA TransB alpha A B beta order (C, h) = Throw) \/
    exists C' h', tt_gemm al TransA TransB alpha A B beta order (C, h) = Ok (C', h') /\
      (forall x y, 0 <= x < off si (length si) -> 0 <= y < off sj (length sj) ->
         tt_read C' [x; y] h' =
           Ok (oadd (omul alpha (zsum (off sk (length sk)) (fun p => omul (op TransA a x p) (op TransB b p y))))
                    (omul beta (c [x; y])))) /\
      tt_ok C' /\ tt_sizes C' = [si; sj] /\
      (forall z, h z <> None -> ~ tt_cell C z -> h' z = h z).
Proof.
  intros O HR al TA TB alpha beta A B C si sj sk a b c order h Hal OA OB OC SA SB SC HA HB HC DA DB HP.
  unfold tt_gemm. cbn [fst].
  assert (EA0 : op_sizes TA A 0 = si) by (unfold op_sizes; rewrite SA; destruct TA; reflexivity).
  assert (EA1 : op_sizes TA A 1 = sk) by (unfold op_sizes; rewrite SA; destruct TA; reflexivity).
  assert (EB0 : op_sizes TB B 0 = sk) by (unfold op_sizes; rewrite SB; destruct TB; reflexivity).
  assert (EB1 : op_sizes TB B 1 = sj) by (unfold op_sizes; rewrite SB; destruct TB; reflexivity).
  rewrite EA0, EA1, EB0, EB1, SC. cbn [nth]. unfold list_eqb.
  repeat (destruct (list_eq_dec Z.eq_dec _ _) as [_|N]; [cbn [negb]|congruence]).
  destruct (ok_sizes C OC) as (_ & FC). rewrite SC in FC. inversion FC as [|x l Ni FC']; subst x l. inversion FC' as [|x l Nj _]; subst x l.
  assert (Nk : Forall (fun n => 0 <= n) sk).
  { destruct (ok_sizes A OA) as (_ & FA). rewrite SA in FA.
    destruct TA; inversion FA as [|x l F1 FA']; subst x l; auto. inversion FA' as [|x l F2 _]; subst x l; auto. }
  destruct (gemm_loop HR al Hal TA TB alpha beta A B si sj sk a b OA OB SA SB Ni Nj Nk order C h c) as
    [X|(t' & h' & E & O1 & S1 & H1 & N1 & N0 & N2)]; auto.
  - apply (Permutation_NoDup (Permutation_sym HP)). apply indices_NoDup.
  - intros ij Hij. apply (Permutation_in _ HP) in Hij. now apply in_indices in Hij.
  - right. exists t', h'. split; auto. split; [|split; auto].
    intros x y Hx Hy. assert (Ixy : inb [x; y] (dense_dims [si; sj])) by (apply inb2; auto).
    rewrite (read_spec O h' t' _ [x; y] [x; y] O1 H1).
    + destruct (tile_pos_cover _ _ FC Ixy) as (k & l & P). rewrite (coord_pos _ _ _ _ FC P).
      destruct (in_dec _ k order) as [_|Nin]; [reflexivity|].
      elim Nin. apply (Permutation_in _ (Permutation_sym HP)). apply in_indices.
      destruct (tile_pos_inb _ _ _ _ FC P) as (_ & Ik & _). exact Ik.
    + rewrite (ok_dims t' O1), S1. now apply spell_self.
Qed.

(** Incompatible grids are rejected. *)
Theorem C30_rejects :
  forall (O : Ops) (al : heap (car O) -> Z -> option Z) (TransA TransB : bool) (alpha beta : car O) (A B C : tt)
         (a0 a1 b0 b1 c0 c1 : list Z) order (h : heap (car O)),
    tt_sizes A = [a0; a1] -> tt_sizes B = [b0; b1] -> tt_sizes C = [c0; c1] ->
    ~ (c0 = (if TransA then a1 else a0) /\ c1 = (if TransB then b0 else b1) /\
       (if TransA then a0 else a1) = (if TransB then b1 else b0)) ->
    tt_gemm al TransA TransB alpha A B beta order (C, h) = Throw.
Proof.
  intros O al TA TB alpha beta A B C a0 a1 b0 b1 c0 c1 order h SA SB SC Hn.
  unfold tt_gemm, op_sizes. cbn [fst]. rewrite SA, SB, SC. unfold list_eqb.
  destruct TA, TB; cbn [nth Nat.sub]; repeat (destruct (list_eq_dec Z.eq_dec _ _) as [->|N]; cbn [negb]; auto);
    elim Hn; auto.
Qed.

(** A has tiles (0,0) and (1,0); B only (0,1); C only (0,0): the product creates
    (0,1) and (1,1) of C. *)
Example C30_case :
  let al := first_fit 100 in
  let run := @trun ZOps al in
  exists A B C h p1 p2 p3 h1 h2 C' h',
    run [TWrite [0; 0] 2; TWrite [2; 1] 3] (tt_ctor [[2; 1]; [2; 0]], fun _ => None) = Ok (p1, (A, h1)) /\
    run [TWrite [0; 1] 5; TWrite [1; 2] 7] (tt_ctor [[2; 0]; [1; 2]], h1) = Ok (p2, (B, h2)) /\
    run [TWrite [1; 0] 11] (tt_ctor [[2; 1]; [1; 2]], h2) = Ok (p3, (C, h)) /\
    tt_gemm (O:=ZOps) al false false 10 A B 4 [[1; 1]; [0; 0]; [1; 0]; [0; 1]] (C, h) = Ok (C', h') /\
    map (fun i => tt_read (O:=ZOps) C' i h') (indices [3; 3]) =
      map (@Ok Z) [0; 100; 0;  44; 0; 0;  0; 0; 210] /\
    has_tile C [1; 1] = false /\ has_tile C' [1; 1] = true /\ has_tile C' [1; 0] = false.
Proof.
  do 11 eexists.
  split; [vm_compute; reflexivity|]. split; [vm_compute; reflexivity|]. split; [vm_compute; reflexivity|].
  split; [vm_compute; reflexivity|]. repeat split; vm_compute; reflexivity.
Qed.
Print Assumptions C30_gemm.
Print Assumptions C30_rejects.

(** ** C31: dot product.
    Full claim: [tt_dot A B order h = Ok (sum over all elements of a * b)] for
    every grid.  Missing (and false, see the refutation): grids whose shape is
    not the same read backwards, such as 1 x 2. *)
Lemma palindrome_strides : forall g, rev g = g -> dot_strides g = row_major_strides g.
Proof. intros g H. unfold dot_strides, row_major_strides. now rewrite H. Qed.

Lemma dot_loop : forall (O : Ops), is_ring O -> forall (dec : Z -> list Z) (A B : tt) (a b : list Z -> car O) (order : list Z) (h : heap (car O)),
  tt_ok A -> tt_ok B -> tt_sizes B = tt_sizes A -> tt_holds h A a -> tt_holds h B b ->
  Permutation order (zrange (zprod (grid A))) ->
  (forall i, 0 <= i < zprod (grid A) -> dec i = sentinel_to_indices i (row_major_strides (grid A))) ->
  forM order (fun i out => v <- dot_tile A B h (dec i) ;; Ok (oadd out v)) o0 =
    Ok (lsum (indices (dense_dims (tt_sizes A))) (fun i => omul (a i) (b i))).
Proof.
  intros O HR dec A B a b order h OA OB HS HA HB HP HD. assert (R := ir_rt O HR).
  assert (GN : nonneg (grid A)).
  { unfold grid, nonneg. apply Forall_forall. intros d Hd. apply in_map_iff in Hd as (s & <- & _). lia. }
  set (val := fun c => lsum (indices (tile_dims (tt_sizes A) c)) (at_tile (fun i => omul (a i) (b i)) (tt_sizes A) c)).
  rewrite (forM_pure _ _ order _ (fun out i => oadd out (val (sentinel_to_indices i (row_major_strides (grid A)))))).
  - f_equal. rewrite (fold_left_lsum O HR), (Radd_0_l R). rewrite (lsum_perm O HR _ _ _ _ HP).
    destruct (ok_sizes A OA) as (_ & HF). rewrite (lsum_tiles O HR) by auto. fold (grid A).
    rewrite (lsum_flat HR (grid A)) by auto. reflexivity.
  - intros i out Hi. apply (Permutation_in _ HP) in Hi. apply zrange_in in Hi. rewrite HD by auto.
    rewrite (dot_tile_spec O HR h A B a b); auto. apply rm_sti_inb; auto.
Qed.

Theorem C31_dot_partial :
  forall (O : Ops), is_ring O ->
  forall (A B : tt) (a b : list Z -> car O) (order : list Z) (h : heap (car O)),
    tt_ok A -> tt_ok B -> tt_sizes B = tt_sizes A -> tt_holds h A a -> tt_holds h B b ->
    Permutation order (zrange (zprod (grid A))) ->
    rev (grid A) = grid A ->
    tt_dot A B order h = Ok (lsum (indices (dense_dims (tt_sizes A))) (fun i => omul (a i) (b i))).
Proof.
  intros O HR A B a b order h OA OB HS HA HB HP Hpal. unfold tt_dot.
  assert (EG : grid B = grid A) by (unfold grid; now rewrite HS). rewrite EG.
  destruct (list_eq_dec Z.eq_dec (grid A) (grid A)) as [_|N]; [cbn [negb]|congruence].
  apply (dot_loop O HR); auto. intros i Hi. now rewrite palindrome_strides.
Qed.

(** [true_dot] (real elements): vectors and square grids of matrices. *)
Theorem C31_true_dot_partial :
  forall (O : Ops), is_ring O ->
  forall (A B : tt) (a b : list Z -> car O) (order : list Z) (h : heap (car O)),
    tt_ok A -> tt_ok B -> tt_sizes B = tt_sizes A -> tt_holds h A a -> tt_holds h B b ->
    Permutation order (zrange (zprod (grid A))) ->
    (exists n, grid A = [n] \/ grid A = [n; n]) ->
    tt_true_dot A B order h = Ok (lsum (indices (dense_dims (tt_sizes A))) (fun i => omul (a i) (b i))).
Proof.
  intros O HR A B a b order h OA OB HS HA HB HP (n & Hn). unfold tt_true_dot.
  assert (EG : grid B = grid A) by (unfold grid; now rewrite HS). rewrite EG.
  destruct (list_eq_dec Z.eq_dec (grid A) (grid A)) as [_|N]; [cbn [negb]|congruence].
  apply (dot_loop O HR); auto. intros i Hi. destruct Hn as [Hn|Hn]; rewrite Hn in *; cbn [zprod] in Hi.
  - unfold dot_strides, row_major_strides. simpl. now rewrite !Z.div_1_r.
  - unfold dot_strides, row_major_strides. cbn [rev app stride_scan true_dot_decode].
    rewrite Z.mul_1_l. cbn [sentinel_to_indices true_dot_decode].
    destruct (Z.eqb_spec n 0) as [->|Hn0]; [lia|]. cbn [Z.eqb]. rewrite !Z.div_1_r. reflexivity.
Qed.

(** Grid 1 x 2, one element per tile, both tensors (3, 5): the dense dot product
    is 34, the tiled one 9.  Grid 2 x 2 x 2, only element
    (0,1,0) nonzero, [true_dot]: 0 instead of 6. *)
Theorem C31_dot_refuted :
  (exists (A B : tt) (a b : list Z -> Z) (h : heap Z),
     tt_ok A /\ tt_ok B /\ tt_sizes B = tt_sizes A /\ @tt_holds ZOps h A a /\ @tt_holds ZOps h B b /\
     @tt_dot ZOps A B (zrange (zprod (grid A))) h = Ok 9 /\
     @lsum ZOps _ (indices (dense_dims (tt_sizes A))) (fun i => a i * b i) = 34) /\
  (exists (A B : tt) (a b : list Z -> Z) (h : heap Z),
     tt_ok A /\ tt_ok B /\ tt_sizes B = tt_sizes A /\ @tt_holds ZOps h A a /\ @tt_holds ZOps h B b /\
     @tt_true_dot ZOps A B (zrange (zprod (grid A))) h = Ok 0 /\
     @lsum ZOps _ (indices (dense_dims (tt_sizes A))) (fun i => a i * b i) = 6).
Proof.
  split.
  - assert (R := fun p q A B h1 h => reach2 ZOps ZOps_ring (first_fit 50) [[1]; [1; 1]] [[1]; [1; 1]] (fun _ => None) h1 h
      [TWrite [0; 0] 3; TWrite [0; 1] 5] [TWrite [0; 0] 3; TWrite [0; 1] 5] p q A B (first_fit_ok _ _)
      ltac:(split; [discriminate|repeat constructor; lia]) ltac:(split; [discriminate|repeat constructor; lia])
      ltac:(repeat constructor) ltac:(repeat constructor)).
    edestruct R as (R1 & R2 & R3 & R4 & R5 & R6 & _); [vm_compute; reflexivity|vm_compute; reflexivity|].
    do 5 eexists. split; [exact R1|]. split; [exact R2|]. split; [reflexivity|]. split; [exact R5|]. split; [exact R6|].
    split; vm_compute; reflexivity.
  - assert (R := fun p q A B h1 h => reach2 ZOps ZOps_ring (first_fit 50) [[1; 1]; [1; 1]; [1; 1]] [[1; 1]; [1; 1]; [1; 1]] (fun _ => None) h1 h
      [TWrite [0; 1; 0] 2] [TWrite [0; 1; 0] 3] p q A B (first_fit_ok _ _)
      ltac:(split; [discriminate|repeat constructor; lia]) ltac:(split; [discriminate|repeat constructor; lia])
      ltac:(repeat constructor) ltac:(repeat constructor)).
    edestruct R as (R1 & R2 & R3 & R4 & R5 & R6 & _); [vm_compute; reflexivity|vm_compute; reflexivity|].
    do 5 eexists. split; [exact R1|]. split; [exact R2|]. split; [reflexivity|]. split; [exact R5|]. split; [exact R6|].
    split; vm_compute; reflexivity.
Qed.

Example C31_case :
  exists p q A B h1 h, trun (O:=ZOps) (first_fit 50) [TWrite [0; 0] 2; TWrite [2; 1] 3; TWrite [2; 2] 4] (tt_ctor [[2; 1]; [1; 2]], fun _ => None) = Ok (p, (A, h1)) /\
    trun (O:=ZOps) (first_fit 50) [TWrite [2; 1] 5; TWrite [2; 2] 7; TWrite [0; 1] 9] (tt_ctor [[2; 1]; [1; 2]], h1) = Ok (q, (B, h)) /\
    rev (grid A) = grid A /\ has_tile A [0; 1] = false /\ has_tile B [0; 0] = false /\
    tt_dot (O:=ZOps) A B [3; 1; 0; 2] h = Ok 43 /\ tt_true_dot (O:=ZOps) A B [0; 1; 2; 3] h = Ok 43.
Proof.
  do 6 eexists. split; [vm_compute; reflexivity|]. split; [vm_compute; reflexivity|]. repeat split; vm_compute; reflexivity.
Qed.
Print Assumptions C31_dot_partial.
Print Assumptions C31_true_dot_partial.
Print Assumptions C31_dot_refuted.

(** ** C32: [set_all], [+=], [-=] with a scalar.
    Full claim: for every tensor.  Missing (and false, see the refutation):
    tensors some of whose tiles do not exist, when the scalar is not zero. *)
Theorem C32_updates_partial :
  forall (O : Ops), is_ring O ->
  forall (t : tt) (f : list Z -> car O) (v : car O) (order : list Z) (h : heap (car O)),
    tt_ok t -> tt_holds h t f ->
    Permutation order (zrange (zprod (grid t))) ->
    (v = o0 \/ forall c, inb c (grid t) -> has_tile t c = true) ->
    (exists t' h', tt_set_all v order (t, h) = Ok (t', h') /\
       (forall idx, inb idx (dense_dims (tt_sizes t)) -> tt_read t' idx h' = Ok v) /\
       (forall a, ~ tt_cell t a -> h' a = h a)) /\
    (exists t' h', tt_shift oadd v order (t, h) = Ok (t', h') /\
       (forall idx, inb idx (dense_dims (tt_sizes t)) -> tt_read t' idx h' = Ok (oadd (f idx) v)) /\
       (forall a, ~ tt_cell t a -> h' a = h a)) /\
    (exists t' h', tt_shift osub v order (t, h) = Ok (t', h') /\
       (forall idx, inb idx (dense_dims (tt_sizes t)) -> tt_read t' idx h' = Ok (osub (f idx) v)) /\
       (forall a, ~ tt_cell t a -> h' a = h a)).
Proof.
  intros O HR t f v order h Hok HH HP Hall. assert (R := ir_rt O HR).
  assert (RD : forall t' (h' : heap (car O)) (g : list Z -> car O), tt_ok t' -> tt_sizes t' = tt_sizes t -> tt_holds h' t' g ->
     forall idx, inb idx (dense_dims (tt_sizes t)) -> tt_read t' idx h' = Ok (g idx)).
  { intros t' h' g O1 S1 H1 idx Hi. apply (read_spec O); auto. rewrite (ok_dims t' O1), S1. now apply spell_self. }
  unfold tt_set_all, tt_shift. destruct (oeqb v o0) eqn:Ev.
  - apply (ir_eqb O HR) in Ev. subst v. destruct (zero_spec O h t Hok) as (Z1 & Z2 & Z3 & Z4).
    split; [|split].
    + exists (fst (tt_zero (t, h))), (snd (tt_zero (t, h))). split; [now destruct (tt_zero (t, h))|]. split; auto.
      apply (RD _ _ (fun _ => o0)); auto. intros idx c j P. now rewrite Z3.
    + exists t, h. split; auto. split; auto. intros idx Hi. rewrite (Radd_comm R), (Radd_0_l R). now apply RD.
    + exists t, h. split; auto. split; auto. intros idx Hi. rewrite (Rsub_def R).
      replace (oopp o0) with (@o0 O).
      * rewrite (Radd_comm R), (Radd_0_l R). now apply RD.
      * assert (X := Ropp_def R o0). now rewrite (Radd_0_l R) in X.
  - destruct Hall as [->|Hall].
    { exfalso. assert (X : oeqb (@o0 O) o0 = true) by (now apply (ir_eqb O HR)). congruence. }
    assert (Hpres : forall c, inb c (grid t) -> find_tile c (tt_tiles t) <> None).
    { intros c Ic Hn. specialize (Hall c Ic). rewrite has_tile_inb, Hn in Hall by auto. discriminate. }
    assert (FO : forall op : car O -> car O -> car O, exists t' h', (h' <- for_grid (tile_op op v) order t h ;; Ok (t, h')) = Ok (t', h') /\
       (forall idx, inb idx (dense_dims (tt_sizes t)) -> tt_read t' idx h' = Ok (op (f idx) v)) /\
       (forall a, ~ tt_cell t a -> h' a = h a)).
    { intros op. destruct (for_grid_spec O h t f (tile_op op v) (fun x => op x v) order Hok HH Hpres HP) as (h' & E & H1 & H2).
      - intros d dims g h1 Ed Dne DN Hg. apply (tile_op_spec O op v d dims g h1); auto.
      - rewrite E. cbn [bind]. exists t, h'. split; auto. split; auto. now apply RD. }
    split; [|split; [apply FO|apply FO]].
    cbn [fst snd].
    destruct (for_grid_spec O h t f (tile_fill v) (fun _ => v) order Hok HH Hpres HP) as (h' & E & H1 & H2).
    + intros d dims g h1 Ed Dne DN Hg. apply (tile_fill_spec O v d dims h1); auto. intros i Hi. exists (g i). auto.
    + rewrite E. cbn [bind]. exists t, h'. split; auto. split; auto. apply (RD _ _ (fun _ => v)); auto.
Qed.

(** A fresh 1 x 2 grid (no tiles): all three throw. *)
Theorem C32_updates_refuted :
  exists (t : tt) (h : heap Z), tt_ok t /\ @tt_holds ZOps h t (fun _ => 0) /\ sizes_ok (tt_sizes t) /\
    forall order, Permutation order (zrange (zprod (grid t))) ->
      @tt_set_all ZOps 5 order (t, h) = Throw /\ @tt_shift ZOps Z.add 5 order (t, h) = Throw /\ @tt_shift ZOps Z.sub 5 order (t, h) = Throw.
Proof.
  exists (tt_ctor [[1]; [1; 1]]), (fun _ => None).
  assert (S : sizes_ok [[1]; [1; 1]]) by (split; [discriminate|repeat constructor; lia]).
  split; [now apply ctor_ok|]. split; [intros idx c j P; reflexivity|]. split; [exact S|].
  intros order HP. destruct order as [|i order].
  - apply Permutation_length in HP. discriminate.
  - repeat split.
Qed.

Example C32_case :
  exists p A h A1 h1, trun (O:=ZOps) (first_fit 50) [TWrite [0; 0] 2; TWrite [0; -1] 3] (tt_ctor [[1]; [1; 2]], fun _ => None) = Ok (p, (A, h)) /\
    (forall c, inb c (grid A) -> has_tile A c = true) /\
    tt_shift (O:=ZOps) Z.sub 7 [1; 0] (A, h) = Ok (A1, h1) /\
    map (fun i => tt_read (O:=ZOps) A1 i h1) (indices [1; 3]) = map (@Ok Z) [-5; -7; -4].
Proof.
  do 5 eexists. split; [vm_compute; reflexivity|]. split.
  - intros c Hc. apply inb2_inv in Hc as (x & y & -> & Hx & Hy). cbn [length] in Hx, Hy. assert (x = 0) by lia.
    assert (y = 0 \/ y = 1) as [-> | ->] by lia; subst x; reflexivity.
  - split; vm_compute; reflexivity.
Qed.
Print Assumptions C32_updates_partial.
Print Assumptions C32_updates_refuted.

(** ** C49: [has_tile].
    The version taking integers answers, for every spelling of coordinates in
    the grid, whether the tile exists, and [false] for all other coordinates. *)
Theorem C49_has_tile :
  forall (t : tt) (ks : list Z), tt_ok t -> length ks = length (tt_sizes t) ->
    (forall c, spell (grid t) ks c -> (has_tile t ks = true <-> exists d, find_tile c (tt_tiles t) = Some d)) /\
    (~ (exists c, spell (grid t) ks c) -> has_tile t ks = false).
Proof.
  intros t ks Hok HL. unfold has_tile, grid.
  assert (W : forall sizes ks, length ks = length sizes ->
    match wrap_coords sizes ks with
    | Some c => spell (map (fun s => Z.of_nat (length s)) sizes) ks c
    | None => ~ (exists c, spell (map (fun s => Z.of_nat (length s)) sizes) ks c)
    end).
  { induction sizes as [|s ss IH]; intros [|k r] H; try discriminate; simpl; [constructor|].
    set (n := Z.of_nat (length s)). set (x := if k <? 0 then k + n else k).
    destruct ((x >=? n) || (x <? 0)) eqn:E.
    - intros (c & Hc). inversion Hc as [|d ds k' ks' i is (Hi & Hk) Hc']; subst. unfold x in E.
      destruct Hk as [->| ->].
      + destruct (Z.ltb_spec i 0); [lia|]. destruct (Z.geb_spec i n); [lia|]. destruct (Z.ltb_spec i 0); [lia|]. discriminate.
      + destruct (Z.ltb_spec (i - n) 0); [|lia]. replace (i - n + n) with i in E by lia.
        destruct (Z.geb_spec i n); [lia|]. destruct (Z.ltb_spec i 0); [lia|]. discriminate.
    - apply orb_false_iff in E as (E1 & E2). rewrite Z.geb_leb in E1. apply Z.leb_gt in E1. apply Z.ltb_ge in E2.
      assert (Hx : 0 <= x < n) by lia.
      assert (Hk : k = x \/ k = x - n) by (unfold x; destruct (k <? 0); lia).
      specialize (IH r ltac:(simpl in H; lia)). destruct (wrap_coords ss r) as [cs|].
      + constructor; [split; assumption|assumption].
      + intros (c & Hc). inversion Hc as [|d ds k' ks' i is _ Hc']; subst. apply IH. eauto. }
  specialize (W (tt_sizes t) ks HL). split.
  - intros c Hc. destruct (wrap_coords (tt_sizes t) ks) as [c'|].
    + assert (c' = c) by (rewrite <- (spell_normal _ _ _ W), <- (spell_normal _ _ _ Hc); reflexivity). subst c'.
      destruct (find_tile c (tt_tiles t)) as [d|]; split; auto; try discriminate; [eauto|]. intros (d & Hd). discriminate.
    + elim W. eauto.
  - intros Hn. destruct (wrap_coords (tt_sizes t) ks) as [c'|]; auto. elim Hn. eauto.
Qed.

(** The version taking a container (line 343).  Full claim: as for integers.
    Missing (and false): negative coordinates. *)
Theorem C49_has_tile_container_partial :
  forall (t : tt) (ks : list Z), tt_ok t -> length ks = length (tt_sizes t) -> Forall (fun k => 0 <= k) ks ->
    has_tile_c t ks = has_tile t ks.
Proof.
  intros t ks Hok HL HN. unfold has_tile_c, has_tile.
  assert (W : forall sizes ks, length ks = length sizes -> Forall (fun k => 0 <= k) ks ->
    if coords_in sizes ks then wrap_coords sizes ks = Some ks else wrap_coords sizes ks = None).
  { induction sizes as [|s ss IH]; intros [|k r] H HF; try discriminate; simpl; auto.
    inversion HF as [|x l Hk HF']; subst x l. rewrite (proj2 (Z.ltb_ge k 0) Hk). rewrite ?(proj2 (Z.ltb_ge k 0) Hk), !orb_false_r.
    destruct (k >=? Z.of_nat (length s)); auto.
    specialize (IH r ltac:(simpl in H; lia) HF'). destruct (coords_in ss r); rewrite IH; auto. }
  specialize (W (tt_sizes t) ks HL HN). destruct (coords_in (tt_sizes t) ks); now rewrite W.
Qed.
Theorem C49_has_tile_container_refuted :
  exists t, tt_ok t /\ has_tile t [-1] = true /\ has_tile_c t [-1] = false.
Proof.
  assert (R := fun p t h => reach ZOps ZOps_ring (first_fit 9) [[1; 1]] (fun _ => None) [TWrite [-1] 4] p t h (first_fit_ok _ _)
    ltac:(split; [discriminate|repeat constructor; lia]) ltac:(repeat constructor)).
  edestruct R as (R1 & _); [vm_compute; reflexivity|]. eexists. split; [exact R1|]. split; reflexivity.
Qed.
Example C49_case : exists p t h, trun (O:=ZOps) (first_fit 50) [TTile [-1; 0]] (tt_ctor [[1; 2]; [3]], fun _ => None) = Ok (p, (t, h)) /\
  has_tile t [1; 0] = true /\ has_tile t [-1; -1] = true /\ has_tile t [0; 0] = false /\ has_tile t [2; 0] = false /\ spell (grid t) [-1; -1] [1; 0].
Proof.
  do 3 eexists. split; [vm_compute; reflexivity|]. repeat split; try (vm_compute; reflexivity).
  repeat constructor; vm_compute; auto; congruence.
Qed.
Print Assumptions C49_has_tile.
Print Assumptions C49_has_tile_container_partial.
Print Assumptions C49_has_tile_container_refuted.

(** ** C50: assignment.
    Full claim: after [t = u] (also when [u] is [t]) every element of [t] reads as
    that of [u] before, [u] is unchanged and the two share no memory.  Missing
    (and false): self-assignment. *)
Theorem C50_assign_partial :
  forall (O : Ops), is_ring O ->
  forall (al : heap (car O) -> Z -> option Z) (t u : tt) (g : list Z -> car O) (h : heap (car O)),
    al_ok al -> tt_ok t -> tt_ok u -> tt_holds h u g -> tt_disj t u ->
    ((exists h1 n, al h1 n = None) /\ tt_assign al (Some u) (t, h) = Throw) \/
    exists t' h', tt_assign al (Some u) (t, h) = Ok (t', h') /\ tt_ok t' /\ tt_sizes t' = tt_sizes u /\
      (forall idx, inb idx (dense_dims (tt_sizes u)) -> tt_read t' idx h' = Ok (g idx)) /\
      (forall idx, inb idx (dense_dims (tt_sizes u)) -> tt_read u idx h' = Ok (g idx)) /\
      tt_disj t' u /\
      (forall a, h a <> None -> ~ tt_cell t a -> h' a = h a).
Proof.
  intros O HR al t u g h Hal OT OU HG HD. unfold tt_assign.
  destruct (zero_spec O h t OT) as (Z1 & Z2 & Z3 & Z4).
  set (h0 := snd (tt_zero (t, h))) in *. set (t0 := mkTT (tt_sizes u) (tt_offsets u) (tt_dims u) []).
  assert (O0 : tt_ok t0) by (constructor; simpl; try discriminate; try constructor; apply OU).
  assert (H0 : tt_holds h0 u g).
  { apply (holds_frame O h h0 u g OU HG). intros a Ha. apply Z4. intros Hc. apply (HD a Hc Ha). }
  destruct (ok_sizes u OU) as (_ & HF).
  destruct (patch_loop_inv (fun rest t => NoDup (map fst rest) /\ forall p, In p rest -> find_tile (fst p) (tt_tiles t) = None)
    (fun p : list Z * desc => fst p)
    (fun p s => r <- add_tile al (fst p) s ;; h' <- tile_copy (snd p) (fst r) (snd (snd r)) ;; Ok (fst (snd r), h'))
    (tt_sizes u) (fun idx _ => g idx) [(u, g)] (exists h1 n, al h1 n = None) (tt_tiles u)) with (t := t0) (h := h0) (c := fun _ : list Z => @o0 O)
    as [X|(t' & h' & E & O1 & S1 & H1 & N1 & N0 & N2)]; auto.
  - apply (ok_keys u OU).
  - intros p rest t1 h1 f1 Hp (Hnd & Hinv) O1 S1 H1 HP. inversion HP as [|x l (_ & PU & PD) _]; subst x l. cbn [fst snd] in PU, PD.
    assert (Ee : find_tile (fst p) (tt_tiles u) = Some (snd p)).
    { apply in_find_tile; [apply (ok_keys u OU)|]. now destruct p. }
    destruct (add_copy_spec al Hal u g OU t1 h1 f1 (fst p) (snd p) (fun _ h => Ok h) (fun y => y) O1 S1 H1 PU PD Ee (Hinv p (or_introl eq_refl)))
      as [X|(t' & h' & E & R1 & R2 & R3 & R4 & R5 & R6 & R7)].
    + intros d dims k h2 _ _ _ Hk. exists h2. auto.
    + left. exact X.
    + right. exists t', h'. split; [exact E|]. simpl map in Hnd. inversion Hnd as [|x l Hni Hnd']; subst x l.
      split; [|auto 8]. split; [auto|]. intros q Hq.
      assert (Hne : fst q <> fst p) by (intros Eq; apply Hni; rewrite <- Eq; now apply in_map).
      rewrite R7 by auto. apply Hinv. now right.
  - split; [apply (ok_keys u OU)|]. intros p Hp. reflexivity.
  - intros idx c j P. reflexivity.
  - constructor; [|constructor]. cbn [fst snd]. split; auto. split; auto. intros a (c & d & Hc & _). discriminate.
  - right. exists t', h'. split; auto. split; auto. split; auto.
    assert (Hg : tt_holds h' t' g).
    { revert H1. apply tt_holds_ext. rewrite S1. intros idx c j P. rewrite (coord_pos _ _ _ _ HF P).
      destruct (in_dec _ c _) as [_|Hn]; auto. assert (X := HG idx c j P). destruct (find_tile c (tt_tiles u)) as [d|] eqn:Ec; auto.
      elim Hn. apply in_map_iff. exists (c, d). split; auto. now apply find_tile_in. }
    assert (C0 : forall a, ~ tt_cell t0 a) by (intros a (c & d & Hc & _); discriminate).
    split; [|split; [|split]].
    + intros idx Hi. apply (read_spec O); auto. rewrite (ok_dims t' O1), S1. now apply spell_self.
    + intros idx Hi. apply (read_spec O); auto.
      * apply (holds_frame O h0 h' u g OU H0). intros a Ha. apply N2; auto. apply (cell_alloc O h0 u g a OU H0 Ha).
      * rewrite (ok_dims u OU). now apply spell_self.
    + intros a Ha Hu. destruct (N1 a Ha) as [Hc|Hn]; [elim (C0 a Hc)|]. apply (cell_alloc O h0 u g a OU H0 Hu Hn).
    + intros a Ha Hc. rewrite N2; auto. rewrite Z4 by auto. auto.
Qed.

(** Self-assignment loses the contents. *)
Theorem C50_self_assign_refuted :
  exists (al : heap Z -> Z -> option Z) (t t' : tt) (g : list Z -> Z) (h h' : heap Z),
    al_ok al /\ tt_ok t /\ @tt_holds ZOps h t g /\ tt_assign (O:=ZOps) al None (t, h) = Ok (t', h') /\
    g [1] = 4 /\ tt_read (O:=ZOps) t [1] h = Ok 4 /\ tt_read (O:=ZOps) t' [1] h' = Ok 0.
Proof.
  assert (R := fun p t h => reach ZOps ZOps_ring (first_fit 9) [[1; 1]] (fun _ => None) [TWrite [-1] 4] p t h (first_fit_ok _ _)
    ltac:(split; [discriminate|repeat constructor; lia]) ltac:(repeat constructor)).
  edestruct R as (R1 & _ & R2 & _); [vm_compute; reflexivity|].
  do 6 eexists. split; [apply (first_fit_ok Z 9)|]. split; [exact R1|]. split; [exact R2|]. split; [vm_compute; reflexivity|].
  repeat split; vm_compute; reflexivity.
Qed.

Example C50_case :
  exists p q A B A' h1 h h',
    trun (O:=ZOps) (first_fit 50) [TWrite [2] 8] (tt_ctor [[1; 2]], fun _ => None) = Ok (p, (A, h1)) /\
    trun (O:=ZOps) (first_fit 50) [TWrite [0; 0] 2; TWrite [2; 1] 3] (tt_ctor [[2; 1]; [1; 2]], h1) = Ok (q, (B, h)) /\
    tt_assign (O:=ZOps) (first_fit 50) (Some B) (A, h) = Ok (A', h') /\
    map (fun i => tt_read (O:=ZOps) A' i h') (indices [3; 3]) = map (@Ok Z) [2; 0; 0; 0; 0; 0; 0; 3; 0] /\
    map (fun i => tt_read (O:=ZOps) B i h') (indices [3; 3]) = map (@Ok Z) [2; 0; 0; 0; 0; 0; 0; 3; 0].
Proof.
  do 8 eexists. split; [vm_compute; reflexivity|]. split; [vm_compute; reflexivity|]. split; [vm_compute; reflexivity|].
  split; vm_compute; reflexivity.
Qed.
Print Assumptions C50_assign_partial.
Print Assumptions C50_self_assign_refuted.

(** ** C51: [+=] and [-=] with a tiled tensor. *)
Theorem C51_add_sub :
  forall (O : Ops), is_ring O ->
  forall (al : heap (car O) -> Z -> option Z) (t u : tt) (f g : list Z -> car O) (h : heap (car O)),
    al_ok al -> tt_ok t -> tt_ok u -> tt_sizes u = tt_sizes t -> tt_holds h t f -> tt_holds h u g -> tt_disj t u ->
    (((exists h1 n, al h1 n = None) /\ tt_add al u (t, h) = Throw) \/
     exists t' h', tt_add al u (t, h) = Ok (t', h') /\ tt_ok t' /\ tt_sizes t' = tt_sizes t /\
      (forall idx, inb idx (dense_dims (tt_sizes t)) -> tt_read t' idx h' = Ok (oadd (f idx) (g idx))) /\
      (forall a, h a <> None -> ~ tt_cell t a -> h' a = h a)) /\
    (((exists h1 n, al h1 n = None) /\ tt_sub al u (t, h) = Throw) \/
     exists t' h', tt_sub al u (t, h) = Ok (t', h') /\ tt_ok t' /\ tt_sizes t' = tt_sizes t /\
      (forall idx, inb idx (dense_dims (tt_sizes t)) -> tt_read t' idx h' = Ok (osub (f idx) (g idx))) /\
      (forall a, h a <> None -> ~ tt_cell t a -> h' a = h a)).
Proof.
  intros O HR al t u f g h Hal OT OU HS HH HG HD. assert (R := ir_rt O HR).
  destruct (ok_sizes u OU) as (_ & HF).
  assert (M : forall (cmb : car O -> car O -> car O) post (w : car O -> car O) (step : list Z * desc -> tt * heap (car O) -> res (tt * heap (car O))),
    (forall y, cmb o0 y = w y) -> (forall x, cmb x o0 = x) ->
    (forall d dims k h1, d = tensor_ctor (dbase d) dims -> dims <> [] -> nonneg dims -> holds h1 d k ->
       exists h2, post d h1 = Ok h2 /\ holds h2 d (fun i => w (k i)) /\ (forall a, ~ cell d a -> h2 a = h1 a)) ->
    (forall p t h, step p (t, h) = if has_tile_c t (fst p) then
        d <- const_tile t (fst p) ;; h' <- tile_op2 cmb (snd p) d h ;; Ok (t, h')
      else
        r <- add_tile al (fst p) (t, h) ;; h1 <- tile_copy (snd p) (fst r) (snd (snd r)) ;;
        h' <- post (fst r) h1 ;; Ok (fst (snd r), h')) ->
    ((exists h1 n, al h1 n = None) /\ forM (tt_tiles u) step (t, h) = Throw) \/
     exists t' h', forM (tt_tiles u) step (t, h) = Ok (t', h') /\ tt_ok t' /\ tt_sizes t' = tt_sizes t /\
      (forall idx, inb idx (dense_dims (tt_sizes t)) -> tt_read t' idx h' = Ok (cmb (f idx) (g idx))) /\
      (forall a, h a <> None -> ~ tt_cell t a -> h' a = h a)).
  { intros cmb post w step Hcmb Hc0 Hpost Hstep.
    destruct (patch_loop (fun p : list Z * desc => fst p) step (tt_sizes u) (fun idx x => cmb x (g idx)) [(u, g)]
      (exists h1 n, al h1 n = None) (tt_tiles u)) with (t := t) (h := h) (c := f)
      as [X|(t' & h' & E & O1 & S1 & H1 & N1 & N0 & N2)]; auto.
    - apply (ok_keys u OU).
    - intros p t1 h1 f1 Hp O1 S1 H1 HP. inversion HP as [|x l (_ & PU & PD) _]; subst x l. cbn [fst snd] in PU, PD.
      rewrite Hstep. apply (merge_step_spec al Hal u g OU cmb post w Hcmb Hpost p t1 h1 f1); auto.
    - right. exists t', h'. split; auto. split; auto. split; [congruence|]. split; auto.
      intros idx Hi. rewrite <- HS in Hi.
      rewrite (read_spec O h' t' _ idx idx O1 H1) by (rewrite (ok_dims t' O1), S1; now apply spell_self).
      f_equal. destruct (tile_pos_cover _ _ HF Hi) as (c & j & P). rewrite (coord_pos _ _ _ _ HF P).
      destruct (in_dec _ c _) as [_|Hn]; auto. assert (X := HG idx c j P). destruct (find_tile c (tt_tiles u)) as [d|] eqn:Ec.
      + elim Hn. apply in_map_iff. exists (c, d). split; auto. now apply find_tile_in.
      + rewrite X. symmetry. apply Hc0. }
  assert (SL : same_layout t u = true).
  { unfold same_layout. destruct (list_eq_dec _ _ _); congruence. }
  unfold tt_add, tt_sub. cbn [fst]. rewrite SL. cbn [negb].
  assert (Z0 : oopp (@o0 O) = o0) by (assert (X := Ropp_def R o0); now rewrite (Radd_0_l R) in X).
  split.
  - apply (M oadd (fun _ h => Ok h) (fun y => y)).
    + intros y. apply (Radd_0_l R).
    + intros x. rewrite (Radd_comm R). apply (Radd_0_l R).
    + intros d dims k h1 _ _ _ Hk. exists h1. auto.
    + intros p t1 h1. reflexivity.
  - apply (M osub (fun d h => tile_op omul (oopp o1) d h) (fun y => omul y (oopp o1))).
    + intros y. rewrite (Rsub_def R), (Radd_0_l R), (Rmul_comm R). symmetry. apply (opp_one HR).
    + intros x. rewrite (Rsub_def R), Z0, (Radd_comm R). apply (Radd_0_l R).
    + intros d dims k h1 Ed Dne DN Hk. apply (tile_op_spec O omul (oopp o1) d dims k h1); auto.
    + intros p t1 h1. reflexivity.
Qed.

Theorem C51_rejects :
  forall (O : Ops) (al : heap (car O) -> Z -> option Z) (t u : tt) (h : heap (car O)),
    tt_sizes u <> tt_sizes t -> tt_add al u (t, h) = Throw /\ tt_sub al u (t, h) = Throw.
Proof.
  intros O al t u h Hn. unfold tt_add, tt_sub, same_layout. cbn [fst].
  destruct (list_eq_dec _ _ _) as [E|_]; [congruence|]. auto.
Qed.

Example C51_case :
  exists p q A B A' h1 h h',
    trun (O:=ZOps) (first_fit 50) [TWrite [0; 1] 8; TWrite [2; 2] 1] (tt_ctor [[2; 1]; [1; 2]], fun _ => None) = Ok (p, (A, h1)) /\
    trun (O:=ZOps) (first_fit 50) [TWrite [0; 0] 2; TWrite [2; 1] 3] (tt_ctor [[2; 1]; [1; 2]], h1) = Ok (q, (B, h)) /\
    tt_sub (O:=ZOps) (first_fit 50) B (A, h) = Ok (A', h') /\ has_tile A [0; 0] = false /\ has_tile A' [0; 0] = true /\
    map (fun i => tt_read (O:=ZOps) A' i h') (indices [3; 3]) = map (@Ok Z) [-2; 8; 0; 0; 0; 0; 0; -3; 1].
Proof.
  do 8 eexists. split; [vm_compute; reflexivity|]. split; [vm_compute; reflexivity|]. split; [vm_compute; reflexivity|].
  repeat split; vm_compute; reflexivity.
Qed.
Print Assumptions C51_add_sub.
Print Assumptions C51_rejects.

(** ** C52: conversion to a dense tensor. *)
Theorem C52_to_dense :
  forall (O : Ops) (t : tt) (f : list Z -> car O) (base : Z) (h : heap (car O)),
    tt_ok t -> tt_holds h t f ->
    (forall a, base <= a < base + zprod (dense_dims (tt_sizes t)) -> h a = None) ->
    exists d h', tt_to_dense base t h = Ok (d, h') /\ ddims d = dense_dims (tt_sizes t) /\ holds h' d f /\
      (forall a, h a <> None -> h' a = h a).
Proof.
  intros O t f base h Hok HH Hfree. unfold tt_to_dense. rewrite (ok_dims t Hok).
  destruct (ok_sizes t Hok) as (Hne & HF). set (dims := dense_dims (tt_sizes t)).
  assert (Dne : dims <> []) by (unfold dims, dense_dims; destruct (tt_sizes t); [congruence|discriminate]).
  assert (DN : nonneg dims).
  { unfold dims, dense_dims, nonneg. apply Forall_forall. intros d Hd. apply in_map_iff in Hd as (s & <- & Hs).
    apply off_nonneg. rewrite Forall_forall in HF. auto. }
  set (d := tensor_ctor base dims). set (h0 := alloc_buffer o0 base (data_size dims) h).
  assert (Hcell : forall a, cell d a <-> base <= a < base + data_size dims).
  { intros a. unfold d. rewrite tensor_cell by auto. now rewrite data_size_eq by auto. }
  assert (HA : alloc h0 d).
  { intros j Hj. exists o0. unfold h0. apply alloc_buffer_cell. apply Hcell. exists j. auto. }
  destruct (tile_fill_spec O o0 d dims h0 eq_refl Dne DN HA) as (h1 & E & V & F).
  unfold tile_fill in E. simpl dbase in E. simpl ddims in E. rewrite E. cbn [bind].
  assert (Fr : forall a, ~ cell d a -> h1 a = h a).
  { intros a Ha. rewrite F by auto. unfold h0. apply alloc_buffer_other. rewrite <- Hcell. auto. }
  assert (Sep : forall a, tt_cell t a -> ~ cell d a).
  { intros a Ha Hd. apply Hcell in Hd. rewrite data_size_eq in Hd by auto. apply (cell_alloc O h t f a Hok HH Ha). auto. }
  destruct (forM_cells (list Z) (car O) (indices dims) (addr d) f
    (fun idx h => v <- tt_read t idx h ;; wr h (subscript d idx) v) h1) as (h' & E' & V' & F').
  - exact (addr_NoDup d (rm_inj base dims)).
  - intros idx h2 Hi Hag. apply in_indices in Hi.
    assert (H2 : tt_holds h2 t f).
    { apply (holds_frame O h h2 t f Hok HH). intros a Ha. rewrite Hag.
      - apply Fr. now apply Sep.
      - right. intros Hin. apply in_map_iff in Hin as (x & <- & Hx). apply in_indices in Hx. apply (Sep _ Ha). exists x; auto. }
    rewrite (read_spec O h2 t f idx idx Hok H2) by (rewrite (ok_dims t Hok); now apply spell_self). cbn [bind].
    rewrite subscript_inb by auto. apply (wr_some _ _ _ _ (@o0 O)). rewrite Hag by auto. now apply V.
  - rewrite E'. cbn [bind]. exists d, h'. split; auto. split; auto. split.
    + intros idx Hi. apply V'. now apply in_indices.
    + intros a Ha. assert (Hc : ~ cell d a).
      { intros Hc. apply Hcell in Hc. rewrite data_size_eq in Hc by auto. apply Ha. auto. }
      rewrite F'; [now apply Fr|]. intros Hin. apply in_map_iff in Hin as (x & <- & Hx). apply in_indices in Hx. apply Hc. exists x; auto.
Qed.
Example C52_case :
  exists p t h d h', trun (O:=ZOps) (first_fit 50) [TWrite [0; 1] 8; TWrite [2; 2] 1] (tt_ctor [[2; 1]; [1; 2]], fun _ => None) = Ok (p, (t, h)) /\
    tt_to_dense (O:=ZOps) 60 t h = Ok (d, h') /\ map h' (map (Z.add 60) (zrange 9)) = map (@Some Z) [0; 8; 0; 0; 0; 0; 0; 0; 1] /\
    (forall a, 60 <= a < 60 + zprod (dense_dims (tt_sizes t)) -> h a = None).
Proof.
  do 5 eexists. split; [vm_compute; reflexivity|]. split; [vm_compute; reflexivity|]. split; [vm_compute; reflexivity|].
  intros a Ha. change (zprod _) with 9 in Ha.
  assert (X : In a (map (Z.add 60) (zrange 9))) by (apply in_map_iff; exists (a - 60); split; [lia|apply zrange_in; lia]).
  vm_compute in X. repeat (destruct X as [<-|X]; [vm_compute; reflexivity|]). contradiction.
Qed.
Print Assumptions C52_to_dense.
