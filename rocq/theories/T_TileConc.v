(** * T_TileConc: tiled matrices, loops shared between threads (C118, C119). *)
From Coq Require Import List ZArith Lia Bool Permutation.
From Verif Require Import Base Heap Conc M_Addr M_Elt M_Einsum M_Blas M_Block M_Tiled S_Addr S_Einsum S_Blas S_Block S_Tiled
  L_Addr L_Elt L_Einsum L_Blas L_Block L_Tiled T_Blas L_TGemm T_Tiled.
From Verif Require Import M_TileConc L_TileConc L_TileGemv.
Import ListNotations.
Open Scope Z_scope.

(** ** C118: tiled matrix times vector.
    [a]: the matrix A represents, any subset of its tiles exists; [si], [sk]: tile
    sizes of the rows and columns of op(A); [x] a vector with any stride, [y] a
    tensor.  The products of tiles are done in any order [order].  The result is
    [alpha * op(a) * x + beta * y]; nothing fails; memory outside y is unchanged. *)
Theorem C118_gemv :
  forall (O : Ops), is_ring O ->
  forall (TransA : bool) (alpha beta : car O) (A : tt) (si sk : list Z) (x y : desc) (incx yb : Z)
         (a xv yv : list Z -> car O) (order : list (Z * Z)) (h : heap (car O)),
    tt_ok A -> tt_sizes A = (if TransA then [sk; si] else [si; sk]) ->
    vect x (off sk (length sk)) incx -> y = tensor_ctor yb [off si (length si)] ->
    tt_holds h A a -> holds h x xv -> holds h y yv ->
    disj y x -> (forall z, cell y z -> ~ tt_cell A z) ->
    Permutation order (list_prod (zrange (Z.of_nat (length si))) (zrange (Z.of_nat (length sk)))) ->
    exists h', tt_gemv TransA alpha A x beta y order h = Ok h' /\
      (forall p, 0 <= p < off si (length si) ->
         h' (addr y [p]) =
           Some (oadd (omul alpha (zsum (off sk (length sk)) (fun q => omul (op TransA a p q) (xv [q]))))
                      (omul beta (yv [p])))) /\
      (forall z, ~ cell y z -> h' z = h z).
Proof.
  intros O HR TA alpha beta A si sk x y incx yb a xv yv order h OA SA VX Ey HA HX HY DX DA HP. assert (R := ir_rt O HR).
  assert (NN : Forall (fun n => 0 <= n) si /\ Forall (fun n => 0 <= n) sk).
  { destruct (ok_sizes A OA) as (_ & FA). rewrite SA in FA.
    destruct TA; inversion FA as [|u l F1 FA']; subst u l; inversion FA' as [|u l F2 _]; subst u l; auto. }
  destruct NN as (Ni & Nk).
  assert (VY : vect y (off si (length si)) 1).
  { rewrite Ey. split; [reflexivity|]. split; [reflexivity|lia]. }
  assert (Ey' : y = tensor_ctor (dbase y) [off si (length si)]) by (rewrite Ey; reflexivity).
  assert (DN : nonneg [off si (length si)]) by (repeat constructor; apply off_nonneg; auto).
  assert (S0 : exists h1, (if oeqb beta o0 then tile_fill o0 y h else tile_op omul beta y h) = Ok h1 /\
            holds h1 y (cur TA alpha beta si sk a xv yv []) /\ (forall z, ~ cell y z -> h1 z = h z)).
  { assert (C0 : forall p, cur TA alpha beta si sk a xv yv [] [p] = omul beta (yv [p])).
    { intros p. unfold cur. cbn [nth]. change (lsum [] ?g) with (@o0 O). rewrite (omul_0_r HR). apply (Radd_0_l R). }
    destruct (oeqb beta o0) eqn:EB.
    - destruct (tile_fill_spec O o0 y _ h Ey' ltac:(discriminate) DN) as (h1 & E1 & V1 & F1); [intros l Hl; eauto|].
      exists h1. split; auto. split; auto. intros l Hl. rewrite (V1 l Hl). f_equal.
      destruct VY as (D & _). rewrite D in Hl. apply one in Hl as (p & -> & Hp). rewrite C0.
      apply (ir_eqb O HR) in EB. rewrite EB. symmetry. apply (omul_0_l HR).
    - destruct (tile_op_spec O omul beta y _ _ h Ey' ltac:(discriminate) DN HY) as (h1 & E1 & V1 & F1).
      exists h1. split; auto. split; auto. intros l Hl. rewrite (V1 l Hl). f_equal.
      destruct VY as (D & _). rewrite D in Hl. apply one in Hl as (p & -> & Hp). rewrite C0. apply (Rmul_comm R). }
  destruct S0 as (h1 & E1 & V1 & F1). unfold tt_gemv. rewrite E1. cbn [bind].
  destruct (gemv_loop HR TA alpha beta A si sk a OA SA Ni Nk x y incx xv yv VX VY DX DA order h1 []) as (h2 & E2 & V2 & F2); auto.
  - intros (i, j) Hij. apply (Permutation_in _ HP) in Hij. apply in_prod_iff in Hij as (I1 & I2).
    apply zrange_in in I1. apply zrange_in in I2. auto.
  - apply (holds_frame O h h1 A a OA HA). intros z Hz. apply F1. intros Hc. apply (DA z Hc Hz).
  - intros l Hl. rewrite F1; [apply HX; auto|]. intros (l' & Hl' & El). apply (DX l' l Hl' Hl). auto.
  - rewrite E2. exists h2. split; auto. split; [|intros z Hz; rewrite F2, F1; auto].
    intros p Hp. rewrite V2.
    + f_equal. apply (cur_all HR TA alpha beta si sk a Ni Nk xv yv order p HP Hp).
    + destruct VY as (D & _). rewrite D. apply inb_cons. split; auto. constructor.
Qed.

(** A has tiles (0,0) and (1,1) of a 2 x 2 grid with sizes 2,1 and 1,2; the
    transposed product with a stride-2 vector, tiles in a mixed order. *)
Example C118_case :
  let al := first_fit 100 in
  exists A p h h1 h2 h3,
    trun (O := ZOps) al [TWrite [0; 0] 2; TWrite [1; 0] 3; TWrite [2; 1] 5; TWrite [2; 2] 7] (tt_ctor [[2; 1]; [1; 2]], fun _ => None)
      = Ok (p, (A, h)) /\
    has_tile A [0; 1] = false /\
    (h1 = fun z => if (200 <=? z) && (z <? 206) then Some (z - 199) else if (300 <=? z) && (z <? 303) then Some 10 else h z) /\
    tt_gemv (O := ZOps) true 100 A (mkDesc 200 [3] [2]) 2 (tensor_ctor 300 [3]) [(1, 1); (0, 1); (1, 0); (0, 0)] h1 = Ok h2 /\
    map h2 [300; 301; 302] = [Some 1120; Some 2520; Some 3520] /\
    tt_gemv (O := ZOps) false 1 A (mkDesc 200 [3] [2]) 0 (tensor_ctor 300 [3]) [(0, 0); (0, 1); (1, 0); (1, 1)] h1 = Ok h3 /\
    map h3 [300; 301; 302] = [Some 2; Some 3; Some 50].
Proof.
  do 6 eexists. split; [vm_compute; reflexivity|]. split; [reflexivity|]. split; [reflexivity|].
  split; [vm_compute; reflexivity|]. split; [vm_compute; reflexivity|]. split; [vm_compute; reflexivity|]. vm_compute; reflexivity.
Qed.

(** ** C119: tiled matrix product with one thread per tile of C.
    [sched] says whose thread makes each step; any schedule.  Nothing fails except
    for an exhausted allocator; every element whose thread has finished has its
    final value, whatever the other threads are doing; memory in use before and
    not part of C is unchanged. *)
Theorem C119_gemm :
  forall (O : Ops), is_ring O ->
  forall (al : heap (car O) -> Z -> option Z) (TransA TransB : bool) (alpha beta : car O) (A B C : tt)
         (si sj sk : list Z) (a b c : list Z -> car O) (sched : list (list Z)) (h : heap (car O)),
    al_ok al -> tt_ok A -> tt_ok B -> tt_ok C ->
    tt_sizes A = (if TransA then [sk; si] else [si; sk]) ->
    tt_sizes B = (if TransB then [sj; sk] else [sk; sj]) ->
    tt_sizes C = [si; sj] ->
    tt_holds h A a -> tt_holds h B b -> tt_holds h C c -> tt_disj C A -> tt_disj C B ->
    (forall ij, In ij sched -> inb ij [Z.of_nat (length si); Z.of_nat (length sj)]) ->
    ((exists h1 n, al h1 n = None) /\ gemm_run al TransA TransB alpha A B beta sched (C, h) = Throw) \/
    exists phase C' h', gemm_run al TransA TransB alpha A B beta sched (C, h) = Ok (phase, (C', h')) /\
      (forall x y ij l, tile_pos [si; sj] [x; y] ij l -> phase ij = GDone ->
         tt_read C' [x; y] h' =
           Ok (oadd (omul alpha (zsum (off sk (length sk)) (fun p => omul (op TransA a x p) (op TransB b p y))))
                    (omul beta (c [x; y])))) /\
      (forall x y ij l, tile_pos [si; sj] [x; y] ij l -> phase ij = GStart -> tt_read C' [x; y] h' = Ok (c [x; y])) /\
      tt_ok C' /\ tt_sizes C' = [si; sj] /\
      (forall z, h z <> None -> ~ tt_cell C z -> h' z = h z).
Proof.
  intros O HR al TA TB alpha beta A B C si sj sk a b c sched h Hal OA OB OC SA SB SC HA HB HC DA DB HI.
  unfold gemm_run. cbn [fst].
  assert (EA0 : op_sizes TA A 0 = si) by (unfold op_sizes; rewrite SA; destruct TA; reflexivity).
  assert (EA1 : op_sizes TA A 1 = sk) by (unfold op_sizes; rewrite SA; destruct TA; reflexivity).
  assert (EB0 : op_sizes TB B 0 = sk) by (unfold op_sizes; rewrite SB; destruct TB; reflexivity).
  assert (EB1 : op_sizes TB B 1 = sj) by (unfold op_sizes; rewrite SB; destruct TB; reflexivity).
  rewrite EA0, EA1, EB0, EB1, SC. cbn [nth]. unfold list_eqb.
  repeat (destruct (list_eq_dec Z.eq_dec _ _) as [_|N]; [cbn [negb]|congruence]).
  destruct (ok_sizes C OC) as (_ & FC). rewrite SC in FC. inversion FC as [|x l Ni FC']; subst x l. inversion FC' as [|x l Nj _]; subst x l.
  assert (Nk : Forall (fun n => 0 <= n) sk).
  { destruct (ok_sizes A OA) as (_ & FA). rewrite SA in FA.
    destruct TA; inversion FA as [|x l F1 FA']; subst x l; auto. inversion FA' as [|x l F2 _]; subst x l; auto. }
  assert (G0 : ginv TA TB alpha beta si sj sk a b c h C (fun _ => GStart, (C, h))).
  { unfold ginv. cbn [fst snd]. split; auto. split; auto. split; [exact HC|]. split; [intros ij; exact I|]. auto. }
  destruct (run_inv HR al Hal TA TB alpha beta A B si sj sk a b OA OB SA SB Ni Nj Nk c h C HA HB DA DB sched _ G0 HI)
    as [X|((ph & C' & h') & E & (O1 & S1 & H1 & P1 & N1 & N2 & N3))]; [left; exact X|].
  right. exists ph, C', h'. cbn [fst snd] in *. split; auto.
  assert (RD : forall x y ij l, tile_pos [si; sj] [x; y] ij l ->
     tt_read C' [x; y] h' = Ok (pval TA TB alpha beta sk a b c (ph ij) [x; y])).
  { intros x y ij l P. destruct (tile_pos_inb _ _ _ _ FC P) as (Ixy & _).
    rewrite (read_spec O h' C' _ [x; y] [x; y] O1 H1).
    - now rewrite (coord_pos _ _ _ _ FC P).
    - rewrite (ok_dims C' O1), S1. now apply spell_self. }
  split; [|split; [|auto]].
  - intros x y ij l P EP. rewrite (RD x y ij l P), EP. reflexivity.
  - intros x y ij l P EP. rewrite (RD x y ij l P), EP. reflexivity.
Qed.

(** Apart from memory just allocated, a step of the thread of a position changes
    only the tile of C at that position: steps of different threads never write
    the same memory. *)
Theorem C119_own_tile :
  forall (O : Ops), is_ring O ->
  forall (al : heap (car O) -> Z -> option Z) (TransA TransB : bool) (alpha beta : car O) (A B C : tt)
         (si sj sk : list Z) (a b c : list Z -> car O) (sched : list (list Z)) (ij : list Z) (h : heap (car O))
         phase1 phase2 (C1 C2 : tt) (h1 h2 : heap (car O)),
    al_ok al -> tt_ok A -> tt_ok B -> tt_ok C ->
    tt_sizes A = (if TransA then [sk; si] else [si; sk]) ->
    tt_sizes B = (if TransB then [sj; sk] else [sk; sj]) ->
    tt_sizes C = [si; sj] ->
    tt_holds h A a -> tt_holds h B b -> tt_holds h C c -> tt_disj C A -> tt_disj C B ->
    (forall x, In x (sched ++ [ij]) -> inb x [Z.of_nat (length si); Z.of_nat (length sj)]) ->
    gemm_run al TransA TransB alpha A B beta sched (C, h) = Ok (phase1, (C1, h1)) ->
    gemm_run al TransA TransB alpha A B beta (sched ++ [ij]) (C, h) = Ok (phase2, (C2, h2)) ->
    (forall x, x <> ij -> find_tile x (tt_tiles C2) = find_tile x (tt_tiles C1)) /\
    forall z, h1 z <> None -> (forall d, find_tile ij (tt_tiles C2) = Some d -> ~ cell d z) -> h2 z = h1 z.
Proof.
  intros O HR al TA TB alpha beta A B C si sj sk a b c sched ij h ph1 ph2 C1 C2 h1 h2 Hal OA OB OC SA SB SC HA HB HC DA DB HI R1 R2.
  unfold gemm_run in R1, R2. destruct (negb _); [discriminate|]. destruct (negb _); [discriminate|]. destruct (negb _); [discriminate|].
  rewrite forM_app, R1 in R2. cbn [bind forM] in R2.
  assert (EA1 : op_sizes TA A 1 = sk) by (unfold op_sizes; rewrite SA; destruct TA; reflexivity). rewrite EA1 in *.
  destruct (ok_sizes C OC) as (_ & FC). rewrite SC in FC. inversion FC as [|x l Ni FC']; subst x l. inversion FC' as [|x l Nj _]; subst x l.
  assert (Nk : Forall (fun n => 0 <= n) sk).
  { destruct (ok_sizes A OA) as (_ & FA). rewrite SA in FA.
    destruct TA; inversion FA as [|x l F1 FA']; subst x l; auto. inversion FA' as [|x l F2 _]; subst x l; auto. }
  assert (G0 : ginv TA TB alpha beta si sj sk a b c h C (fun _ => GStart, (C, h))).
  { unfold ginv. cbn [fst snd]. split; auto. split; auto. split; [exact HC|]. split; [intros x; exact I|]. auto. }
  destruct (run_inv HR al Hal TA TB alpha beta A B si sj sk a b OA OB SA SB Ni Nj Nk c h C HA HB DA DB sched _ G0
      ltac:(intros x Hx; apply HI, in_or_app; auto))
    as [(_ & X)|(s1 & E & G1)]; [congruence|]. assert (s1 = (ph1, (C1, h1))) by congruence. subst s1.
  assert (Iij := HI ij ltac:(apply in_or_app; right; left; reflexivity)).
  destruct (step_inv HR al Hal TA TB alpha beta A B si sj sk a b OA OB SA SB Ni Nj Nk c h C HA HB DA DB _ ij G1 Iij)
    as [(_ & X)|(s2 & E2 & G2 & F2)]; [rewrite X in R2; discriminate|].
  rewrite E2 in R2. cbn [bind] in R2. assert (s2 = (ph2, (C2, h2))) by congruence. subst s2. cbn [fst snd] in *.
  split; [|exact F2]. intros x Hx. clear F2 R2 G2 E R1.
  destruct G1 as (Ok1 & S1 & H1 & _). cbn [fst snd] in *.
  unfold gemm_step in E2. cbn [fst snd] in E2. apply inb2_inv in Iij as (i & j & -> & Hi & Hj). cbn [nth] in E2.
  assert (I1 : inb [i; j] (map (fun s => Z.of_nat (length s)) (tt_sizes C1))) by (rewrite S1; apply inb2; auto).
  destruct (ph1 [i; j]).
  - destruct (has_zero_size C1 _); [congruence|]. destruct (existsb _ _).
    + destruct (tile_spec O al h1 C1 _ [i; j] Hal Ok1 H1 I1) as [(_ & _ & E3)|(d & t1 & h3 & E3 & _ & _ & _ & _ & F2 & _)];
        rewrite E3 in E2; cbn [bind fst snd] in E2; [discriminate|]. injection E2; intros <- <- <-. auto.
    + destruct (has_tile C1 _); [|congruence]. destruct (const_tile C1 _); cbn [bind] in E2; try discriminate.
      match type of E2 with context [bind ?u _] => destruct u end; cbn [bind] in E2; try discriminate. congruence.
  - match type of E2 with context [bind ?u _] => destruct u end; cbn [bind] in E2; try discriminate. congruence.
  - destruct (_ <? _); [|congruence].
    match type of E2 with context [bind ?u _] => destruct u end; cbn [bind] in E2; try discriminate. congruence.
  - congruence.
Qed.

(** Steps a thread still has to make. *)
Definition steps_left (zs : Z) (p : gphase) : Z :=
  match p with GStart => zs + 3 | GInit _ _ => zs + 2 | GMul _ k => Z.max 0 (zs - k) + 1 | GDone => 0 end.

Lemma step_left : forall (O : Ops) (al : heap (car O) -> Z -> option Z) TA TB alpha A B beta zs ij (s s' : @gstate O) x, 0 <= zs ->
  gemm_step al TA TB alpha A B beta zs ij s = Ok s' ->
  (x <> ij -> fst s' x = fst s x) /\ steps_left zs (fst s' ij) <= Z.max 0 (steps_left zs (fst s ij) - 1).
Proof.
  intros O al TA TB alpha A B beta zs ij (ph & t & h) s' x Hz E. unfold gemm_step in E. cbn [fst snd] in *.
  assert (SP : forall p, (x <> ij -> set_phase ph ij p x = ph x) /\ set_phase ph ij p ij = p).
  { intros p. unfold set_phase. split.
    - intros H. destruct (list_eq_dec Z.eq_dec x ij); congruence.
    - destruct (list_eq_dec Z.eq_dec ij ij); congruence. }
  destruct (ph ij) as [|d cr|d k|] eqn:EP.
  - destruct (has_zero_size t _).
    { inversion E; subst s'. cbn [fst]. destruct (SP GDone) as (Q1 & Q2). split; auto. rewrite Q2, ?EP. cbn [steps_left]. lia. }
    destruct (existsb _ _).
    { destruct (tile al _ (t, h)) as [r| |]; cbn [bind] in E; try discriminate. inversion E; subst s'. cbn [fst].
      destruct (SP (GInit (fst r) (negb (has_tile t [nth 0 ij 0; nth 1 ij 0])))) as (Q1 & Q2). split; auto. rewrite Q2. cbn [steps_left]. lia. }
    destruct (has_tile t _).
    + destruct (const_tile t _) as [d| |]; cbn [bind] in E; try discriminate.
      destruct (if oeqb beta o0 then tile_fill o0 d h else tile_op omul beta d h) as [h1| |]; cbn [bind] in E; try discriminate.
      inversion E; subst s'. cbn [fst]. destruct (SP GDone) as (Q1 & Q2). split; auto. rewrite Q2. cbn [steps_left]. lia.
    + inversion E; subst s'. cbn [fst]. destruct (SP GDone) as (Q1 & Q2). split; auto. rewrite Q2. cbn [steps_left]. lia.
  - destruct (if oeqb beta o0 || cr then tile_fill o0 d h else tile_op omul beta d h) as [h1| |]; cbn [bind] in E; try discriminate.
    inversion E; subst s'. cbn [fst]. destruct (SP (GMul d 0)) as (Q1 & Q2). split; auto. rewrite Q2. cbn [steps_left]. lia.
  - destruct (Z.ltb_spec k zs).
    + match type of E with context [bind ?u _] => destruct u as [h1| |] end; cbn [bind] in E; try discriminate.
      inversion E; subst s'. cbn [fst]. destruct (SP (GMul d (k + 1))) as (Q1 & Q2). split; auto. rewrite Q2. cbn [steps_left]. lia.
    + inversion E; subst s'. cbn [fst]. destruct (SP GDone) as (Q1 & Q2). split; auto. rewrite Q2. cbn [steps_left]. lia.
  - inversion E; subst s'. cbn [fst]. split; auto. rewrite EP. cbn [steps_left]. lia.
Qed.

(** A thread that gets as many turns as C needs for one tile (the number of inner
    tiles plus three) has finished, whatever the others do. *)
Theorem C119_finishes :
  forall (O : Ops) (al : heap (car O) -> Z -> option Z) (TransA TransB : bool) (alpha beta : car O) (A B C : tt)
         (sk s0 s1 : list Z) (sched : list (list Z)) (h : heap (car O)) phase (C' : tt) (h' : heap (car O)) (ij : list Z),
    tt_sizes A = (if TransA then [sk; s0] else [s1; sk]) ->
    gemm_run al TransA TransB alpha A B beta sched (C, h) = Ok (phase, (C', h')) ->
    (length sk + 3 <= count_occ (list_eq_dec Z.eq_dec) sched ij)%nat ->
    phase ij = GDone.
Proof.
  intros O al TA TB alpha beta A B C sk s0 s1 sched h phase C' h' ij SA E Hc. unfold gemm_run in E.
  destruct (negb _); [discriminate|]. destruct (negb _); [discriminate|]. destruct (negb _); [discriminate|].
  assert (EA1 : op_sizes TA A 1 = sk) by (unfold op_sizes; rewrite SA; destruct TA; reflexivity). rewrite EA1 in E.
  set (zs := Z.of_nat (length sk)) in *.
  assert (G : forall sched (s s' : @gstate O), forM sched (gemm_step al TA TB alpha A B beta zs) s = Ok s' ->
    steps_left zs (fst s' ij) <= Z.max 0 (steps_left zs (fst s ij) - Z.of_nat (count_occ (list_eq_dec Z.eq_dec) sched ij))).
  { clear. induction sched as [|x r IH]; intros s s' E.
    - inversion E; subst. cbn [count_occ]. lia.
    - cbn [forM] in E. destruct (gemm_step al TA TB alpha A B beta zs x s) as [s1| |] eqn:E1; cbn [bind] in E; try discriminate.
      specialize (IH s1 s' E). destruct (step_left O al TA TB alpha A B beta zs x s s1 ij ltac:(lia) E1) as (Q1 & Q2).
      cbn [count_occ]. destruct (list_eq_dec Z.eq_dec x ij) as [->|Hne]; [lia|].
      rewrite Q1 in IH by auto. lia. }
  specialize (G _ _ _ E). cbn [fst steps_left] in G.
  assert (X : steps_left zs (phase ij) <= 0) by lia.
  destruct (phase ij); cbn [steps_left] in X; try lia. reflexivity.
Qed.

(** C's tile (0,1) is created by its thread between two steps of another, tile
    (0,0) exists and is scaled; afterwards all threads have finished. *)
Example C119_case :
  let al := first_fit 100 in
  let run := @trun ZOps al in
  exists A B C h p1 p2 p3 h1 h2 ph C' h' ph1 C1 h3,
    run [TWrite [0; 0] 2; TWrite [1; 1] 3] (tt_ctor [[2]; [1; 1]], fun _ => None) = Ok (p1, (A, h1)) /\
    run [TWrite [0; 1] 5; TWrite [1; 2] 7] (tt_ctor [[1; 1]; [1; 2]], h1) = Ok (p2, (B, h2)) /\
    run [TWrite [1; 0] 11] (tt_ctor [[2]; [1; 2]], h2) = Ok (p3, (C, h)) /\
    gemm_run (O:=ZOps) al false false 10 A B 4
      [[0; 1]; [0; 0]; [0; 1]; [0; 1]; [0; 0]; [0; 1]; [0; 1]; [0; 0]; [0; 0]; [0; 0]] (C, h) = Ok (ph, (C', h')) /\
    map ph [[0; 0]; [0; 1]] = [GDone; GDone] /\
    map (fun i => tt_read (O:=ZOps) C' i h') (indices [2; 3]) = map (@Ok Z) [0; 100; 0;  44; 0; 210] /\
    has_tile C [0; 1] = false /\ has_tile C' [0; 1] = true /\
    gemm_run (O:=ZOps) al false false 10 A B 4 [[0; 1]; [0; 1]; [0; 1]] (C, h) = Ok (ph1, (C1, h3)) /\
    map (fun i => tt_read (O:=ZOps) C1 i h3) (indices [2; 3]) = map (@Ok Z) [0; 100; 0;  11; 0; 0].
Proof.
  do 15 eexists. split; [vm_compute; reflexivity|]. split; [vm_compute; reflexivity|]. split; [vm_compute; reflexivity|].
  split; [vm_compute; reflexivity|]. split; [vm_compute; reflexivity|]. split; [vm_compute; reflexivity|].
  split; [vm_compute; reflexivity|]. split; [vm_compute; reflexivity|]. split; [vm_compute; reflexivity|]. vm_compute; reflexivity.
Qed.

Print Assumptions C118_gemv.
Print Assumptions C119_gemm.
Print Assumptions C119_own_tile.
Print Assumptions C119_finishes.
