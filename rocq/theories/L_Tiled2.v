(** * L_Tiled2: dot products, grid loops, addition and assignment of tiled tensors. *)
From Coq Require Import List ZArith Lia Bool Permutation Ring.
From Verif Require Import Base Heap Conc M_Addr M_Elt M_Einsum M_Blas M_Block M_Tiled S_Addr S_Einsum S_Blas S_Block S_Tiled
  L_Addr L_Elt L_Einsum L_Blas L_Block L_Tiled.
Import ListNotations.
Open Scope Z_scope.

(** ** Sums tile by tile *)
Lemma at_tile_cons : forall T (f : list Z -> T) s ss c cs x j,
  at_tile f (s :: ss) (c :: cs) (x :: j) = at_tile (fun r => f (off s (Z.to_nat c) + x :: r)) ss cs j.
Proof. reflexivity. Qed.

Lemma lsum_tiles : forall (O : Ops), is_ring O -> forall sizes (f : list Z -> car O), Forall (Forall (fun n => 0 <= n)) sizes ->
  lsum (indices (dense_dims sizes)) f =
  lsum (indices (map (fun s => Z.of_nat (length s)) sizes)) (fun c => lsum (indices (tile_dims sizes c)) (at_tile f sizes c)).
Proof.
  intros O HR. induction sizes as [|s ss IH]; intros f HF.
  - unfold lsum. simpl. unfold at_tile. simpl. assert (R := ir_rt O HR).
    now rewrite (Radd_comm R (oadd (f []) o0)), (Radd_0_l R).
  - inversion HF as [|x l Hs HF']; subst x l. cbn [dense_dims map]. rewrite !(lsum_indices_cons O HR).
    rewrite (zsum_split O HR s (length s)) by auto. unfold zsum at 2, zrange at 1. rewrite Nat2Z.id, lsum_map.
    apply (lsum_ext O). intros k Hk. 
    fold (dense_dims ss).
    transitivity (zsum (nth k s 0) (fun p => lsum (indices (map (fun s => Z.of_nat (length s)) ss)) (fun c =>
      lsum (indices (tile_dims ss c)) (at_tile (fun r => f (off s k + p :: r)) ss c)))).
    { apply zsum_ext. intros p Hp. now rewrite IH. }
    unfold zsum at 1. rewrite (lsum_swap O HR). apply (lsum_ext O). intros c Hc. cbn [tile_dims].
    rewrite (lsum_indices_cons O HR). unfold tile_extent. rewrite Nat2Z.id. unfold zsum. apply (lsum_ext O). intros p Hp.
    apply (lsum_ext O). intros j Hj. rewrite at_tile_cons. rewrite Nat2Z.id. reflexivity.
Qed.

Lemma at_tile_mul : forall (O : Ops) (a b : list Z -> car O) sizes c j,
  at_tile (fun i => omul (a i) (b i)) sizes c j = omul (at_tile a sizes c j) (at_tile b sizes c j).
Proof. reflexivity. Qed.

Lemma zero_tile_sum : forall (O : Ops) sizes c (f : list Z -> car O),
  existsb (fun n => n =? 0) (tile_dims sizes c) = true -> lsum (indices (tile_dims sizes c)) f = o0.
Proof.
  intros O sizes c f H. assert (E : indices (tile_dims sizes c) = []).
  { destruct (indices (tile_dims sizes c)) as [|i l] eqn:E; auto. exfalso.
    assert (I : inb i (tile_dims sizes c)) by (apply in_indices; rewrite E; now left).
    apply existsb_exists in H as (n & Hn & Hz). apply Z.eqb_eq in Hz. subst n.
    assert (P := inb_pos _ _ I). rewrite Forall_forall in P. specialize (P 0 Hn). lia. }
  rewrite E. reflexivity.
Qed.

Lemma tile_missing_zero : forall (O : Ops) (h : heap (car O)) t f c j, tt_ok t -> tt_holds h t f ->
  inb c (map (fun s => Z.of_nat (length s)) (tt_sizes t)) -> find_tile c (tt_tiles t) = None ->
  inb j (tile_dims (tt_sizes t) c) -> at_tile f (tt_sizes t) c j = o0.
Proof.
  intros O h t f c j Hok HH Ic Hn Hj. destruct (tile_pos_exists _ _ _ Ic Hj) as (idx & P).
  rewrite (at_tile_pos _ f _ _ _ _ P). assert (H := HH idx c j P). now rewrite Hn in H.
Qed.

Lemma stride_scan_nonneg : forall dims v, nonneg dims -> 0 <= v -> forall s, In s (stride_scan v dims) -> 0 <= s.
Proof.
  induction dims as [|d ds IH]; intros v HN Hv s Hs; simpl in Hs; [tauto|].
  inversion HN as [|x l Hd HN']; subst x l. destruct Hs as [<-|Hs]; auto. apply (IH (v * d)); auto. nia.
Qed.
Lemma rms_nonneg : forall dims, nonneg dims -> forall s, In s (row_major_strides dims) -> 0 <= s.
Proof.
  intros dims HN s Hs. unfold row_major_strides in Hs. apply in_rev in Hs. revert Hs. apply stride_scan_nonneg; [|lia].
  unfold nonneg in *. rewrite Forall_forall in *. intros x Hx. apply HN. now apply in_rev.
Qed.

Lemma dot_tile_spec : forall (O : Ops), is_ring O -> forall (h : heap (car O)) A B a b c,
  tt_ok A -> tt_ok B -> tt_sizes B = tt_sizes A -> tt_holds h A a -> tt_holds h B b ->
  inb c (map (fun s => Z.of_nat (length s)) (tt_sizes A)) ->
  dot_tile A B h c = Ok (lsum (indices (tile_dims (tt_sizes A) c)) (at_tile (fun i => omul (a i) (b i)) (tt_sizes A) c)).
Proof.
  intros O HR h A B a b c OA OB HS HA HB Ic. unfold dot_tile, present.
  assert (IcB : inb c (map (fun s => Z.of_nat (length s)) (tt_sizes B))) by (rewrite HS; auto).
  rewrite (has_tile_c_inb A), (has_tile_c_inb B) by auto.
  assert (Z0 : (forall j, inb j (tile_dims (tt_sizes A) c) -> omul (at_tile a (tt_sizes A) c j) (at_tile b (tt_sizes A) c j) = o0) ->
     Ok o0 = Ok (lsum (indices (tile_dims (tt_sizes A) c)) (at_tile (fun i => omul (a i) (b i)) (tt_sizes A) c))).
  { intros H. f_equal. rewrite (lsum_ext O _ _ _ (fun _ => o0)); [now rewrite (lsum_0 O HR)|].
    intros j Hj. apply in_indices in Hj. rewrite at_tile_mul. auto. }
  destruct (find_tile c (tt_tiles A)) as [da|] eqn:EA; cbn [andb].
  2:{ apply Z0. intros j Hj. rewrite (tile_missing_zero O h A a c j); auto. apply (omul_0_l HR). }
  destruct (find_tile c (tt_tiles B)) as [db|] eqn:EB; cbn [andb].
  2:{ apply Z0. intros j Hj. rewrite <- HS. rewrite (tile_missing_zero O h B b c j); auto; [apply (omul_0_r HR)|rewrite HS; auto]. }
  unfold has_zero_size. rewrite HS. destruct (existsb _ _) eqn:EZ; cbn [negb andb].
  { f_equal. symmetry. now apply zero_tile_sum. }
  rewrite (const_tile_inb A c da), (const_tile_inb B c db) by auto. cbn [bind].
  destruct (tile_facts A c da OA EA) as (Ea & Da & Dne & DN & _).
  destruct (tile_facts B c db OB EB) as (Eb & Db & _). rewrite HS in Eb, Db.
  assert (Sa : dstrides da = row_major_strides (tile_dims (tt_sizes A) c)) by (rewrite Ea; reflexivity).
  assert (Sb : dstrides db = row_major_strides (tile_dims (tt_sizes A) c)) by (rewrite Eb; reflexivity).
  rewrite (la_dot_spec HR true true da db (at_tile a (tt_sizes A) c) (at_tile b (tt_sizes A) c)); try (rewrite ?Da, ?Db; auto; fail).
  - intros _. rewrite Ea. unfold rowmaj. reflexivity.
  - intros _. rewrite Eb. unfold rowmaj. reflexivity.
  - rewrite Sa. now apply rms_nonneg.
  - rewrite Sb. now apply rms_nonneg.
  - rewrite Sa, Da. apply rms_length.
  - rewrite Sb, Db. apply rms_length.
  - apply (holds_tile O h A a); auto.
  - rewrite <- HS. apply (holds_tile O h B b); auto.
Qed.

(** ** The positions of the grid, first index fastest *)
Fixpoint col_code (g c : list Z) : Z :=
  match g, c with d :: ds, x :: xs => x + d * col_code ds xs | _, _ => 0 end.
Lemma col_code_range : forall g c, inb c g -> 0 <= col_code g c < zprod g.
Proof.
  induction g as [|d g IH]; intros c H; inversion H as [|x y xs ys Hx Hxs]; subst; simpl; [lia|].
  specialize (IH xs Hxs). nia.
Qed.
Lemma col_decode_code : forall g c, inb c g -> col_decode g (col_code g c) = c.
Proof.
  induction g as [|d g IH]; intros c H; inversion H as [|x y xs ys Hx Hxs]; subst; simpl; auto.
  rewrite (Z.mul_comm d), Z.add_comm. rewrite Z.div_add_l by lia. rewrite Z.div_small by lia. rewrite Z.add_0_r.
  rewrite Z.add_comm, Z.mod_add by lia. rewrite Z.mod_small by lia. f_equal. auto.
Qed.
Lemma col_code_decode : forall g n, Forall (fun d => 0 <= d) g -> 0 <= n < zprod g ->
  inb (col_decode g n) g /\ col_code g (col_decode g n) = n.
Proof.
  induction g as [|d g IH]; intros n HN Hn; simpl in *.
  - split; [constructor|lia].
  - inversion HN as [|x l Hd HN']; subst x l. assert (P := zprod_nonneg g HN').
    assert (0 < d) by nia. destruct (IH (n / d) HN') as (I1 & I2).
    + split; [apply Z.div_pos; lia|]. apply Z.div_lt_upper_bound; lia.
    + split; [apply inb_cons; split; auto; apply Z.mod_pos_bound; lia|]. rewrite I2.
      assert (E := Z.div_mod n d ltac:(lia)). lia.
Qed.

(** The grid loop applies [F] to every tile when all are present. *)
Lemma for_grid_spec : forall (O : Ops) (h : heap (car O)) t f (F : desc -> heap (car O) -> res (heap (car O))) (u : car O -> car O) order,
  tt_ok t -> tt_holds h t f ->
  (forall c, inb c (grid t) -> find_tile c (tt_tiles t) <> None) ->
  Permutation order (zrange (zprod (grid t))) ->
  (forall d dims g h1, d = tensor_ctor (dbase d) dims -> dims <> [] -> nonneg dims -> holds h1 d g ->
     exists h2, F d h1 = Ok h2 /\ holds h2 d (fun i => u (g i)) /\ (forall a, ~ cell d a -> h2 a = h1 a)) ->
  exists h', for_grid F order t h = Ok h' /\ tt_holds h' t (fun i => u (f i)) /\ (forall a, ~ tt_cell t a -> h' a = h a).
Proof.
  intros O h t f F u order Hok HH Hall HP HF. unfold for_grid.
  assert (GN : Forall (fun d => 0 <= d) (grid t)).
  { unfold grid. apply Forall_forall. intros d Hd. apply in_map_iff in Hd as (s & <- & _). lia. }
  assert (CD : forall i, In i order -> inb (col_decode (grid t) i) (grid t) /\ col_code (grid t) (col_decode (grid t) i) = i).
  { intros i Hi. apply (Permutation_in _ HP) in Hi. apply zrange_in in Hi. now apply col_code_decode. }
  destruct (forM_regions Z (car O) (fun i a => exists d, find_tile (col_decode (grid t) i) (tt_tiles t) = Some d /\ cell d a)
    (fun i h1 => forall d, find_tile (col_decode (grid t) i) (tt_tiles t) = Some d ->
       holds h1 d (fun j => u (at_tile f (tt_sizes t) (col_decode (grid t) i) j)))
    (fun i h => match find_tile (col_decode (grid t) i) (tt_tiles t) with Some d => F d h | None => Throw end) order h)
    as (h' & E & H1 & H2).
  - apply (Permutation_NoDup (Permutation_sym HP)). apply zrange_NoDup.
  - intros i k a Hi Hk (d & Hd & Ca) (e & He & Cb).
    assert (X := tile_cell_unique t _ d _ e a Hok Hd He Ca Cb).
    rewrite <- (proj2 (CD i Hi)), <- (proj2 (CD k Hk)). now f_equal.
  - intros i h1 h2 Hi Hag Hh d Hd j Hj. rewrite <- Hag; [now apply Hh|]. exists d. split; auto. exists j; auto.
  - intros i h1 Hi Hag. destruct (find_tile (col_decode (grid t) i) (tt_tiles t)) as [d|] eqn:Ed.
    2:{ elim (Hall _ (proj1 (CD i Hi))); auto. }
    destruct (tile_facts t _ _ Hok Ed) as (E1 & Dd & Dne & DN & Ic).
    destruct (HF d _ (at_tile f (tt_sizes t) (col_decode (grid t) i)) h1 E1 Dne DN) as (h2 & E2 & V2 & F2).
    + intros j Hj. rewrite Hag; [now apply (holds_tile O h t f); auto|]. left. exists d. split; auto. exists j; auto.
    + exists h2. split; auto. split; [intros d' Hd'; replace d' with d by congruence; exact V2|]. intros a Ha. apply F2. intros Hc. apply Ha. eauto.
  - exists h'. split; auto. split.
    + intros idx c j P. destruct (ok_sizes t Hok) as (_ & HS). destruct (tile_pos_inb _ _ _ _ HS P) as (_ & Ic & Ij).
      destruct (find_tile c (tt_tiles t)) as [d|] eqn:Ec; [|elim (Hall c Ic); auto].
      assert (Ein : In (col_code (grid t) c) order).
      { apply (Permutation_in _ (Permutation_sym HP)). apply zrange_in. now apply col_code_range. }
      destruct (tile_facts t c d Hok Ec) as (_ & Dd & _).
      assert (V := H1 _ Ein d). rewrite col_decode_code in V by auto. rewrite (V Ec j) by (rewrite Dd; auto).
      now rewrite (at_tile_pos _ f _ _ _ _ P).
    + intros a Ha. apply H2. intros i Hi (d & Hd & Hc). apply Ha. exists (col_decode (grid t) i), d. auto.
Qed.

(** ** Adding a tiled tensor *)
Lemma opp_one : forall {O : Ops}, is_ring O -> forall y : car O, omul (oopp o1) y = oopp y.
Proof.
  intros O HR y. assert (R := ir_rt O HR). 
  assert (E : oadd y (omul (oopp o1) y) = o0).
  { rewrite <- (Rmul_1_l R y) at 1. rewrite <- (Rdistr_l R), (Ropp_def R). apply (omul_0_l HR). }
  rewrite <- (Radd_0_l R (omul (oopp o1) y)), <- (Ropp_def R y), (Radd_comm R y), <- (Radd_assoc R), E, (Radd_comm R).
  apply (Radd_0_l R).
Qed.

Section Merge.
  Context {O : Ops} (HR : is_ring O).
  Variable al : heap (car O) -> Z -> option Z.
  Hypothesis Hal : al_ok al.
  Variables (u : tt) (g : list Z -> car O).
  Hypothesis OU : tt_ok u.

  (** A new tile filled with a copy of the corresponding tile of [u], then
      transformed by [post]. *)
  Lemma add_copy_spec : forall t h f c e (post : desc -> heap (car O) -> res (heap (car O))) (w : car O -> car O),
    tt_ok t -> tt_sizes t = tt_sizes u -> tt_holds h t f -> tt_holds h u g -> tt_disj t u ->
    find_tile c (tt_tiles u) = Some e -> find_tile c (tt_tiles t) = None ->
    (forall d dims k h1, d = tensor_ctor (dbase d) dims -> dims <> [] -> nonneg dims -> holds h1 d k ->
       exists h2, post d h1 = Ok h2 /\ holds h2 d (fun i => w (k i)) /\ (forall a, ~ cell d a -> h2 a = h1 a)) ->
    ((exists h1 n, al h1 n = None) /\ (r <- add_tile al c (t, h) ;; h1 <- tile_copy e (fst r) (snd (snd r)) ;;
        h' <- post (fst r) h1 ;; Ok (fst (snd r), h')) = Throw) \/
    exists t' h', (r <- add_tile al c (t, h) ;; h1 <- tile_copy e (fst r) (snd (snd r)) ;;
        h' <- post (fst r) h1 ;; Ok (fst (snd r), h')) = Ok (t', h') /\ tt_ok t' /\ tt_sizes t' = tt_sizes u /\
      tt_holds h' t' (patch (tt_sizes u) f (fun idx => w (g idx)) c) /\
      (forall z, tt_cell t' z -> tt_cell t z \/ h z = None) /\
      (forall z, h z <> None -> h' z <> None) /\
      (forall z, h z <> None -> ~ tt_cell t z -> h' z = h z) /\
      (forall c', c' <> c -> find_tile c' (tt_tiles t') = find_tile c' (tt_tiles t)).
  Proof.
    intros t h f c e post w Hok Hs HH HG HD Ee En Hpost.
    destruct (tile_facts u c e OU Ee) as (E1 & De & Dne & DN & Ic).
    destruct (add_tile_spec O al h t f c Hal Hok HH) as [(X1 & X2)|(d & t1 & h1 & X1 & O1 & H1 & S1 & F1 & F2 & N1 & N2)]; auto.
    { rewrite Hs. auto. }
    { left. split; [eauto|]. rewrite X2. reflexivity. }
    right. rewrite X1. cbn [bind fst snd].
    destruct (tile_facts t1 c d O1 F1) as (Ed & Dd & _). rewrite S1, Hs in Ed, Dd.
    assert (CE : forall z, cell e z -> tt_cell u z) by (intros z Hz; exists c, e; auto).
    assert (DE : forall z, cell e z -> ~ cell d z).
    { intros z Hz Hdz. apply (cell_alloc O h u g z OU HG (CE z Hz)). now apply N1. }
    assert (Hd : holds h1 d (at_tile f (tt_sizes u) c)) by (rewrite <- Hs, <- S1; apply (holds_tile O h1 t1 f); auto).
    assert (He : holds h1 e (at_tile g (tt_sizes u) c)).
    { intros j Hj. rewrite N2; [apply (holds_tile O h u g); auto|]. apply DE. exists j; auto. }
    destruct (tile_op2_spec O (fun _ y => y) d e _ _ _ h1 Ed E1 Dne DN Hd He) as (h2 & E2 & V2 & G2).
    { intros x y Hx Hy Exy. apply (DE (addr e y)); [exists y; auto|]. rewrite <- Exy. exists x; auto. }
    unfold tile_copy. rewrite E2. cbn [bind].
    destruct (Hpost d _ _ h2 Ed Dne DN V2) as (h3 & E3 & V3 & G3). rewrite E3. cbn [bind].
    exists t1, h3. split; auto. split; auto. split; [congruence|]. split.
    { assert (U := update_patch O h1 h3 t1 f (fun idx => w (g idx)) c d O1 H1 F1). rewrite S1, Hs in U.
      apply U; [intros a Ha; rewrite G3, G2 by auto; auto|]. exact V3. }
    assert (Hcd : forall z, cell d z \/ ~ cell d z).
    { intros z. apply (tile_cell_dec d _ z Ed Dne DN). }
    split; [|split; [|split]].
    - intros z (c' & d' & Hc' & Hz). destruct (list_eq_dec Z.eq_dec c' c) as [->|Hne].
      + right. apply N1. congruence.
      + left. exists c', d'. split; auto. rewrite <- F2; auto.
    - intros z Hz. assert (~ cell d z) by (intros Hc; apply Hz; auto). rewrite G3, G2, N2 by auto. auto.
    - intros z Hz _. assert (~ cell d z) by (intros Hc; apply Hz; auto). rewrite G3, G2, N2 by auto. auto.
    - auto.
  Qed.

  (** One tile of [u] merged into [t]. *)
  Lemma merge_step_spec : forall (cmb : car O -> car O -> car O) (post : desc -> heap (car O) -> res (heap (car O))) (w : car O -> car O),
    (forall y, cmb o0 y = w y) ->
    (forall d dims k h1, d = tensor_ctor (dbase d) dims -> dims <> [] -> nonneg dims -> holds h1 d k ->
       exists h2, post d h1 = Ok h2 /\ holds h2 d (fun i => w (k i)) /\ (forall a, ~ cell d a -> h2 a = h1 a)) ->
    forall p t h f, In p (tt_tiles u) -> tt_ok t -> tt_sizes t = tt_sizes u -> tt_holds h t f -> tt_holds h u g -> tt_disj t u ->
    let step := if has_tile_c t (fst p) then
        d <- const_tile t (fst p) ;; h' <- tile_op2 cmb (snd p) d h ;; Ok (t, h')
      else
        r <- add_tile al (fst p) (t, h) ;; h1 <- tile_copy (snd p) (fst r) (snd (snd r)) ;;
        h' <- post (fst r) h1 ;; Ok (fst (snd r), h') in
    ((exists h1 n, al h1 n = None) /\ step = Throw) \/
    exists t' h', step = Ok (t', h') /\ tt_ok t' /\ tt_sizes t' = tt_sizes u /\
      tt_holds h' t' (patch (tt_sizes u) f (fun idx => cmb (f idx) (g idx)) (fst p)) /\
      (forall z, tt_cell t' z -> tt_cell t z \/ h z = None) /\
      (forall z, h z <> None -> h' z <> None) /\
      (forall z, h z <> None -> ~ tt_cell t z -> h' z = h z).
  Proof.
    intros cmb post w Hcmb Hpost (c, e) t h f Hp Hok Hs HH HG HD. cbn [fst snd].
    assert (Ee : find_tile c (tt_tiles u) = Some e) by (apply in_find_tile; auto; apply (ok_keys u OU)).
    destruct (tile_facts u c e OU Ee) as (E1 & De & Dne & DN & Ic).
    assert (Ict : inb c (map (fun s => Z.of_nat (length s)) (tt_sizes t))) by (rewrite Hs; auto).
    rewrite has_tile_c_inb by auto. destruct (find_tile c (tt_tiles t)) as [d|] eqn:Ed.
    - right. rewrite (const_tile_inb t c d) by auto. cbn [bind].
      destruct (tile_facts t c d Hok Ed) as (E2 & Dd & _). rewrite Hs in E2, Dd.
      assert (Hd : holds h d (at_tile f (tt_sizes u) c)) by (rewrite <- Hs; apply (holds_tile O h t f); auto).
      assert (He : holds h e (at_tile g (tt_sizes u) c)) by (apply (holds_tile O h u g); auto).
      destruct (tile_op2_spec O cmb d e _ _ _ h E2 E1 Dne DN Hd He) as (h2 & E3 & V2 & G2).
      { intros x y Hx Hy Exy. apply (HD (addr d x)); [exists c, d; split; auto; exists x; auto|].
        exists c, e. split; auto. rewrite Exy. exists y; auto. }
      rewrite E3. cbn [bind]. exists t, h2. split; auto. split; auto. split; auto. split; [|split; [|split]]; auto.
      + rewrite <- Hs. apply (update_patch O h h2 t f (fun idx => cmb (f idx) (g idx)) c d); auto. rewrite Hs. exact V2.
      + intros z Hz. destruct (tile_cell_dec d _ z E2 Dne DN) as [(j & Hj & ->)|Hn]; [rewrite (V2 j Hj); discriminate|].
        rewrite G2; auto.
      + intros z Hz Hn. apply G2. intros Hc. apply Hn. exists c, d. auto.
    - destruct (add_copy_spec t h f c e post w Hok Hs HH HG HD Ee Ed Hpost) as [X|(t' & h' & E & O1 & S1 & H1 & N1 & N0 & N2 & _)]; [left; auto|].
      right. exists t', h'. split; auto. split; auto. split; auto. split; [|auto].
      revert H1. apply tt_holds_ext. rewrite S1. intros idx k j P. destruct (ok_sizes u OU) as (_ & HF).
      destruct (list_eq_dec Z.eq_dec k c) as [->|Hne].
      + rewrite !(patch_in _ _ _ _ _ _ _ HF P). assert (X := HH idx c j). rewrite Hs, Ed in X. rewrite (X P). symmetry. apply Hcmb.
      + now rewrite !(patch_out _ _ _ _ _ _ _ _ HF P Hne).
  Qed.
End Merge.
