(** * T_Generic: C69. *)
From Coq Require Import List ZArith Lia Bool Permutation.
From Verif Require Import Base Heap Conc M_Addr S_Addr L_Addr M_Elt L_Elt M_Einsum S_Einsum L_Einsum S_Blas L_Blas
  M_Fun S_Fun T_Fun M_Red L_Red M_Generic S_Generic L_Generic.
Import ListNotations.
Open Scope Z_scope.

(** C69.  The hypothesis [shows] on a function operand is met by every function
    tensor and every slice (of a slice ...) of it. *)
Theorem C69_function_operand : forall (O : Ops) (h : heap (car O)) dims (f : list Z -> car O) argss g,
  Forall small dims -> chain_ok argss dims ->
  (forall j p, sees argss dims j p -> inb j (chain_dims argss dims) -> g j = f p) ->
  shows h (OFun (fold_left fslice argss (FBase dims f))) (chain_dims argss dims) g.
Proof.
  intros O h dims f argss g HS HC Hg.
  destruct (C41_eval_partial (car O) dims f argss HS HC) as (D & E & TT & _). split; auto.
  intros j Hj. destruct (TT j Hj) as (p & Hp & Hs). rewrite (E j j p); auto.
  - now rewrite (Hg j p).
  - now apply spell_self.
Qed.
Print Assumptions C69_function_operand.

(** [dot] and [true_dot]: the sum over all elements of (conjugated) element of A
    times element of B, for every distribution of the iterations over threads. *)
Theorem C69_dot_partial : forall (O : Ops), is_ring O -> forall (cj : car O -> car O) A B dims a b parts (h : heap (car O)),
  Forall (fun d => 0 <= d <= 2 ^ 31) dims ->
  shows h A dims a -> shows h B dims b ->
  Permutation (concat parts) (zrange (gen_total A)) ->
  gen_dot cj A B parts h = Ok (lsum (indices dims) (fun idx => omul (cj (a idx)) (b idx))).
Proof.
  intros O HR cj A B dims a b parts h HD HA HB HP. assert (R := ir_rt O HR).
  assert (EA : odims A = dims) by (destruct A; apply HA). assert (EB : odims B = dims) by (destruct B; apply HB).
  assert (HN : Forall (fun d => 0 <= d) dims) by (eapply Forall_impl; [|exact HD]; simpl; lia).
  unfold gen_total in HP. rewrite EA, dims_to_strides_eq in HP. simpl in HP.
  unfold gen_dot. rewrite EA, EB, same_dims_true. cbn [negb]. rewrite dims_to_strides_eq. cbn [fst].
  set (v := fun s => omul (cj (a (dec dims s))) (b (dec dims s))).
  assert (G : forall part acc, (forall s, In s part -> 0 <= s < zprod dims) ->
     forM part (fun s acc =>
      idx <- gindex s (row_major_strides dims) ;; x <- oval A idx h ;; y <- oval B idx h ;; Ok (oadd acc (omul (cj x) y))) acc
     = Ok (oadd acc (lsum part v))).
  { induction part as [|s part IH]; intros acc Hs; simpl.
    - f_equal. change (lsum [] v) with (@o0 O). now rewrite (Radd_comm R), (Radd_0_l R).
    - assert (Bs := Hs s (or_introl eq_refl)). rewrite gindex_ok by auto. simpl.
      assert (Hi : inb (dec dims s) dims) by (now apply rm_sti_inb).
      rewrite (oval_ok h A dims a), (oval_ok h B dims b) by auto. simpl.
      rewrite IH by (intros; apply Hs; now right). f_equal.
      change (lsum (s :: part) v) with (oadd (v s) (lsum part v)). unfold v at 2. now rewrite (Radd_assoc R). }
  assert (G2 : forall ps acc, (forall s, In s (concat ps) -> 0 <= s < zprod dims) ->
     forM ps (fun part out => s <- gen_dot_part cj A B (row_major_strides dims) h part ;; Ok (oadd out s)) acc
     = Ok (oadd acc (lsum (concat ps) v))).
  { induction ps as [|p ps IH]; intros acc Hs; simpl.
    - f_equal. change (lsum [] v) with (@o0 O). now rewrite (Radd_comm R), (Radd_0_l R).
    - unfold gen_dot_part at 1. rewrite G by (intros; apply Hs; simpl; apply in_or_app; auto). simpl.
      rewrite IH by (intros; apply Hs; simpl; apply in_or_app; auto). f_equal.
      rewrite (lsum_app O HR), (Radd_0_l R), (Radd_assoc R). reflexivity. }
  rewrite G2 by (intros s Hs; apply zrange_in; eapply Permutation_in; eauto). f_equal.
  rewrite (Radd_0_l R), (lsum_perm O HR _ _ _ _ HP).
  rewrite <- (lsum_perm O HR _ _ _ _ (dec_perm dims HN)). now rewrite (lsum_map O).
Qed.
Print Assumptions C69_dot_partial.

(** [gemm]: C := alpha op(A) op(B) + beta C for every distribution of the
    positions over threads and every interleaving; C may have any strides. *)
Theorem C69_gemm : forall (O : Ops), is_ring O ->
  forall (TransA TransB : bool) (alpha beta : car O) A B C m n k a b c parts (h : heap (car O)),
  shows h A (if TransA then [k; m] else [m; k]) a -> shows h B (if TransB then [n; k] else [k; n]) b ->
  ddims C = [m; n] -> inj C -> holds h C c -> apart A C -> apart B C ->
  Permutation (concat parts) (positions m n) ->
  exists ps, gen_gemm TransA TransB alpha A B beta C parts = Ok ps /\
  par_spec ps h (fun h' =>
    (forall i j, 0 <= i < m -> 0 <= j < n ->
       h' (addr C [i; j]) =
         Some (oadd (omul alpha (zsum k (fun p => omul (op TransA a i p) (op TransB b p j)))) (omul beta (c [i; j])))) /\
    (forall z, ~ cell C z -> h' z = h z)).
Proof.
  intros O HR TA TB alpha beta A B C m n k a b c parts h HA HB DC IC HC PA PB HP.
  set (da := if TA then [k; m] else [m; k]) in *. set (db := if TB then [n; k] else [k; n]) in *.
  assert (EA : odims A = da) by (destruct A; apply HA). assert (EB : odims B = db) by (destruct B; apply HB).
  set (ia := fun (i p : Z) => if TA then [p; i] else [i; p]). set (ib := fun (p j : Z) => if TB then [j; p] else [p; j]).
  assert (Ia : forall i p, 0 <= i < m -> 0 <= p < k -> inb (ia i p) da).
  { intros. unfold ia, da. destruct TA; repeat constructor; lia. }
  assert (Ib : forall p j, 0 <= p < k -> 0 <= j < n -> inb (ib p j) db).
  { intros. unfold ib, db. destruct TB; repeat constructor; lia. }
  assert (Ic : forall i j, 0 <= i < m -> 0 <= j < n -> inb [i; j] (ddims C)).
  { intros. rewrite DC. repeat constructor; lia. }
  set (bf := fun ij : Z * Z => pbind (inner_sum (map (fun p => (rdp A a (ia (fst ij) p), rdp B b (ib p (snd ij)))) (zrange k)))
      (store alpha beta (subscript C [fst ij; snd ij]))).
  assert (EP : gen_gemm TA TB alpha A B beta C parts = Ok (map (fun r => pseq r bf) parts)).
  { unfold gen_gemm, odim, tdim. rewrite EA, EB, DC.
    assert (X1 : (if TA then nth 0 da 0 else nth 1 da 0) = k) by (unfold da; destruct TA; auto).
    assert (X2 : (if TB then nth 1 db 0 else nth 0 db 0) = k) by (unfold db; destruct TB; auto).
    assert (X3 : (if TA then nth 1 da 0 else nth 0 da 0) = m) by (unfold da; destruct TA; auto).
    assert (X4 : (if TB then nth 0 db 0 else nth 1 db 0) = n) by (unfold db; destruct TB; auto).
    rewrite X1, X2, X3, X4. cbn [nth]. rewrite !Z.eqb_refl. cbn [negb].
    apply gen_pool_ok. intros (i, j) Hx. apply (Permutation_in _ HP) in Hx. apply positions_in in Hx as (Hi & Hj).
    unfold gen_gemm_body.
    rewrite (mapR_map _ _ _ (fun p => (rdp A a (ia i p), rdp B b (ib p j)))); [reflexivity|].
    intros p Hp. apply zrange_in in Hp. change (if TA then [p; i] else [i; p]) with (ia i p).
    change (if TB then [j; p] else [p; j]) with (ib p j).
    rewrite (oread_ok h A da a), (oread_ok h B db b) by auto. reflexivity. }
  rewrite EP. eexists. split; [reflexivity|].
  set (v := fun ij : Z * Z => oadd (omul alpha (zsum k (fun p => omul (op TA a (fst ij) p) (op TB b p (snd ij))))) (omul beta (c [fst ij; snd ij]))).
  refine (par_spec_weaken _ _ _ _ _ _ (gen_par (O := O) _ (positions m n) parts (fun ij => [fst ij; snd ij]) bf v C h IC HP _ _)).
  - intros h' (H1 & H2). split; auto. intros i j Hi Hj. apply (H1 (i, j)). now apply positions_in.
  - rewrite DC. apply positions_perm.
  - intros (i, j) h' Hx Hh Hc. apply positions_in in Hx as (Hi & Hj). cbn [fst snd] in *. unfold bf. cbn [fst snd].
    rewrite subscript_inb by auto. assert (Vc : h' (addr C [i; j]) = Some (c [i; j])) by (rewrite Hc; apply HC; auto).
    destruct (inner_ok HR (eq (addr C [i; j])) (fun z => ~ cell C z) h' Z (fun p => rdp A a (ia i p)) (fun p => rdp B b (ib p j))
       (fun p => a (ia i p)) (fun p => b (ib p j)) (zrange k)) as (S1 & R1).
    { intros p Hp. apply zrange_in in Hp.
      destruct (rdp_ok h h' A da a (ia i p) (eq (addr C [i; j])) (fun z => ~ cell C z) C) as (U1 & U2); auto.
      destruct (rdp_ok h h' B db b (ib p j) (eq (addr C [i; j])) (fun z => ~ cell C z) C) as (U3 & U4); auto. }
    set (s := lsum (zrange k) (fun p => omul (a (ia i p)) (b (ib p j)))) in *.
    assert (Es : s = zsum k (fun p => omul (op TA a i p) (op TB b p j))).
    { unfold s, zsum. apply (lsum_ext O). intros p _. unfold op, ia, ib. destruct TA, TB; reflexivity. }
    destruct (store_ok HR alpha beta (addr C [i; j]) (fun z => ~ cell C z) h' (c [i; j]) s Vc) as (S2 & h'' & R2 & V2).
    split.
    + apply psafe_bind. split; auto. intros x g E. rewrite R1 in E. injection E as <- <-. auto.
    + exists h''. rewrite run_bind, R1, R2. split; auto. rewrite V2. unfold v. cbn [fst snd]. now rewrite Es.
Qed.
Print Assumptions C69_gemm.

Lemma singles_NoDup : forall l : list Z, NoDup l -> NoDup (map (fun i => [i]) l).
Proof.
  induction 1 as [|i l Hi N IH]; simpl; constructor; auto.
  intros Hin. apply in_map_iff in Hin as (y & E & Hy). congruence.
Qed.

(** [gemv]: y := alpha op(A) z + beta y. *)
Theorem C69_gemv : forall (O : Ops), is_ring O ->
  forall (TransA : bool) (alpha beta : car O) A z y m n a x c parts (h : heap (car O)),
  shows h A (if TransA then [n; m] else [m; n]) a -> shows h z [n] x ->
  ddims y = [m] -> inj y -> holds h y c -> apart A y -> apart z y ->
  Permutation (concat parts) (zrange m) ->
  exists ps, gen_gemv TransA alpha A z beta y parts = Ok ps /\
  par_spec ps h (fun h' =>
    (forall i, 0 <= i < m ->
       h' (addr y [i]) = Some (oadd (omul alpha (zsum n (fun p => omul (op TransA a i p) (x [p])))) (omul beta (c [i])))) /\
    (forall w, ~ cell y w -> h' w = h w)).
Proof.
  intros O HR TA alpha beta A z C m k a x c parts h HA HB DC IC HC PA PB HP.
  set (da := if TA then [k; m] else [m; k]) in *.
  assert (EA : odims A = da) by (destruct A; apply HA). assert (EB : odims z = [k]) by (destruct z; apply HB).
  set (ia := fun (i p : Z) => if TA then [p; i] else [i; p]).
  assert (Ia : forall i p, 0 <= i < m -> 0 <= p < k -> inb (ia i p) da).
  { intros. unfold ia, da. destruct TA; repeat constructor; lia. }
  assert (Ib : forall p, 0 <= p < k -> inb [p] [k]) by (intros; repeat constructor; lia).
  assert (Ic : forall i, 0 <= i < m -> inb [i] (ddims C)) by (intros; rewrite DC; repeat constructor; lia).
  set (bf := fun i : Z => pbind (inner_sum (map (fun p => (rdp A a (ia i p), rdp z x [p])) (zrange k)))
      (store alpha beta (subscript C [i]))).
  assert (EP : gen_gemv TA alpha A z beta C parts = Ok (map (fun r => pseq r bf) parts)).
  { unfold gen_gemv, odim, tdim. rewrite EA, EB, DC.
    assert (X1 : (if TA then nth 0 da 0 else nth 1 da 0) = k) by (unfold da; destruct TA; auto).
    assert (X3 : (if TA then nth 1 da 0 else nth 0 da 0) = m) by (unfold da; destruct TA; auto).
    rewrite X1, X3. cbn [nth]. rewrite !Z.eqb_refl. cbn [negb].
    apply gen_pool_ok. intros i Hi. apply (Permutation_in _ HP) in Hi. apply zrange_in in Hi.
    unfold gen_gemv_body.
    rewrite (mapR_map _ _ _ (fun p => (rdp A a (ia i p), rdp z x [p]))); [reflexivity|].
    intros p Hp. apply zrange_in in Hp. change (if TA then [p; i] else [i; p]) with (ia i p).
    rewrite (oread_ok h A da a), (oread_ok h z [k] x) by auto. reflexivity. }
  rewrite EP. eexists. split; [reflexivity|].
  set (v := fun i : Z => oadd (omul alpha (zsum k (fun p => omul (op TA a i p) (x [p])))) (omul beta (c [i]))).
  refine (par_spec_weaken _ _ _ _ _ _ (gen_par (O := O) _ (zrange m) parts (fun i => [i]) bf v C h IC HP _ _)).
  - intros h' (H1 & H2). split; auto. intros i Hi. apply H1. now apply zrange_in.
  - rewrite DC. apply NoDup_Permutation.
    + apply singles_NoDup. apply zrange_NoDup.
    + apply indices_NoDup.
    + intros w. rewrite in_map_iff, in_indices. split.
      * intros (i & <- & Hi). apply zrange_in in Hi. repeat constructor; lia.
      * intros H. inversion H as [|i e is es H1 H2]; subst. inversion H2; subst. exists i. split; auto. now apply zrange_in.
  - intros i h' Hi Hh Hc. apply zrange_in in Hi. unfold bf.
    rewrite subscript_inb by auto. assert (Vc : h' (addr C [i]) = Some (c [i])) by (rewrite Hc; apply HC; auto).
    destruct (inner_ok HR (eq (addr C [i])) (fun z => ~ cell C z) h' Z (fun p => rdp A a (ia i p)) (fun p => rdp z x [p])
       (fun p => a (ia i p)) (fun p => x [p]) (zrange k)) as (S1 & R1).
    { intros p Hp. apply zrange_in in Hp.
      destruct (rdp_ok h h' A da a (ia i p) (eq (addr C [i])) (fun z => ~ cell C z) C) as (U1 & U2); auto.
      destruct (rdp_ok h h' z [k] x [p] (eq (addr C [i])) (fun z => ~ cell C z) C) as (U3 & U4); auto. }
    set (s := lsum (zrange k) (fun p => omul (a (ia i p)) (x [p]))) in *.
    assert (Es : s = zsum k (fun p => omul (op TA a i p) (x [p]))).
    { unfold s, zsum. apply (lsum_ext O). intros p _. unfold op, ia. destruct TA; reflexivity. }
    destruct (store_ok HR alpha beta (addr C [i]) (fun z => ~ cell C z) h' (c [i]) s Vc) as (S2 & h'' & R2 & V2).
    split.
    + apply psafe_bind. split; auto. intros u g E. rewrite R1 in E. injection E as <- <-. auto.
    + exists h''. rewrite run_bind, R1, R2. split; auto. rewrite V2. unfold v. now rewrite Es.
Qed.
Print Assumptions C69_gemv.

(** [ger]: A := A + alpha x y^T. *)
Theorem C69_ger : forall (O : Ops), is_ring O ->
  forall (alpha : car O) X Y A m n x y c parts (h : heap (car O)),
  shows h X [m] x -> shows h Y [n] y ->
  ddims A = [m; n] -> inj A -> holds h A c -> apart X A -> apart Y A ->
  Permutation (concat parts) (positions m n) ->
  exists ps, gen_ger alpha X Y A parts = Ok ps /\
  par_spec ps h (fun h' =>
    (forall i j, 0 <= i < m -> 0 <= j < n ->
       h' (addr A [i; j]) = Some (oadd (c [i; j]) (omul alpha (omul (x [i]) (y [j]))))) /\
    (forall z, ~ cell A z -> h' z = h z)).
Proof.
  intros O HR alpha X Y C m n x y c parts h HA HB DC IC HC PA PB HP. assert (R := ir_rt O HR).
  assert (EA : odims X = [m]) by (destruct X; apply HA). assert (EB : odims Y = [n]) by (destruct Y; apply HB).
  assert (I1 : forall p k, 0 <= p < k -> inb [p] [k]) by (intros; repeat constructor; lia).
  assert (Ic : forall i j, 0 <= i < m -> 0 <= j < n -> inb [i; j] (ddims C)).
  { intros. rewrite DC. repeat constructor; lia. }
  set (bf := fun ij : Z * Z => pbind (rdp X x [fst ij]) (fun u => pbind (rdp Y y [snd ij]) (fun w =>
      PRd (subscript C [fst ij; snd ij]) (fun c => pwrite (subscript C [fst ij; snd ij]) (oadd c (omul (omul alpha u) w)))))).
  assert (EP : gen_ger alpha X Y C parts = Ok (map (fun r => pseq r bf) parts)).
  { unfold gen_ger, odim, tdim. rewrite EA, EB, DC. cbn [nth]. rewrite !Z.eqb_refl. cbn [negb orb].
    apply gen_pool_ok. intros (i, j) Hx. apply (Permutation_in _ HP) in Hx. apply positions_in in Hx as (Hi & Hj).
    unfold gen_ger_body. rewrite (oread_ok h X [m] x), (oread_ok h Y [n] y) by auto. reflexivity. }
  rewrite EP. eexists. split; [reflexivity|].
  set (v := fun ij : Z * Z => oadd (c [fst ij; snd ij]) (omul alpha (omul (x [fst ij]) (y [snd ij])))).
  refine (par_spec_weaken _ _ _ _ _ _ (gen_par (O := O) _ (positions m n) parts (fun ij => [fst ij; snd ij]) bf v C h IC HP _ _)).
  - intros h' (H1 & H2). split; auto. intros i j Hi Hj. apply (H1 (i, j)). now apply positions_in.
  - rewrite DC. apply positions_perm.
  - intros (i, j) h' Hx Hh Hc. apply positions_in in Hx as (Hi & Hj). cbn [fst snd] in *. unfold bf. cbn [fst snd].
    rewrite subscript_inb by auto. assert (Vc : h' (addr C [i; j]) = Some (c [i; j])) by (rewrite Hc; apply HC; auto).
    destruct (rdp_ok h h' X [m] x [i] (eq (addr C [i; j])) (fun z => ~ cell C z) C) as (U1 & U2); auto.
    destruct (rdp_ok h h' Y [n] y [j] (eq (addr C [i; j])) (fun z => ~ cell C z) C) as (U3 & U4); auto.
    split.
    + apply psafe_bind. split; auto. intros u g E. rewrite U2 in E. injection E as <- <-.
      apply psafe_bind. split; auto. intros u g E. rewrite U4 in E. injection E as <- <-.
      cbn [psafe pwrite]. split; auto. exists (c [i; j]). split; auto. split; auto. split; [eauto|exact I].
    + eexists. rewrite run_bind, U2, run_bind, U4. cbn [run pwrite]. rewrite Vc. split; [reflexivity|].
      rewrite upd_same. unfold v. cbn [fst snd]. now rewrite (Rmul_assoc R).
Qed.
Print Assumptions C69_ger.

(** [direct_product]: C := alpha A * B element by element, when beta is 0. *)
Theorem C69_direct_product_partial : forall (O : Ops), is_ring O ->
  forall (alpha beta : car O) A B C dims a b c parts (h : heap (car O)),
  beta = o0 ->
  Forall (fun d => 0 <= d <= 2 ^ 31) dims ->
  shows h A dims a -> shows h B dims b ->
  ddims C = dims -> inj C -> holds h C c -> apart A C -> apart B C ->
  Permutation (concat parts) (zrange (gen_total A)) ->
  exists ps, gen_prod alpha A B beta C parts = Ok ps /\
  par_spec ps h (fun h' =>
    holds h' C (fun idx => oadd (omul alpha (omul (a idx) (b idx))) (omul beta (c idx))) /\
    (forall z, ~ cell C z -> h' z = h z)).
Proof.
  intros O HR alpha beta A B C dims a b c parts h Hb HD HA HB DC IC HC PA PB HP. subst beta. assert (R := ir_rt O HR).
  assert (EA : odims A = dims) by (destruct A; apply HA). assert (EB : odims B = dims) by (destruct B; apply HB).
  assert (HN : Forall (fun d => 0 <= d) dims) by (eapply Forall_impl; [|exact HD]; simpl; lia).
  unfold gen_total in HP. rewrite EA, dims_to_strides_eq in HP. cbn [snd] in HP.
  assert (Id : forall s, 0 <= s < zprod dims -> inb (dec dims s) dims) by (intros; now apply rm_sti_inb).
  set (bf := fun s : Z => pbind (rdp A a (dec dims s)) (fun x => pbind (rdp B b (dec dims s)) (fun y =>
      pwrite (subscript C (dec dims s)) (omul (omul alpha x) y)))).
  assert (EP : gen_prod alpha A B o0 C parts = Ok (map (fun r => pseq r bf) parts)).
  { unfold gen_prod. rewrite EA, EB, DC, same_dims_true. cbn [negb andb]. rewrite dims_to_strides_eq. cbn [fst].
    apply gen_pool_ok. intros s Hx. apply (Permutation_in _ HP) in Hx. apply zrange_in in Hx.
    unfold gen_prod_body. rewrite gindex_ok by auto. cbn [bind].
    rewrite (oread_ok h A dims a), (oread_ok h B dims b) by auto. reflexivity. }
  rewrite EP. eexists. split; [reflexivity|].
  set (v := fun s : Z => omul alpha (omul (a (dec dims s)) (b (dec dims s)))).
  assert (PM := dec_perm dims HN).
  refine (par_spec_weaken _ _ _ _ _ _ (gen_par (O := O) _ (zrange (zprod dims)) parts (dec dims) bf v C h IC HP _ _)).
  - intros h' (H1 & H2). split; auto. intros idx Hi. rewrite DC in Hi. apply in_indices in Hi.
    apply (Permutation_in _ (Permutation_sym PM)) in Hi. apply in_map_iff in Hi as (s & <- & Hs). rewrite H1 by auto.
    f_equal. unfold v. rewrite (omul_0_l HR). now rewrite (Radd_comm R), (Radd_0_l R).
  - now rewrite DC.
  - intros s h' Hs Hh Hc. apply zrange_in in Hs. unfold bf. assert (Hi := Id s Hs).
    rewrite subscript_inb by (now rewrite DC).
    assert (Vc : h' (addr C (dec dims s)) = Some (c (dec dims s))) by (rewrite Hc; apply HC; now rewrite DC).
    destruct (rdp_ok h h' A dims a (dec dims s) (eq (addr C (dec dims s))) (fun z => ~ cell C z) C) as (U1 & U2); auto.
    destruct (rdp_ok h h' B dims b (dec dims s) (eq (addr C (dec dims s))) (fun z => ~ cell C z) C) as (U3 & U4); auto.
    split.
    + apply psafe_bind. split; auto. intros u g E. rewrite U2 in E. injection E as <- <-.
      apply psafe_bind. split; auto. intros u g E. rewrite U4 in E. injection E as <- <-.
      cbn [psafe pwrite]. split; auto. split; [eauto|exact I].
    + eexists. rewrite run_bind, U2, run_bind, U4. cbn [run pwrite]. rewrite Vc. split; [reflexivity|].
      rewrite upd_same. unfold v. now rewrite (Rmul_assoc R).
Qed.
Print Assumptions C69_direct_product_partial.

(** Wrong extents throw before anything is written. *)
Theorem C69_rejects : forall (O : Ops) (cj : car O -> car O) (TransA TransB : bool) (alpha beta : car O) (A B : @operand O) C p1 p2 h,
  (odims A <> odims B -> gen_dot cj A B p1 h = Throw) /\
  (odims A <> odims B \/ odims A <> ddims C -> gen_prod alpha A B beta C p1 = Throw) /\
  (forall ra ca rb cb rc cc, odims A = [ra; ca] -> odims B = [rb; cb] -> ddims C = [rc; cc] ->
     ((if TransA then ra else ca) <> (if TransB then cb else rb) \/ (if TransA then ca else ra) <> rc \/ (if TransB then rb else cb) <> cc) ->
     gen_gemm TransA TransB alpha A B beta C p2 = Throw) /\
  (forall ra ca nb nc, odims A = [ra; ca] -> odims B = [nb] -> ddims C = [nc] ->
     ((if TransA then ra else ca) <> nb \/ (if TransA then ca else ra) <> nc) ->
     gen_gemv TransA alpha A B beta C p1 = Throw) /\
  (forall na nb rc cc, odims A = [na] -> odims B = [nb] -> ddims C = [rc; cc] -> (na <> rc \/ nb <> cc) ->
     gen_ger alpha A B C p2 = Throw).
Proof.
  intros O cj TA TB alpha beta A B C p1 p2 h. split; [|split; [|split; [|split]]].
  - intros H. unfold gen_dot. rewrite same_dims_false by auto. reflexivity.
  - intros [H|H]; unfold gen_prod; rewrite (same_dims_false _ _ H); [reflexivity|]. now rewrite andb_false_r.
  - intros ra ca rb cb rc cc EA EB EC H. unfold gen_gemm, odim, tdim. rewrite EA, EB, EC. cbn [nth].
    destruct (Z.eqb_spec (if TA then ra else ca) (if TB then cb else rb)); [|reflexivity]. cbn [negb].
    destruct (Z.eqb_spec (if TA then ca else ra) rc); [|reflexivity]. cbn [negb].
    destruct (Z.eqb_spec (if TB then rb else cb) cc); [|reflexivity]. tauto.
  - intros ra ca nb nc EA EB EC H. unfold gen_gemv, odim, tdim. rewrite EA, EB, EC. cbn [nth].
    destruct (Z.eqb_spec (if TA then ra else ca) nb); [|reflexivity]. cbn [negb].
    destruct (Z.eqb_spec (if TA then ca else ra) nc); [|reflexivity]. tauto.
  - intros na nb rc cc EA EB EC H. unfold gen_ger, odim, tdim. rewrite EA, EB, EC. cbn [nth].
    destruct (Z.eqb_spec rc na); [|reflexivity]. destruct (Z.eqb_spec cc nb); [|reflexivity]. subst. tauto.
Qed.
Print Assumptions C69_rejects.

(** C69 fails for [direct_product] with beta other than 0: the argument is
    ignored, C (10) := 2 * 3 * 4 + 1 * 10 ends as 24. *)
Theorem C69_beta_refuted :
  let A := OFun (O := ZOps) (FBase [1] (fun _ => 3)) in
  let B := OFun (O := ZOps) (FBase [1] (fun _ => 4)) in
  let C := tensor_ctor 0 [1] in
  let h : heap Z := fun a => if a =? 0 then Some 10 else None in
  match gen_prod (O := ZOps) 2 A B 1 C [[0]] with
  | Ok [p] => match run p h with Ok (_, h') => h' 0 = Some 24 | _ => False end
  | _ => False
  end /\ 2 * (3 * 4) + 1 * 10 = 34.
Proof. split; reflexivity. Qed.
Print Assumptions C69_beta_refuted.

(** C69 fails for [dot] beyond 2^31 elements along one axis: the position is
    narrowed to [int].  The operands have 2^31 + 1 elements; the first, a vector, is 1
    at the last position and 0 elsewhere; the second, a function, is 1 everywhere. *)
Theorem C69_dot_large_refuted :
  let n := 2 ^ 31 + 1 in
  let A := tensor_ctor 0 [n] in
  let h : heap Z := fun a => if (0 <=? a) && (a <? n) then Some (if a =? 2 ^ 31 then 1 else 0) else None in
  holds h A (fun idx => if hd 0 idx =? 2 ^ 31 then 1 else 0) /\
  Permutation (concat [zrange n]) (zrange (gen_total (O := ZOps) (ODense A))) /\
  gen_dot (O := ZOps) (fun x => x) (ODense A) (OFun (O := ZOps) (FBase [n] (fun _ => 1))) [zrange n] h = Ok 0.
Proof.
  intros n A h.
  assert (HA : forall i, 0 <= i < n -> h i = Some (if i =? 2 ^ 31 then 1 else 0)).
  { intros i Hi. unfold h. destruct (Z.leb_spec 0 i); [|lia]. destruct (Z.ltb_spec i n); [|lia]. reflexivity. }
  assert (AD : forall b i, addr (tensor_ctor b [n]) [i] = b + i).
  { intros. unfold addr, tensor_ctor. change (row_major_strides [n]) with [1]. cbn [dbase dstrides dotp]. lia. }
  set (B := OFun (O := ZOps) (FBase [n] (fun _ => 1))).
  split; [|split].
  - intros idx Hi. inversion Hi as [|i e is es H1 H2]; subst. inversion H2; subst. unfold A. rewrite AD. cbn [hd]. rewrite Z.add_0_l. now apply HA.
  - unfold gen_total. cbn [odims]. rewrite dims_to_strides_eq. unfold A. cbn [snd tensor_ctor ddims concat zprod]. rewrite app_nil_r, Z.mul_1_r. reflexivity.
  - unfold gen_dot. cbn [odims]. change (ddims A) with [n]. change (odims B) with [n]. rewrite same_dims_true. cbn [negb].
    change (fst (dims_to_strides [n])) with [1].
    assert (G : gen_dot_part (O := ZOps) (fun x => x) (ODense A) B [1] h (zrange n) = Ok 0).
    { unfold gen_dot_part.
      assert (GS : forall l, (forall s, In s l -> 0 <= s < n) ->
        forM l (fun s acc => idx <- gindex s [1] ;; a <- oval (O := ZOps) (ODense A) idx h ;; b <- oval (O := ZOps) B idx h ;;
                  Ok (oadd (o := ZOps) acc (omul (o := ZOps) a b))) 0 = Ok 0).
      { induction l as [|s l IH]; intros Hs; [reflexivity|]. cbn [forM].
        assert (Bs := Hs s (or_introl eq_refl)).
        replace (gindex s [1]) with (Ok [to_int32 s]) by (unfold gindex; cbn; rewrite Z.div_1_r; reflexivity).
        cbn [bind].
        assert (V : exists i, 0 <= i < 2 ^ 31 /\ subscript A [to_int32 s] = i /\ fget (T := car ZOps) (FBase [n] (fun _ => 1)) [to_int32 s] = Ok 1).
        { destruct (Z_lt_dec s (2 ^ 31)) as [L|L].
          - exists s. split; [lia|]. rewrite to_int32_id by lia. split.
            + rewrite subscript_inb by (repeat constructor; unfold n; lia). unfold A. rewrite AD. lia.
            + unfold fget. cbn [map fdims fix_indices]. rewrite to_int32_id by lia. unfold fix_index.
              destruct (Z.ltb_spec s 0); [lia|]. rewrite Z.mod_small by lia. destruct (Z.leb_spec n s); [unfold n in *; lia|].
              destruct (Z.ltb_spec s 0); [lia|]. reflexivity.
          - assert (s = 2 ^ 31) by (unfold n in Bs; lia). subst s. exists 1. split; [lia|]. split; reflexivity. }
        destruct V as (i & Hi & VA & VB).
        assert (OA : oval (O := ZOps) (ODense A) [to_int32 s] h = Ok 0).
        { unfold oval. cbn [oread bind]. rewrite VA. cbn [run pread]. rewrite HA by (unfold n; lia).
          destruct (Z.eqb_spec i (2 ^ 31)); [lia|]. reflexivity. }
        assert (OB : oval (O := ZOps) B [to_int32 s] h = Ok 1).
        { unfold oval, B. cbn [oread]. rewrite VB. reflexivity. }
        rewrite OA. cbn [bind]. rewrite OB. cbn [bind]. apply IH. intros; apply Hs; now right. }
      apply GS. intros s Hs. now apply zrange_in. }
    cbn [forM]. rewrite G. reflexivity.
Qed.
Print Assumptions C69_dot_large_refuted.

(** The hypotheses are met: identity (a Kronecker delta) times a 2 x 2 view with
    row stride 3, into a tensor holding 5; two threads. *)
Example C69_case :
  let A := OFun (O := ZOps) (kronecker (O := ZOps) 2) in
  let V := mkDesc 10 [2; 2] [3; 1] in
  let C := tensor_ctor 0 [2; 2] in
  let a := fun idx => match idx with [i; j] => if i =? j then 1 else 0 | _ => 0 end in
  let h : heap Z := fun z => if (0 <=? z) && (z <? 4) then Some 5 else if (10 <=? z) && (z <? 16) then Some z else None in
  shows (O := ZOps) h A [2; 2] a /\ apart (O := ZOps) (ODense V) C /\ inj C /\ holds h C (fun _ => 5) /\
  Permutation (concat [[(1, 1); (0, 0)]; [(0, 1); (1, 0)]]) (positions 2 2) /\
  match gen_gemm (O := ZOps) false true 2 A (ODense V) 3 C [[(1, 1); (0, 0)]; [(0, 1); (1, 0)]] with
  | Ok [p; q] => match run p h with
      | Ok (_, h1) => match run q h1 with
          | Ok (_, h2) => map h2 [0; 1; 2; 3] = [Some 35; Some 41; Some 37; Some 43] | _ => False end
      | _ => False end
  | _ => False
  end.
Proof.
  intros A V C a h. split; [|split; [|split; [|split; [|split]]]].
  - apply (C69_function_operand ZOps h [2; 2] _ [] a).
    + repeat constructor; unfold small; lia.
    + exact I.
    + intros j p E _. cbn [sees] in E. subst p. reflexivity.
  - intros i j Hi Hj E.
    inversion Hi as [|i1 d1 l1 e1 H1 H2]; subst. inversion H2 as [|i2 d2 l2 e2 H3 H4]; subst. inversion H4; subst.
    inversion Hj as [|j1 d1 l1 e1 G1 G2]; subst. inversion G2 as [|j2 d2 l2 e2 G3 G4]; subst. inversion G4; subst.
    unfold addr, C, V, tensor_ctor in E. change (row_major_strides [2; 2]) with [2; 1] in E. cbn [dbase dstrides dotp] in E. lia.
  - apply rm_inj.
  - intros idx Hi. inversion Hi as [|i1 d1 l1 e1 H1 H2]; subst. inversion H2 as [|i2 d2 l2 e2 H3 H4]; subst. inversion H4; subst.
    unfold addr, C, tensor_ctor. change (row_major_strides [2; 2]) with [2; 1]. cbn [dbase dstrides dotp]. unfold h.
    destruct (Z.leb_spec 0 (0 + (i1 * 2 + (i2 * 1 + 0)))); [|lia]. destruct (Z.ltb_spec (0 + (i1 * 2 + (i2 * 1 + 0))) 4); [|lia]. reflexivity.
  - apply NoDup_Permutation.
    + repeat constructor; simpl; intuition congruence.
    + vm_compute. repeat constructor; simpl; intuition congruence.
    + intros x. vm_compute. tauto.
  - vm_compute. reflexivity.
Qed.
