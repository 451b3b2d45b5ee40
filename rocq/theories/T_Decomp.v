(** * T_Decomp: C70 and C71. *)
From Coq Require Import List ZArith Lia Bool Permutation.
From Verif Require Import Base Heap Conc M_Addr S_Addr L_Addr M_Elt L_Elt M_Einsum S_Einsum L_Einsum S_Blas L_Blas
  M_Red L_Red L_Generic M_Decomp S_Decomp L_Decomp.
Import ListNotations.
Open Scope Z_scope.

(** ** C70: CANDECOMP/PARAFAC *)

Section CP.
  Context {O : Ops} (HR : is_ring O).
  Notation T := (car O).
  Add Ring R : (ir_rt O HR).

  Lemma matrices_shape : forall (h : heap T) Fs rs cs fs, matrices h Fs rs cs fs ->
    cp_dims Fs = rs /\ map (fun F => tdim F 1) Fs = cs /\ length fs = length Fs /\ length rs = length Fs /\ length cs = length Fs.
  Proof.
    intros h Fs rs cs fs H. induction H as [|F r c f Fs rs cs fs D Hh H IH]; [repeat split|].
    destruct IH as (A & B & C & E & G). unfold cp_dims in *. cbn [map length]. unfold tdim at 1 3. rewrite D. cbn [nth].
    repeat split; try congruence.
  Qed.

  Lemma cp_rank_of_eq : forall (Fs : list desc) R, Fs <> [] -> (forall F, In F Fs -> tdim F 1 = R) -> cp_rank_of Fs = R.
  Proof.
    intros Fs R Hne H. unfold cp_rank_of. destruct Fs as [|F Fs]; [congruence|]. cbn [fold_left].
    change (0 =? 0) with true. cbv iota. rewrite (H F) by (now left).
    assert (G : forall F', In F' Fs -> tdim F' 1 = R) by (intros; apply H; now right). clear H Hne.
    induction Fs as [|F' Fs IH]; cbn [fold_left]; auto.
    destruct (Z.eqb_spec R 0); [rewrite (G F') by (now left)|]; apply IH; intros; apply G; now right.
  Qed.

  Lemma cp_term_ok : forall own sh (h h' : heap T) Fs ds cs fs R r, matrices h Fs ds cs fs -> Forall (eq R) cs -> 0 <= r < R ->
    (forall F a, In F Fs -> cell F a -> sh a /\ h' a = h a) ->
    forall idx temp k, inb idx ds ->
    (psafe own sh (k (omul temp (elems_prod fs idx (repeat r (length idx))))) h' -> psafe own sh (cp_term Fs idx r temp k) h') /\
    run (cp_term Fs idx r temp k) h' = run (k (omul temp (elems_prod fs idx (repeat r (length idx))))) h'.
  Proof.
    intros own sh h h' Fs ds cs fs R r H. induction H as [|F d c f Fs ds cs fs D Hh H IH]; intros HC Hr Hsh idx temp k Hi.
    - inversion Hi; subst. simpl. replace (omul temp o1) with temp by ring. auto.
    - inversion Hi as [|i ? idx' ? Hi1 Hi2]; subst. inversion HC as [|? ? Ec HC']; subst.
      cbn [cp_term length repeat elems_prod].
      assert (If : inb [i; r] (ddims F)) by (rewrite D; repeat constructor; lia). rewrite subscript_inb by auto.
      assert (C : cell F (addr F [i; r])) by (exists [i; r]; auto).
      destruct (Hsh F _ (or_introl eq_refl) C) as (S1 & S2). rewrite Hh in S2 by auto.
      destruct (IH HC' Hr (fun G a HG => Hsh G a (or_intror HG)) idx' (omul temp (f [i; r])) k Hi2) as (P1 & P2).
      replace (omul (omul temp (f [i; r])) (elems_prod fs idx' (repeat r (length idx')))) with
        (omul temp (omul (f [i; r]) (elems_prod fs idx' (repeat r (length idx'))))) in P1, P2 by ring.
      split.
      + intros Hk. cbn [psafe]. split; auto. exists (f [i; r]). split; auto.
      + cbn [run]. rewrite S2. exact P2.
  Qed.

  Lemma cp_body_ok : forall (h : heap T) Fs ds cs fs R out idx, matrices h Fs ds cs fs -> Forall (eq R) cs -> ddims out = ds -> inb idx ds ->
    (forall F a, In F Fs -> cell F a -> ~ cell out a) ->
    forall l (h' : heap T) c, (forall r, In r l -> 0 <= r < R) -> (forall a, ~ cell out a -> h' a = h a) -> h' (addr out idx) = Some c ->
    let P := pseq l (fun r => cp_term Fs idx r o1 (fun temp => PRd (subscript out idx) (fun t => pwrite (subscript out idx) (oadd t temp)))) in
    psafe (eq (addr out idx)) (fun a => ~ cell out a) P h' /\
    exists h'', run P h' = Ok (Datatypes.tt, h'') /\ h'' (addr out idx) = Some (oadd c (lsum l (fun r => elems_prod fs idx (repeat r (length idx))))).
  Proof.
    intros h Fs ds cs fs R out idx HM HC Do Hi Hsep. induction l as [|r l IH]; intros h' c Hl Hf Hc P.
    - split; [exact I|]. exists h'. split; auto. rewrite Hc. f_equal. simpl. ring.
    - unfold P. cbn [pseq]. set (K := fun temp : T => PRd (subscript out idx) (fun t => pwrite (subscript out idx) (oadd t temp))).
      set (e := elems_prod fs idx (repeat r (length idx))).
      destruct (cp_term_ok (eq (addr out idx)) (fun a => ~ cell out a) h h' Fs ds cs fs R r HM HC (Hl r (or_introl eq_refl))
        (fun F a HF C => conj (Hsep F a HF C) (Hf a (Hsep F a HF C))) idx o1 K Hi) as (P1 & P2). fold e in P1, P2.
      replace (omul o1 e) with e in P1, P2 by ring.
      assert (Hio : inb idx (ddims out)) by (now rewrite Do).
      set (h1 := upd h' (addr out idx) (oadd c e)).
      assert (RK : run (K e) h' = Ok (Datatypes.tt, h1)).
      { unfold K. rewrite subscript_inb by auto. cbn [run pwrite]. unfold pwrite. cbn [run]. rewrite Hc. reflexivity. }
      assert (SK : psafe (eq (addr out idx)) (fun a => ~ cell out a) (K e) h').
      { unfold K. rewrite subscript_inb by auto. unfold pwrite. cbn [psafe]. split; auto. exists c. split; auto. split; auto. split; [eauto|exact I]. }
      destruct (IH h1 (oadd c e)) as (S2 & h'' & R2 & V2).
      { intros; apply Hl; now right. }
      { intros a Ha. unfold h1. rewrite upd_other; auto. intros ->. apply Ha. exists idx. auto. }
      { apply upd_same. }
      split.
      + apply psafe_bind. split; auto. intros u g E. rewrite P2, RK in E. injection E as <- <-. exact S2.
      + exists h''. fold K in R2. rewrite run_bind, P2, RK, R2. split; auto. rewrite V2. f_equal.
        change (lsum (r :: l) ?f) with (oadd (f r) (lsum l f)). cbv beta. fold e. ring.
  Qed.
End CP.

(** C70.  [parafac_reconstruct]: for every distribution of the positions over the
    threads and every interleaving, the new tensor holds the sum over r of the products of the
    columns r; no other memory changes. *)
Theorem C70_reconstruct : forall (O : Ops), is_ring O -> forall pl factors dims R fs parts (h : heap (car O)),
  alloc_ok pl -> factors <> [] -> Forall (fun d => 0 <= d) dims ->
  matrices h factors dims (repeat R (length factors)) fs ->
  Permutation (concat parts) (indices dims) ->
  (parafac_reconstruct (length factors) pl factors parts h = Throw /\ refuses pl) \/
  exists p h1 ps, parafac_reconstruct (length factors) pl factors parts h = Ok (tensor_ctor p dims, h1, ps) /\
    par_spec ps h1 (fun h' => created h h' (tensor_ctor p dims) /\ holds h' (tensor_ctor p dims) (cp_value R fs)).
Proof.
  intros O HR pl Fs ds R fs parts h Hpl Hne HN HM HP. unfold parafac_reconstruct. rewrite Nat.eqb_refl. cbn [negb].
  destruct (matrices_shape h Fs _ _ fs HM) as (E1 & E2 & L1 & L2 & L3). rewrite E1.
  assert (Ned : ds <> []) by (intros ->; destruct Fs; [congruence|discriminate]).
  destruct (new_tensor_spec pl ds h Hpl Ned HN) as [(E & Rf)|(p & h1 & E & Fr & Z1 & K1)]; rewrite E; cbn [bind fst snd]; auto.
  right. exists p, h1. eexists. split; [reflexivity|]. set (d := tensor_ctor p ds) in *.
  assert (HC : Forall (eq R) (repeat R (length Fs))) by (apply Forall_forall; intros x Hx; apply repeat_spec in Hx; auto).
  assert (ER : cp_rank_of Fs = R).
  { apply cp_rank_of_eq; auto. intros F HF. assert (I := in_map (fun F => tdim F 1) Fs F HF). rewrite E2 in I. now apply repeat_spec in I. }
  rewrite ER.
  assert (Sep : forall F a, In F Fs -> cell F a -> ~ cell d a).
  { intros F a HF C C2. apply (mats_alloc false h Fs ds (repeat R (length Fs)) fs F a HM HF C). auto. }
  assert (HM1 : matrices h1 Fs ds (repeat R (length Fs)) fs).
  { apply (mats_frame false h h1 Fs ds (repeat R (length Fs)) fs HM). intros F a HF C. apply K1. eapply Sep; eauto. }
  refine (par_spec_weaken _ _ _ _ _ _ (gen_par (O := O) _ (indices ds) parts (fun idx => idx) (cp_body Fs R d) (cp_value R fs) d h1 (rm_inj _ _) HP _ _)).
  - intros h' (H1 & H2). split; [split; auto|].
    + intros a Ha. rewrite H2; auto.
    + intros idx Hi. apply H1. now apply in_indices.
  - rewrite map_id. apply Permutation_refl.
  - intros idx h' Hx Hf Hc. apply in_indices in Hx.
    destruct (cp_body_ok HR h1 Fs ds (repeat R (length Fs)) fs R d idx HM1 HC eq_refl Hx Sep (zrange R) h' o0) as (S & h'' & R2 & V); auto.
    + intros r Hr. now apply zrange_in.
    + rewrite Hc. apply Z1. exists idx. auto.
    + split; [exact S|]. exists h''. split; [exact R2|]. rewrite V. f_equal. unfold cp_value, zsum.
      assert (Rt := ir_rt O HR). now rewrite (Radd_0_l Rt).
Qed.
Print Assumptions C70_reconstruct.

(** [weight_tensor]: every element times the weight of its first index. *)
Theorem C70_weights : forall (O : Ops), is_ring O -> forall pl t w d0 rest f g parts (h : heap (car O)),
  alloc_ok pl -> ddims t = d0 :: rest -> Forall (fun d => 0 <= d) (d0 :: rest) -> ddims w = [d0] ->
  holds h t f -> holds h w g -> Permutation (concat parts) (indices (d0 :: rest)) ->
  (weight_tensor pl t w parts h = Throw /\ refuses pl) \/
  exists p h1 ps, weight_tensor pl t w parts h = Ok (tensor_ctor p (d0 :: rest), h1, ps) /\
    par_spec ps h1 (fun h' => created h h' (tensor_ctor p (d0 :: rest)) /\
      holds h' (tensor_ctor p (d0 :: rest)) (fun idx => omul (g [hd 0 idx]) (f idx))).
Proof.
  intros O HR pl t w d0 rest f g parts h Hpl Dt HN Dw Ht Hw HP. unfold weight_tensor, tdim. rewrite Dt, Dw. cbn [nth]. rewrite Z.eqb_refl. cbn [negb].
  destruct (new_tensor_spec pl (d0 :: rest) h Hpl ltac:(discriminate) HN) as [(E & Rf)|(p & h1 & E & Fr & Z1 & K1)]; rewrite E; cbn [bind fst snd]; auto.
  right. exists p, h1. eexists. split; [reflexivity|]. set (d := tensor_ctor p (d0 :: rest)) in *.
  assert (St : forall a, cell t a -> ~ cell d a).
  { intros a (i & Hi & ->) C. assert (A := Fr _ C). rewrite Ht in A by auto. discriminate. }
  assert (Sw : forall a, cell w a -> ~ cell d a).
  { intros a (i & Hi & ->) C. assert (A := Fr _ C). rewrite Hw in A by auto. discriminate. }
  refine (par_spec_weaken _ _ _ _ _ _ (gen_par (O := O) _ (indices (d0 :: rest)) parts (fun idx => idx) (weight_body t w d) (fun idx => omul (g [hd 0 idx]) (f idx)) d h1 (rm_inj _ _) HP _ _)).
  - intros h' (H1 & H2). split; [split; auto|].
    + intros a Ha. rewrite H2; auto.
    + intros idx Hi. apply H1. now apply in_indices.
  - rewrite map_id. apply Permutation_refl.
  - intros idx h' Hx Hf Hc. apply in_indices in Hx. inversion Hx as [|i ? r ? Hi Hr]; subst.
    unfold weight_body, pwrite. cbn [nth hd].
    assert (It : inb (i :: r) (ddims t)) by (now rewrite Dt).
    assert (Iw : inb [i] (ddims w)) by (rewrite Dw; repeat constructor; lia).
    rewrite (subscript_inb t), (subscript_inb w), (subscript_inb d) by auto.
    assert (Ct : cell t (addr t (i :: r))) by (eexists; eauto). assert (Cw : cell w (addr w [i])) by (eexists; eauto).
    assert (V1 : h' (addr t (i :: r)) = Some (f (i :: r))) by (rewrite Hf, K1 by auto; apply Ht; auto).
    assert (V2 : h' (addr w [i]) = Some (g [i])) by (rewrite Hf, K1 by auto; apply Hw; auto).
    assert (V3 : h' (addr d (i :: r)) = Some o0) by (rewrite Hc; apply Z1; eexists; split; [exact Hx|reflexivity]).
    cbn [psafe run]. split.
    + split; auto. exists (f (i :: r)). split; auto. split; auto. exists (g [i]). split; auto. split; auto. split; [eauto|exact I].
    + rewrite V1, V2, V3. eexists. split; [reflexivity|]. apply upd_same.
Qed.
Print Assumptions C70_weights.
(** Weights of another length are rejected. *)
Theorem C70_weights_rejects : forall (O : Ops) pl t w d0 rest e0 parts (h : heap (car O)),
  ddims t = d0 :: rest -> ddims w = [e0] -> d0 <> e0 -> weight_tensor pl t w parts h = Throw.
Proof.
  intros O pl t w d0 rest e0 parts h Dt Dw Hne. unfold weight_tensor, tdim. rewrite Dt, Dw. cbn [nth].
  apply Z.eqb_neq in Hne. rewrite Hne. reflexivity.
Qed.
Print Assumptions C70_weights_rejects.

(** [norm] and [rmsd]. *)
Theorem C70_norm_partial : forall (O : Ops), is_ring O -> forall (sq : car O -> car O) d f (h : heap (car O)), holds h d f ->
  dnorm sq d h = Ok (sq (lsum (indices (ddims d)) (fun idx => omul (f idx) (f idx)))).
Proof.
  intros O HR sq d f h Hh. unfold dnorm. assert (Rt := ir_rt O HR).
  assert (G : forall l acc, (forall idx, In idx l -> inb idx (ddims d)) ->
    forM l (fun idx acc => x <- tget h d idx ;; Ok (oadd acc (omul x x))) acc = Ok (oadd acc (lsum l (fun idx => omul (f idx) (f idx))))).
  { induction l as [|idx l IH]; intros acc Hl; cbn [forM].
    - f_equal. simpl. now rewrite (Radd_comm Rt), (Radd_0_l Rt).
    - assert (Hi := Hl idx (or_introl eq_refl)). unfold tget. rewrite subscript_inb by auto. rewrite (rd_some _ _ _ _ (Hh idx Hi)). cbn [bind].
      fold (@tget (car O)). rewrite IH by (intros; apply Hl; now right). f_equal.
      change (lsum (idx :: l) ?f) with (oadd (f idx) (lsum l f)). cbv beta. now rewrite (Radd_assoc Rt). }
  rewrite G by (intros; now apply in_indices). cbn [bind]. now rewrite (Radd_0_l Rt).
Qed.
Print Assumptions C70_norm_partial.

Theorem C70_rmsd : forall (O : Ops), is_ring O -> forall (sq : car O -> car O) num A B dims a b parts (h : heap (car O)),
  ddims A = dims -> ddims B = dims -> holds h A a -> holds h B b -> Permutation (concat parts) (indices dims) ->
  rmsd sq num A B parts h =
    Ok (sq (odiv (lsum (indices dims) (fun idx => omul (osub (a idx) (b idx)) (osub (a idx) (b idx)))) (num (zprod dims)))).
Proof.
  intros O HR sq num A B dims a b parts h DA DB HA HB HP. unfold rmsd. assert (Rt := ir_rt O HR).
  set (v := fun idx => omul (osub (a idx) (b idx)) (osub (a idx) (b idx))).
  assert (G : forall l acc, (forall idx, In idx l -> inb idx dims) ->
    forM l (fun idx acc => x <- tget h A idx ;; y <- tget h B idx ;; Ok (oadd acc (omul (osub x y) (osub x y)))) acc = Ok (oadd acc (lsum l v))).
  { induction l as [|idx l IH]; intros acc Hl; cbn [forM].
    - f_equal. simpl. now rewrite (Radd_comm Rt), (Radd_0_l Rt).
    - assert (Hi := Hl idx (or_introl eq_refl)). assert (Ia : inb idx (ddims A)) by (now rewrite DA). assert (Ib : inb idx (ddims B)) by (now rewrite DB).
      unfold tget at 1 2. rewrite !subscript_inb by auto. rewrite (rd_some _ _ _ _ (HA idx Ia)). cbn [bind]. rewrite (rd_some _ _ _ _ (HB idx Ib)). cbn [bind].
      rewrite IH by (intros; apply Hl; now right). f_equal.
      change (lsum (idx :: l) v) with (oadd (v idx) (lsum l v)). unfold v at 2. now rewrite (Radd_assoc Rt). }
  assert (G2 : forall ps acc, (forall idx, In idx (concat ps) -> inb idx dims) ->
    forM ps (fun part out => s <- rmsd_part A B h part ;; Ok (oadd out s)) acc = Ok (oadd acc (lsum (concat ps) v))).
  { induction ps as [|q ps IH]; intros acc Hl; cbn [forM concat].
    - f_equal. simpl. now rewrite (Radd_comm Rt), (Radd_0_l Rt).
    - unfold rmsd_part at 1. rewrite G by (intros; apply Hl; simpl; apply in_or_app; auto). cbn [bind].
      rewrite IH by (intros; apply Hl; simpl; apply in_or_app; auto). f_equal.
      rewrite (lsum_app O HR), (Radd_0_l Rt), (Radd_assoc Rt). reflexivity. }
  rewrite G2 by (intros idx Hx; apply in_indices; eapply Permutation_in; eauto). cbn [bind].
  rewrite (Radd_0_l Rt), (lsum_perm O HR _ _ _ _ HP), DA. reflexivity.
Qed.
Print Assumptions C70_rmsd.

(** Complex elements: [norm] leaves out the conjugate; for the one-element tensor
    holding the imaginary unit the number under the root is -1, not |i|^2 = 1. *)
Definition gmul (x y : Z * Z) : Z * Z := (fst x * fst y - snd x * snd y, fst x * snd y + snd x * fst y).
Definition gconj (x : Z * Z) : Z * Z := (fst x, - snd x).
Definition GOps : Ops := {| car := Z * Z; o0 := (0, 0); o1 := (1, 0);
  oadd := fun x y => (fst x + fst y, snd x + snd y); omul := gmul; osub := fun x y => (fst x - fst y, snd x - snd y);
  oopp := fun x => (- fst x, - snd x); odiv := fun x _ => x; oeqb := fun x y => (fst x =? fst y) && (snd x =? snd y) |}.
Theorem C70_norm_complex_refuted :
  let h : heap (Z * Z) := fun a => if a =? 0 then Some (0, 1) else None in
  dnorm (O := GOps) (fun x => x) (mkDesc 0 [1] [1]) h = Ok (-1, 0) /\
  lsum (O := GOps) (indices [1]) (fun _ => gmul (0, 1) (gconj (0, 1))) = (1, 0).
Proof. split; vm_compute; reflexivity. Qed.
Print Assumptions C70_norm_complex_refuted.

(** [validate_cp_rank]: the quotient of the number of elements and the sum of the
    extents, rounded as asked for. *)
Theorem C70_cp_rank_partial : forall shape r,
  Forall (fun d => 0 <= d) shape -> let p := fold_right Z.mul 1 shape in let s := fold_right Z.add 0 shape in
  p < 2 ^ 31 -> 0 < s < 2 ^ 31 ->
  match r with
  | RFloor => exists k, cp_rank shape r = Ok k /\ k * s <= p < (k + 1) * s
  | RCeil => exists k, cp_rank shape r = Ok k /\ (k - 1) * s < p <= k * s
  | RRound => exists k, cp_rank shape r = Ok k /\ - s <= 2 * (p - k * s) < s
  | ROther => cp_rank shape r = Throw
  end.
Proof.
  intros shape r HN p s Hp Hs.
  assert (M : forall x d, to_int32 (to_int32 x * d) = to_int32 (x * d)).
  { intros x d. unfold to_int32. set (q := (x + 2 ^ 31) / 2 ^ 32).
    assert (E : (x + 2 ^ 31) mod 2 ^ 32 = x + 2 ^ 31 - 2 ^ 32 * q) by (unfold q; rewrite Z.mod_eq by lia; lia).
    rewrite E. replace ((x + 2 ^ 31 - 2 ^ 32 * q - 2 ^ 31) * d + 2 ^ 31) with ((x * d + 2 ^ 31) + (- (q * d)) * 2 ^ 32) by ring.
    now rewrite Z_mod_plus_full. }
  assert (A : forall x d, to_int32 (to_int32 x + d) = to_int32 (x + d)).
  { intros x d. unfold to_int32. set (q := (x + 2 ^ 31) / 2 ^ 32).
    assert (E : (x + 2 ^ 31) mod 2 ^ 32 = x + 2 ^ 31 - 2 ^ 32 * q) by (unfold q; rewrite Z.mod_eq by lia; lia).
    rewrite E. replace (x + 2 ^ 31 - 2 ^ 32 * q - 2 ^ 31 + d + 2 ^ 31) with ((x + d + 2 ^ 31) + (- q) * 2 ^ 32) by ring.
    now rewrite Z_mod_plus_full. }
  assert (GM : forall l a, fold_left (fun acc d => to_int32 (acc * d)) l (to_int32 a) = to_int32 (a * fold_right Z.mul 1 l)).
  { induction l as [|d l IH]; intros a; cbn [fold_left fold_right]; [now rewrite Z.mul_1_r|]. rewrite M, IH. f_equal. ring. }
  assert (GA : forall l a, fold_left (fun acc d => to_int32 (acc + d)) l (to_int32 a) = to_int32 (a + fold_right Z.add 0 l)).
  { induction l as [|d l IH]; intros a; cbn [fold_left fold_right]; [now rewrite Z.add_0_r|]. rewrite A, IH. f_equal. ring. }
  assert (P0 : 0 <= p) by (unfold p; clear - HN; induction HN; cbn [fold_right]; [lia|nia]).
  assert (EP : fold_left (fun acc d => to_int32 (acc * d)) shape 1 = p).
  { change 1 with (to_int32 1) at 1. rewrite GM, Z.mul_1_l. apply to_int32_id. fold p. lia. }
  assert (ES : fold_left (fun acc d => to_int32 (acc + d)) shape 0 = s).
  { change 0 with (to_int32 0) at 1. rewrite GA, Z.add_0_l. apply to_int32_id. fold s. lia. }
  unfold cp_rank. rewrite EP, ES. destruct (Z.eqb_spec s 0); [lia|]. destruct r; auto; eexists; (split; [reflexivity|]).
  - assert (D := Z.div_mod (- p) s ltac:(lia)). assert (B := Z.mod_pos_bound (- p) s ltac:(lia)). nia.
  - assert (D := Z.div_mod p s ltac:(lia)). assert (B := Z.mod_pos_bound p s ltac:(lia)). nia.
  - destruct (Z.leb_spec 0 (p * s)); [|nia]. rewrite !Z.abs_eq by lia.
    assert (D := Z.div_mod (2 * p + s) (2 * s) ltac:(lia)). assert (B := Z.mod_pos_bound (2 * p + s) (2 * s) ltac:(lia)). nia.
Qed.
Print Assumptions C70_cp_rank_partial.

(** A 65536 x 65536 matrix: the product wraps around to 0; the quotient is 32768. *)
Theorem C70_cp_rank_refuted : cp_rank [2 ^ 16; 2 ^ 16] RRound = Ok 0 /\ 2 ^ 16 * 2 ^ 16 = 32768 * (2 ^ 16 + 2 ^ 16).
Proof. split; vm_compute; reflexivity. Qed.
Print Assumptions C70_cp_rank_refuted.

Example C70_cp_rank_case : cp_rank [4; 5; 6] RRound = Ok 8 /\ cp_rank [2; 3] RCeil = Ok 2 /\ cp_rank [2; 3] RFloor = Ok 1.
Proof. repeat split. Qed.

(** ** C71: Tucker *)

(** C71.  [tucker_reconstruct]: the new tensor is the core contracted with all the
    factors; its memory was free, no other memory changes (the intermediate buffers are gone),
    and nothing is freed twice or used after it was freed. *)
Theorem C71_reconstruct : forall (O : Ops), is_ring O -> forall pl g factors extra dims ranks fs gf (h : heap (car O)),
  alloc_ok pl -> factors <> [] -> ddims g = ranks -> Forall (fun d => 0 <= d) dims -> Forall (fun d => 0 <= d) ranks ->
  matrices h factors dims ranks fs -> holds h g gf ->
  (tucker_reconstruct pl g (factors ++ extra) h = Throw /\ refuses pl) \/
  exists p h', tucker_reconstruct pl g (factors ++ extra) h = Ok (tensor_ctor p dims, h') /\
    created h h' (tensor_ctor p dims) /\ holds h' (tensor_ctor p dims) (tucker_value ranks gf fs).
Proof.
  intros O HR pl g Fs extra dims ranks fs gf h Hpl Hne Dg HN HE HM Hg.
  destruct (matrices_shape h Fs _ _ fs HM) as (E1 & E2 & L1 & L2 & L3).
  assert (EC : map (fun F => (F, tdim F 0)) Fs = combine Fs dims).
  { rewrite <- E1. unfold cp_dims. clear. induction Fs as [|F Fs IH]; simpl; congruence. }
  unfold tucker_reconstruct. rewrite Dg, L3, app_length. destruct (Nat.ltb_spec (length Fs + length extra) (length Fs)); [lia|].
  rewrite firstn_app, Nat.sub_diag, firstn_all. simpl firstn. rewrite app_nil_r, EC.
  apply (all_modes_spec HR false pl g Fs dims ranks fs h gf); auto.
Qed.
Print Assumptions C71_reconstruct.

(** The core tensor: the tensor contracted with all the factors transposed. *)
Theorem C71_core : forall (O : Ops), is_ring O -> forall pl t factors dims ranks fs tf (h : heap (car O)),
  alloc_ok pl -> factors <> [] -> ddims t = dims -> Forall (fun d => 0 <= d) dims -> Forall (fun d => 0 <= d) ranks ->
  matrices h factors dims ranks fs -> holds h t tf ->
  (tucker_core pl t ranks factors h = Throw /\ refuses pl) \/
  exists p h', tucker_core pl t ranks factors h = Ok (tensor_ctor p ranks, h') /\
    created h h' (tensor_ctor p ranks) /\ holds h' (tensor_ctor p ranks) (core_value dims tf fs).
Proof.
  intros O HR pl t Fs dims ranks fs tf h Hpl Hne Dt HN HE HM Ht.
  destruct (matrices_shape h Fs _ _ fs HM) as (E1 & E2 & L1 & L2 & L3).
  unfold tucker_core. rewrite Dt, L2. rewrite Nat.ltb_irrefl. destruct (Nat.ltb_spec (length ranks) (length Fs)); [lia|]. cbn [orb].
  rewrite firstn_all2 by (rewrite combine_length; lia).
  apply (all_modes_spec HR true pl t Fs ranks dims fs h tf); auto.
Qed.
Print Assumptions C71_core.

Lemma created_matrices : forall (O : Ops) (h h' : heap (car O)) d Fs rs cs fs, created h h' d -> matrices h Fs rs cs fs -> matrices h' Fs rs cs fs.
Proof.
  intros O h h' d Fs rs cs fs (C1 & C2) HM. apply (mats_frame false h h' Fs rs cs fs HM). intros F a HF C. apply C2. intros Cd.
  apply (mats_alloc false h Fs rs cs fs F a HM HF C). auto.
Qed.

(** Factors with orthonormal rows (full rank): core followed by reconstruction
    gives the tensor back exactly. *)
Theorem C71_exact : forall (O : Ops), is_ring O -> forall pl t factors dims ranks fs tf (h : heap (car O)),
  alloc_ok pl -> factors <> [] -> ddims t = dims -> Forall (fun d => 0 <= d) dims -> Forall (fun d => 0 <= d) ranks ->
  matrices h factors dims ranks fs -> orthonormal dims ranks fs -> holds h t tf ->
  let two := (c <- tucker_core pl t ranks factors h ;; tucker_reconstruct pl (fst c) factors (snd c)) in
  (two = Throw /\ refuses pl) \/
  exists p h', two = Ok (tensor_ctor p dims, h') /\ holds h' (tensor_ctor p dims) tf /\ holds h' t tf.
Proof.
  intros O HR pl t Fs dims ranks fs tf h Hpl Hne Dt HN HE HM HO Ht two. unfold two.
  destruct (C71_core O HR pl t Fs dims ranks fs tf h) as [(E & Rf)|(p & h1 & E & Cr & V)]; auto; rewrite E; cbn [bind fst snd]; auto.
  destruct (C71_reconstruct O HR pl (tensor_ctor p ranks) Fs [] dims ranks fs (core_value dims tf fs) h1) as [(E2 & Rf)|(p2 & h2 & E2 & Cr2 & V2)]; auto;
    try rewrite app_nil_r in E2; auto.
  - eapply created_matrices; eauto.
  - right. exists p2, h2. split; auto. split.
    + intros idx Hi. rewrite V2 by auto. f_equal. apply (orthonormal_back HR dims ranks fs tf HO idx Hi).
    + intros idx Hi. assert (N : forall (h h' : heap (car O)) d, created h h' d -> h (addr t idx) = Some (tf idx) -> h' (addr t idx) = Some (tf idx)).
      { intros g g' d (C1 & C2) Hg. rewrite C2; auto. intros C. rewrite C1 in Hg by auto. discriminate. }
      eapply N; [exact Cr2|]. eapply N; [exact Cr|]. apply Ht; auto.
Qed.
Print Assumptions C71_exact.

(** Factors with orthonormal columns (any rank): reconstructing from a core and
    taking the core again gives the core back exactly. *)
Theorem C71_project : forall (O : Ops), is_ring O -> forall pl g factors dims ranks fs gf (h : heap (car O)),
  alloc_ok pl -> factors <> [] -> ddims g = ranks -> Forall (fun d => 0 <= d) dims -> Forall (fun d => 0 <= d) ranks ->
  matrices h factors dims ranks fs -> orthonormal ranks dims (map (fun f l => f (rev l)) fs) -> holds h g gf ->
  let two := (t <- tucker_reconstruct pl g factors h ;; tucker_core pl (fst t) ranks factors (snd t)) in
  (two = Throw /\ refuses pl) \/
  exists p h', two = Ok (tensor_ctor p ranks, h') /\ holds h' (tensor_ctor p ranks) gf.
Proof.
  intros O HR pl g Fs dims ranks fs gf h Hpl Hne Dg HN HE HM HO Hg two. unfold two.
  destruct (matrices_shape h Fs _ _ fs HM) as (_ & _ & L1 & L2 & L3).
  destruct (C71_reconstruct O HR pl g Fs [] dims ranks fs gf h) as [(E & Rf)|(p & h1 & E & Cr & V)]; auto; rewrite app_nil_r in E; rewrite E; cbn [bind fst snd]; auto.
  destruct (C71_core O HR pl (tensor_ctor p dims) Fs dims ranks fs (tucker_value ranks gf fs) h1) as [(E2 & Rf)|(p2 & h2 & E2 & Cr2 & V2)]; auto.
  - eapply created_matrices; eauto.
  - right. exists p2, h2. split; auto.
    intros r Hr. rewrite V2 by auto. f_equal. cbn [tensor_ctor ddims] in Hr.
    rewrite <- (orthonormal_back HR ranks dims _ gf HO r Hr). unfold core_value, tucker_value.
    apply (lsum_ext O). intros i Hi. apply in_indices in Hi.
    rewrite (elems_prod_flip dims ranks) by (auto; congruence). f_equal. apply (lsum_ext O). intros j Hj. apply in_indices in Hj.
    now rewrite (elems_prod_flip dims ranks) by (auto; congruence).
Qed.
Print Assumptions C71_project.

(** ** A case *)
Definition fits_at (h : heap Z) (n p : Z) : bool := forallb (fun k => match h (p + k) with None => true | _ => false end) (zrange n).
Definition pl_case (h : heap Z) (n : Z) : option Z := find (fits_at h n) [100; 200; 300; 400].
Lemma pl_case_ok : alloc_ok pl_case.
Proof.
  intros h n p k E Hk. apply find_some in E as (_ & E). unfold fits_at in E. rewrite forallb_forall in E.
  specialize (E k (proj2 (zrange_in n k) Hk)). destruct (h (p + k)); [discriminate|auto].
Qed.
Definition mem (l : list Z) : heap Z := fun a => if (0 <=? a) && (a <? Z.of_nat (length l)) then Some (nth (Z.to_nat a) l 0) else None.
(** Factors 3 x 2 and 2 x 2 at 0 and 6, a 2 x 2 core at 10. *)
Definition case_mem : heap Z := mem [1; 0; 1; 1; 0; 2;  1; 1; 0; 1;  1; 2; 3; 4].
Definition case_F : desc := mkDesc 0 [3; 2] [2; 1].
Definition case_G : desc := mkDesc 6 [2; 2] [2; 1].
Definition case_core : desc := mkDesc 10 [2; 2] [2; 1].
Example C71_case :
  match tucker_reconstruct (O := ZOps) pl_case case_core [case_F; case_G] case_mem with
  | Ok (d, h') => (d, map (fun idx => h' (addr d idx)) (indices [3; 2]), map h' [100; 300; 13]) =
      (tensor_ctor 200 [3; 2], [Some 3; Some 2; Some 10; Some 6; Some 14; Some 8], [None; None; Some 4])
  | _ => False
  end.
Proof. vm_compute. reflexivity. Qed.
(** The rotation with rows (0 1) and (-1 0) is orthonormal. *)
Example C71_exact_case :
  let U := mkDesc 0 [2; 2] [2; 1] in
  orthonormal (O := ZOps) [2; 2] [2; 2] (repeat (fun l => match l with [0; 1] => 1 | [1; 0] => -1 | _ => 0 end) 2) /\
  match (c <- tucker_core (O := ZOps) pl_case (mkDesc 4 [2; 2] [2; 1]) [2; 2] [U; U] (mem [0; 1; -1; 0; 5; 6; 7; 8]) ;;
         tucker_reconstruct (O := ZOps) pl_case (fst c) [U; U] (snd c)) with
  | Ok (d, h') => map (fun idx => h' (addr d idx)) (indices [2; 2]) = [Some 5; Some 6; Some 7; Some 8]
  | _ => False
  end.
Proof.
  split; [|vm_compute; reflexivity]. simpl repeat.
  repeat (constructor; [intros i j Hi Hj; assert (Ei : i = 0 \/ i = 1) by lia; assert (Ej : j = 0 \/ j = 1) by lia;
    destruct Ei as [-> | ->], Ej as [-> | ->]; reflexivity|]). constructor.
Qed.
Example C70_case :
  match parafac_reconstruct (O := ZOps) 2 pl_case [case_F; case_G] [[[0; 0]; [2; 1]]; [[0; 1]; [1; 0]; [1; 1]; [2; 0]]] case_mem with
  | Ok (d, h1, [p; q]) =>
      match run q h1 with
      | Ok (_, h2) => match run p h2 with
                      | Ok (_, h3) => map (fun idx => h3 (addr d idx)) (indices [3; 2]) = [Some 1; Some 0; Some 2; Some 1; Some 2; Some 2]
                      | _ => False
                      end
      | _ => False
      end
  | _ => False
  end.
Proof. vm_compute. reflexivity. Qed.
Example C70_weights_case :
  match weight_tensor (O := ZOps) pl_case case_F (mkDesc 10 [3] [1]) [[[2; 0]; [0; 1]]; [[0; 0]; [1; 0]; [1; 1]; [2; 1]]] case_mem with
  | Ok (d, h1, [p; q]) =>
      match run q h1 with
      | Ok (_, h2) => match run p h2 with
                      | Ok (_, h3) => map (fun idx => h3 (addr d idx)) (indices [3; 2]) = [Some 1; Some 0; Some 2; Some 2; Some 0; Some 6]
                      | _ => False
                      end
      | _ => False
      end
  | _ => False
  end.
Proof. vm_compute. reflexivity. Qed.
Example C70_rmsd_case :
  dnorm (O := ZOps) Z.sqrt case_F case_mem = Ok 2 /\
  rmsd (O := ZOps) Z.sqrt (fun n => n) case_G case_core [[[0; 1]]; [[1; 1]; [0; 0]; [1; 0]]] case_mem =
    Ok (Z.sqrt (odiv (o := ZOps) 19 4)).
Proof. split; vm_compute; reflexivity. Qed.
