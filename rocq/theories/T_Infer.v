(** * T_Infer: C54 inferred extents of rank-1 views; C55 companion matrices. *)
From Coq Require Import List ZArith Lia Bool Arith Ring Ring_theory QArith Qcanon.
From Verif Require Import Base Heap Num M_Addr S_Addr L_Addr L_Elt L_Util M_Laguerre S_Laguerre T_Laguerre M_Infer S_Infer S_Fold L_Fold L_Infer.
Import ListNotations.
Open Scope Z_scope.

Lemma ceil_bound : forall a s p, 0 < s -> (p < - (- a / s) <-> p * s < a).
Proof.
  intros a s p Hs. pose proof (Z.div_mod (- a) s ltac:(lia)). pose proof (Z.mod_pos_bound (- a) s Hs). nia.
Qed.
Lemma ceil_nonneg : forall a s, 0 < s -> 0 <= a -> 0 <= - (- a / s).
Proof. intros a s Hs Ha. pose proof (Z.div_mod (- a) s ltac:(lia)). pose proof (Z.mod_pos_bound (- a) s Hs). nia. Qed.
Lemma view1_eq : forall other k offs strs, 0 <= k -> length (ddims other) = 1%nat ->
  view_ctor other [k] offs strs =
  Ok (mkDesc (dbase other + dotp (match offs with Some o => o | None => [0] end) (dstrides other)) [k]
        (match strs with Some s => s | None => dstrides other end)).
Proof.
  intros other k offs strs Hk HL. unfold view_ctor, count_m1. simpl. destruct (Z.eqb_spec k (-1)); [lia|]. simpl. rewrite HL. simpl. reflexivity.
Qed.
Lemma infer1 : forall b n t o s, 0 <= o <= n -> n - o <= 2 ^ 24 -> n < 2 ^ 31 -> 0 < s < 2 ^ 63 ->
  view_infer (mkDesc b [n] [t]) (Some [o]) (Some [s]) = Ok (mkDesc (b + o * t) [- (- (n - o) / s)] [s]).
Proof.
  intros b n t o s Ho Hn Hb Hs. unfold view_infer. cbn [ddims].
  rewrite (size_model_correct [n]) by (try (repeat constructor; lia); simpl; lia). simpl zprod. rewrite Z.mul_1_r, inferred_exact by lia.
  cbn [bind]. rewrite view1_eq by (auto; apply ceil_nonneg; lia). simpl. do 2 f_equal. lia.
Qed.

(** [TensorView{X, Dim{-1}, Offset{o}, Stride{s}}] for a contiguous rank-1 [X]. *)
Theorem C54_contiguous_partial : forall b n o s,
  0 <= o <= n -> n <= 2 ^ 24 -> 0 < s < 2 ^ 63 ->
  exists v, view_infer (mkDesc b [n] [1]) (Some [o]) (Some [s]) = Ok v /\
    every v n o s (fun q => addr (mkDesc b [n] [1]) [q]).
Proof.
  intros b n o s Ho Hn Hs. rewrite infer1 by lia. eexists. split; [reflexivity|].
  eexists. split; [reflexivity|]. split.
  - intros p Hp. rewrite ceil_bound by lia. lia.
  - intros p Hp. unfold addr. simpl. lia.
Qed.
Print Assumptions C54_contiguous_partial.

(** Without a [Stride] argument, for every rank-1 parent, strided or not. *)
Theorem C54_rest_partial : forall b n t o,
  0 <= o <= n -> n <= 2 ^ 24 ->
  exists v, view_infer (mkDesc b [n] [t]) (Some [o]) None = Ok v /\
    every v n o 1 (fun q => addr (mkDesc b [n] [t]) [q]).
Proof.
  intros b n t o Ho Hn. unfold view_infer. cbn [ddims].
  rewrite (size_model_correct [n]) by (try (repeat constructor; lia); simpl; lia). simpl zprod. rewrite Z.mul_1_r, inferred_exact by lia.
  cbn [bind]. rewrite view1_eq by (auto; apply ceil_nonneg; lia). simpl. eexists. split; [reflexivity|].
  eexists. split; [reflexivity|]. split.
  - intros p Hp. rewrite ceil_bound by lia. lia.
  - intros p Hp. unfold addr. simpl. lia.
Qed.
Print Assumptions C54_rest_partial.

(** [TensorView{A, Dim<1>{-1}}]: all elements of a tensor of any rank in row-major order. *)
Theorem C54_flat_partial : forall b dims,
  dims <> [] -> Forall (fun d => 0 <= d) dims -> zprod dims <= 2 ^ 24 ->
  exists v, view_infer (tensor_ctor b dims) None None = Ok v /\ ddims v = [zprod dims] /\
    forall idx, inb idx dims -> addr v [rowcode dims idx] = addr (tensor_ctor b dims) idx.
Proof.
  intros b dims Hne HF Hn. assert (0 <= zprod dims) by (apply zprod_nonneg; auto). unfold view_infer. cbn [ddims tensor_ctor].
  rewrite size_model_correct by (auto; lia). rewrite inferred_exact by lia. cbn [bind].
  replace (- (- (zprod dims - 0) / 1)) with (zprod dims) by (rewrite Z.div_1_r; lia).
  assert (G : forall idx, inb idx dims -> rowcode dims idx = dotp idx (row_major_strides dims))
    by (intros idx Hi; rewrite rowcode_dotp; auto; apply inb_length; auto).
  unfold view_ctor, count_m1. simpl filter. destruct (Z.eqb_spec (zprod dims) (-1)); [lia|]. cbn [length Nat.ltb Nat.leb andb].
  cbn [ddims dbase dstrides tensor_ctor]. change (Nat.eqb 0 1) with false. cbn [andb length]. destruct (Nat.eqb_spec 1 (length dims)) as [E|E].
  - destruct dims as [|d [|e ds]]; try discriminate. eexists. split; [reflexivity|]. split; [reflexivity|].
    intros idx Hi. rewrite G by auto. unfold addr. cbn. rewrite !Z.mul_1_r, !Z.add_0_r. lia.
  - match goal with |- context [(?a =? ?b)%Z] => replace (a =? b) with true by (symmetry; apply Z.eqb_eq; simpl; lia) end. eexists. split; [reflexivity|]. split; [reflexivity|].
    intros idx Hi. rewrite G by auto. unfold addr. cbn [dbase dstrides].
    assert (Z0 : forall k l, dotp (repeat 0 k) l = 0) by (induction k as [|k IH]; intros l; destruct l as [|a l]; simpl repeat; cbn [dotp]; [reflexivity|reflexivity|reflexivity|rewrite IH; lia]). rewrite Z0.
    change (row_major_strides [zprod dims]) with [1]. simpl. lia.
Qed.
Print Assumptions C54_flat_partial.

(** The extent is computed in [float]: one element too few beyond 2^24, one
    diagonal element too few for a 4097 x 4097 matrix. *)
Theorem C54_large_refuted :
  view_infer (mkDesc 0 [2 ^ 24 + 1] [1]) (Some [0]) None = Ok (mkDesc 0 [2 ^ 24] [1]) /\
  view_infer (mkDesc 0 [4097 * 4097] [1]) (Some [0]) (Some [4098]) = Ok (mkDesc 0 [4096] [4098]) /\
  4096 * 4098 < 4097 * 4097.
Proof. repeat split. Qed.
Print Assumptions C54_large_refuted.

(** A [Stride] argument is a distance in memory, but the extent is computed as
    if the parent were contiguous: the view of every second element of a strided parent misses one. *)
Theorem C54_strided_parent_refuted :
  exists v, view_infer (mkDesc 0 [5] [2]) (Some [0]) (Some [4]) = Ok v /\
    ~ every v 5 0 2 (fun q => addr (mkDesc 0 [5] [2]) [q]).
Proof.
  eexists. split; [reflexivity|]. intros (k & E & H & _). injection E as <-. specialize (H 2). vm_compute in H. destruct H as (_ & H); [discriminate|].
  assert (W : Lt = Lt) by reflexivity. apply H in W. discriminate.
Qed.
(** Only the first entry of an [Offset] of a parent of rank 2 is subtracted: the
    view runs past the parent's memory. *)
Theorem C54_offset_refuted :
  view_infer (tensor_ctor 0 [3; 3]) (Some [1; 0]) (Some [1]) = Ok (mkDesc 3 [8] [1]) /\
  ~ (addr (mkDesc 3 [8] [1]) [7] < 9).
Proof. split; [reflexivity|]. vm_compute. intros H. discriminate H. Qed.
Print Assumptions C54_offset_refuted.

Example C54_case :
  view_infer (mkDesc 100 [10] [1]) (Some [1]) (Some [4]) = Ok (mkDesc 101 [3] [4]) /\
  view_infer (mkDesc 100 [10] [3]) (Some [4]) None = Ok (mkDesc 112 [6] [3]) /\
  view_infer (tensor_ctor 100 [2; 3; 4]) None None = Ok (mkDesc 100 [24] [1]).
Proof. repeat split. Qed.

(** ** C55: companion matrices. *)
Section Companion.
  Context {O : Ops}.
  Notation T := (car O).

  Lemma assign_list_ok : forall b k s (u : nat -> T) len (h : heap T),
    0 <= k -> 0 < s -> (Z.to_nat k <= len)%nat ->
    (forall p, 0 <= p < k -> exists w, h (b + p * s) = Some w) ->
    exists h', assign_list (mkDesc b [k] [s]) (map u (seq 0 len)) h = Ok h' /\
      (forall p, 0 <= p < k -> h' (b + p * s) = Some (u (Z.to_nat p))) /\
      (forall z, (forall p, 0 <= p < k -> z <> b + p * s) -> h' z = h z).
  Proof.
    intros b k s u len h Hk Hs Hl Ha. unfold assign_list. cbn [ddims].
    match goal with |- context [forM _ ?bd h] => destruct (forM_cells _ T (zrange k) (fun p => b + p * s) (fun p => u (Z.to_nat p)) bd h) as (h' & E & H1 & H2) end.
    3:{ exists h'. split; [exact E|]. split.
        - intros p Hp. apply H1. apply zrange_in. lia.
        - intros z Hz. apply H2. intros Hin. apply in_map_iff in Hin as (p & Hp & Hi). apply zrange_in in Hi. apply (Hz p); auto. }
    - unfold zrange. rewrite map_map. apply FinFun.Injective_map_NoDup; [|apply seq_NoDup]. intros x y E. nia.
    - intros p h0 Hp Hag. apply zrange_in in Hp. rewrite nth_error_map.
      assert (En : nth_error (seq 0 len) (Z.to_nat p) = Some (Z.to_nat p)).
      { rewrite (nth_error_nth' _ 0%nat) by (rewrite seq_length; lia). rewrite seq_nth by lia. reflexivity. }
      rewrite En. cbn [option_map]. destruct (Ha p Hp) as (w & Hw).
      unfold tset. rewrite subscript_inb by (repeat constructor; lia). unfold addr. cbn [dbase dstrides dotp].
      replace (b + (p * s + 0)) with (b + p * s) by lia. apply wr_some with w. rewrite Hag by auto. exact Hw.
  Qed.

  Definition tri (i j : Z) : T :=
    if i =? j then oadd (omul (onat (Z.to_nat i)) (oadd o1 o1)) o1
    else if j =? i + 1 then omul (onat (Z.to_nat j)) (oopp o1)
    else if i =? j + 1 then omul (onat (Z.to_nat i)) (oopp o1)
    else o0.

  Lemma far : forall n b i j q r, 0 <= i < n -> 0 <= j < n -> 0 <= r <= n ->
    b + i * n + j = b + r + q * (n + 1) -> j - i = r \/ j - i = r - (n + 1).
  Proof.
    intros n b i j q r Hi Hj Hr E. assert (G : j - i - r = (q - i) * (n + 1)) by lia.
    assert (C : q - i <= -2 \/ q - i = -1 \/ q - i = 0 \/ q - i >= 1) by lia. destruct C as [C|[C|[C|C]]]; nia.
  Qed.
  Lemma apart : forall m p q d, 0 < d < m -> p * m <> d + q * m.
  Proof. intros m p q d Hd E. assert (C : p - q <= 0 \/ p - q >= 1) by lia. destruct C; nia. Qed.

  Lemma companion_matrix : forall base (c : list T) (h : heap T),
    (3 <= length c <= 4097)%nat ->
    let n := Z.of_nat (length c) - 1 in
    exists h', companion base c h = Ok (tensor_ctor base [n; n], h') /\
      (forall i j, 0 <= i < n -> 0 <= j < n -> h' (addr (tensor_ctor base [n; n]) [i; j]) = Some (tri i j)) /\
      (forall z, ~ base <= z < base + n * n -> h' z = h z).
  Proof.
    intros base c h HL n. unfold companion.
    rewrite (proj2 (Nat.ltb_ge _ _)) by lia. rewrite (proj2 (Nat.eqb_neq _ _)) by lia. cbv zeta. fold n.
    assert (Hn : 2 <= n <= 4096) by lia. assert (Hnn : n * n <= 2 ^ 24) by nia.
    assert (EF : view_infer (tensor_ctor base [n; n]) None None = Ok (mkDesc base [n * n] [1])).
    { unfold view_infer. cbn [ddims tensor_ctor].
      rewrite size_model_correct by (try (repeat constructor; lia); simpl; lia). replace (zprod [n; n]) with (n * n) by (simpl; lia).
      rewrite inferred_exact by lia. cbn [bind]. replace (- (- (n * n - 0) / 1)) with (n * n) by (rewrite Z.div_1_r; lia).
      unfold view_ctor, count_m1. simpl filter. destruct (Z.eqb_spec (n * n) (-1)); [lia|]. cbn [length Nat.ltb Nat.leb Nat.eqb andb ddims dbase dstrides].
      clearbody n. cbn -[Z.mul Z.add]. rewrite (proj2 (Z.eqb_eq _ _)) by lia. do 2 f_equal; lia. }
    clearbody n. rewrite EF. cbn [bind]. rewrite !infer1 by nia. cbn [bind].
    replace (- (- (n * n - 1) / (n + 1))) with (n - 1).
    2:{ replace (- (n * n - 1)) with ((1 - n) * (n + 1)) by lia. rewrite Z.div_mul by lia. lia. }
    replace (- (- (n * n - 0) / (n + 1))) with n.
    2:{ replace (- (n * n - 0)) with (n + (- n) * (n + 1)) by lia. rewrite Z.div_add by lia. rewrite Z.div_small by lia. lia. }
    replace (- (- (n * n - n) / (n + 1))) with (n - 1).
    2:{ replace (- (n * n - n)) with ((n - 1) + (1 - n) * (n + 1)) by lia. rewrite Z.div_add by lia. rewrite Z.div_small by lia. lia. }
    set (h0 := alloc_buffer o0 base (n * n) h).
    assert (H0 : forall z, base <= z < base + n * n -> h0 z = Some o0).
    { intros z Hz. unfold h0, alloc_buffer. rewrite (proj2 (Z.leb_le _ _)), (proj2 (Z.ltb_lt _ _)) by lia. reflexivity. }
    assert (H0' : forall z, ~ base <= z < base + n * n -> h0 z = h z).
    { intros z Hz. unfold h0, alloc_buffer. destruct (Z.leb_spec base z), (Z.ltb_spec z (base + n * n)); auto; lia. }
    assert (Useq : map (fun i => omul (onat i) (oopp o1)) (seq 1 (Z.to_nat n - 1)) =
                   map (fun i => omul (onat (S i)) (oopp o1)) (seq 0 (Z.to_nat n - 1)) :> list T) by (rewrite <- seq_shift, map_map; reflexivity).
    rewrite Useq. set (u := fun i => omul (onat (S i)) (oopp o1) : T). set (w := fun i => oadd (omul (onat i) (oadd o1 o1)) o1 : T).
    replace (base + 1 * 1) with (base + 1) by lia. replace (base + 0 * 1) with base by lia. replace (base + n * 1) with (base + n) by lia.
    destruct (assign_list_ok (base + 1) (n - 1) (n + 1) u (Z.to_nat n - 1) h0) as (h1 & E1 & A1 & F1); [lia|lia|lia| |].
    { intros p Hp. exists o0. apply H0. nia. }
    rewrite E1. cbn [bind].
    assert (In1 : forall p r, 0 <= p < n - 1 -> 0 <= r <= n -> base <= base + r + p * (n + 1) < base + n * n) by (intros; nia).
    assert (In0 : forall p, 0 <= p < n -> base <= base + p * (n + 1) < base + n * n) by (intros; nia).
    destruct (assign_list_ok base n (n + 1) w (Z.to_nat n) h1) as (h2 & E2 & A2 & F2); [lia|lia|lia| |].
    { intros p Hp. exists o0. rewrite F1; [apply H0, In0; auto|]. intros q Hq E. apply (apart (n + 1) p q 1); lia. }
    rewrite E2. cbn [bind].
    destruct (assign_list_ok (base + n) (n - 1) (n + 1) u (Z.to_nat n - 1) h2) as (h3 & E3 & A3 & F3); [lia|lia|lia| |].
    { intros p Hp. exists o0. rewrite F2, F1; [apply H0, In1; lia| |].
      - intros q Hq E. apply (apart (n + 1) q p (n - 1)); lia.
      - intros q Hq E. apply (apart (n + 1) q p n); lia. }
    rewrite E3. cbn [bind]. exists h3. split; [reflexivity|].
    assert (C1 : forall i j, 0 <= i < n -> 0 <= j < n -> i <> j -> forall q, 0 <= q < n -> base + i * n + j <> base + q * (n + 1)).
    { intros i j Hi Hj Hne q Hq E. destruct (far n base i j q 0 Hi Hj); lia. }
    assert (C2 : forall i j, 0 <= i < n -> 0 <= j < n -> j <> i + 1 -> forall q, 0 <= q < n - 1 -> base + i * n + j <> base + 1 + q * (n + 1)).
    { intros i j Hi Hj Hne q Hq E. destruct (far n base i j q 1 Hi Hj); lia. }
    assert (C3 : forall i j, 0 <= i < n -> 0 <= j < n -> i <> j + 1 -> forall q, 0 <= q < n - 1 -> base + i * n + j <> base + n + q * (n + 1)).
    { intros i j Hi Hj Hne q Hq E. destruct (far n base i j q n Hi Hj); lia. }
    split.
    - intros i j Hi Hj. replace (addr (tensor_ctor base [n; n]) [i; j]) with (base + i * n + j) by (unfold addr, row_major_strides; simpl; lia).
      unfold tri. destruct (Z.eqb_spec i j) as [->|Hij].
      + rewrite F3 by (apply C3; lia). replace (base + j * n + j) with (base + j * (n + 1)) by lia. apply A2. lia.
      + destruct (Z.eqb_spec j (i + 1)) as [->|Hij2].
        * rewrite F3, F2 by (try apply C3; try apply C1; lia). replace (base + i * n + (i + 1)) with (base + 1 + i * (n + 1)) by lia.
          rewrite A1 by lia. unfold u. do 3 f_equal. lia.
        * destruct (Z.eqb_spec i (j + 1)) as [->|Hij3].
          -- replace (base + (j + 1) * n + j) with (base + n + j * (n + 1)) by lia. rewrite A3 by lia. unfold u. do 3 f_equal. lia.
          -- rewrite F3, F2, F1 by (try apply C3; try apply C2; try apply C1; lia). apply H0. nia.
    - intros z Hz. rewrite F3, F2, F1; auto; intros q Hq ->; apply Hz; [apply (In1 q 1)|apply In0|apply (In1 q n)]; lia.
  Qed.

  Context (HF : is_field0 O).
  Let HR : is_ring O := f_ring HF.
  Add Ring Tring2 : (ir_rt O HR).
  Lemma psum_delta : forall (f : nat -> T) i n, (i < n)%nat -> psum (fun j => if Nat.eqb j i then f j else o0) n = f i.
  Proof.
    intros f i n Hi. replace n with (i + S (n - S i))%nat by lia. generalize (n - S i)%nat. induction n0 as [|m IH].
    - replace (i + 1)%nat with (S i) by lia. simpl. rewrite Nat.eqb_refl.
      rewrite (psum_0 HF); [ring|]. intros j Hj. destruct (Nat.eqb_spec j i); [lia|reflexivity].
    - replace (i + S (S m))%nat with (S (i + S m)) by lia. simpl psum. rewrite IH. destruct (Nat.eqb_spec (i + S m) i); [lia|ring].
  Qed.

  Lemma tri_row : forall n (v : nat -> T) i, (i < n)%nat ->
    psum (fun j => omul (tri (Z.of_nat i) (Z.of_nat j)) (v j)) n =
    oadd (oadd (omul (num (2 * i + 1)) (v i))
      (match i with 0%nat => o0 | S k => oopp (omul (num (S k)) (v k)) end))
      (if Nat.ltb (S i) n then oopp (omul (num (S i)) (v (S i))) else o0).
  Proof.
    intros n v i Hi.
    rewrite (psum_ext _ (fun j => oadd (oadd (if Nat.eqb j i then omul (num (2 * i + 1)) (v j) else o0)
      (match i with 0%nat => o0 | S k => if Nat.eqb j k then oopp (omul (num (S k)) (v j)) else o0 end))
      (if Nat.eqb j (S i) then oopp (omul (num (S i)) (v j)) else o0))).
    2:{ intros j Hj. unfold tri. change (@onat O) with (@num O).
        destruct (Nat.eqb_spec j i) as [->|H1].
        - rewrite Z.eqb_refl, Nat2Z.id. replace (Nat.eqb i (S i)) with false by (symmetry; apply Nat.eqb_neq; lia).
          replace (2 * i + 1)%nat with (i + i + 1)%nat by lia. rewrite !(num_add HF). simpl (num 1).
          destruct i as [|k]; [ring|]. replace (Nat.eqb (S k) k) with false by (symmetry; apply Nat.eqb_neq; lia). ring.
        - rewrite (proj2 (Z.eqb_neq _ _)) by lia. destruct (Nat.eqb_spec j (S i)) as [->|H2].
          + rewrite (proj2 (Z.eqb_eq _ _)) by lia. rewrite Nat2Z.id. destruct i as [|k]; [ring|].
            replace (Nat.eqb (S (S k)) k) with false by (symmetry; apply Nat.eqb_neq; lia). ring.
          + rewrite (proj2 (Z.eqb_neq (Z.of_nat j) _)) by lia. destruct i as [|k].
            * rewrite (proj2 (Z.eqb_neq _ _)) by lia. ring.
            * destruct (Nat.eqb_spec j k) as [->|H3].
              -- rewrite (proj2 (Z.eqb_eq _ _)) by lia. rewrite Nat2Z.id. ring.
              -- rewrite (proj2 (Z.eqb_neq _ _)) by lia. ring. }
    rewrite !(psum_add HF), (psum_delta (fun j => omul (num (2 * i + 1)) (v j))) by auto. f_equal; [f_equal|].
    - destruct i as [|k]; [apply (psum_0 HF); auto|]. apply (psum_delta (fun j => oopp (omul (num (S k)) (v j)))). lia.
    - destruct (Nat.ltb_spec (S i) n).
      + apply (psum_delta (fun j => oopp (omul (num (S i)) (v j)))). auto.
      + apply (psum_0 HF). intros j Hj. replace (Nat.eqb j (S i)) with false by (symmetry; apply Nat.eqb_neq; lia). reflexivity.
  Qed.

  Lemma tri_eigen : forall n x, (2 <= n)%nat -> laguerre n x = o0 -> eigenvalue n tri x.
  Proof.
    intros n x Hn Hx. exists (fun k => laguerre k x). split.
    - exists 0%nat. split; [lia|]. rewrite (laguerre_0 HF). intros E. apply (f_char HF 0). simpl. rewrite E. ring.
    - intros i Hi. rewrite tri_row by auto. 
      assert (L : (if Nat.ltb (S i) n then oopp (omul (num (S i)) (laguerre (S i) x)) else o0) = oopp (omul (num (S i)) (laguerre (S i) x))).
      { destruct (Nat.ltb_spec (S i) n); auto. replace (S i) with n by lia. rewrite Hx. ring. }
      rewrite L. destruct i as [|k].
      + rewrite (laguerre_0 HF), (laguerre_1 HF). simpl. ring.
      + rewrite (laguerre_rec HF). ring.
  Qed.
  Lemma linear_root : forall a b q x : T, b <> o0 -> omul q b = a ->
    (oadd (oadd o0 (omul a o1)) (omul b (osub o1 x)) = o0 <-> x = oadd o1 q).
  Proof.
    intros a b q x Hb <-. split.
    - intros H. assert (G : omul (osub (oadd o1 q) x) b = o0) by (rewrite <- H; ring).
      destruct (f_int HF _ _ G) as [E|E]; [|contradiction].
      transitivity (osub (oadd o1 q) (osub (oadd o1 q) x)); [ring|]. rewrite E. ring.
    - intros ->. ring.
  Qed.
End Companion.

(** For a series with only its leading coefficient (the Laguerre polynomial of
    that degree): every root of the series is an eigenvalue of the companion
    matrix, in a field of characteristic 0, up to degree 4096. *)
Theorem C55_companion_partial :
  forall (O : Ops) (HF : is_field0 O) base (c : list (car O)) (h : heap (car O)),
  (3 <= length c <= 4097)%nat ->
  (forall k, (k < length c - 1)%nat -> nth k c o0 = o0) -> nth (length c - 1) c o0 <> o0 ->
  let n := Z.of_nat (length c) - 1 in
  exists mat h' m, companion base c h = Ok (mat, h') /\ ddims mat = [n; n] /\
    (forall i j, 0 <= i < n -> 0 <= j < n -> h' (addr mat [i; j]) = Some (m i j)) /\
    (forall x, series c x = o0 -> eigenvalue (length c - 1) m x) /\
    (forall z, ~ base <= z < base + n * n -> h' z = h z).
Proof.
  intros O HF base c h HL Hz Hne n. destruct (companion_matrix base c h HL) as (h' & E & H1 & H2). fold n in E, H1, H2.
  exists (tensor_ctor base [n; n]), h', tri. split; auto. split; [reflexivity|]. split; auto. split; auto.
  intros x Hx. apply (tri_eigen HF); [lia|].
  assert (S1 : series c x = omul (nth (length c - 1) c o0) (laguerre (length c - 1) x)).
  { unfold series. replace (length c) with (S (length c - 1)) at 1 by lia. simpl psum.
    rewrite (psum_0 HF).
    - apply (Radd_0_l (ir_rt O (f_ring HF))).
    - intros k Hk. rewrite Hz by auto. apply (ARmul_0_l (Rth_ARth (Eqsth _) (Eq_ext _ _ _) (ir_rt O (f_ring HF)))). }
  rewrite S1 in Hx. destruct (f_int HF _ _ Hx); [contradiction|auto].
Qed.
Print Assumptions C55_companion_partial.

(** Degree 1, any coefficients: the 1 x 1 matrix holds the root. *)
Theorem C55_linear :
  forall (O : Ops) (HF : is_field0 O) base (c0 c1 : car O) (h : heap (car O)), c1 <> o0 ->
  exists mat h' m, companion base [c0; c1] h = Ok (mat, h') /\ ddims mat = [1; 1] /\
    h' (addr mat [0; 0]) = Some m /\ (forall x, series [c0; c1] x = o0 <-> x = m) /\
    (forall z, z <> base -> h' z = h z).
Proof.
  intros O HF base c0 c1 h Hc. unfold companion. cbn [length Nat.ltb Nat.leb Nat.eqb].
  unfold vget. cbn [Z.ltb Z.compare Z.to_nat nth_error bind Pos.to_nat Pos.iter_op].
  change (nth_error [c0; c1] (Z.to_nat 0)) with (Some c0). change (nth_error [c0; c1] (Z.to_nat 1)) with (Some c1). cbn [bind].
  unfold tset. rewrite subscript_inb by (repeat constructor; lia).
  replace (addr (tensor_ctor base [1; 1]) [0; 0]) with base by (unfold addr; simpl; lia).
  rewrite wr_some with (w := o0).
  2:{ unfold alloc_buffer. rewrite (proj2 (Z.leb_le _ _)), (proj2 (Z.ltb_lt _ _)) by lia. reflexivity. }
  cbn [bind]. eexists _, _, _. split; [reflexivity|]. split; [reflexivity|].
  replace (addr (tensor_ctor base [1; 1]) [0; 0]) with base by (unfold addr; simpl; lia).
  split; [apply upd_same|]. split.
  - pose proof (f_ring HF) as HR. pose proof (f_div HF c0 c1 Hc) as D. set (q := odiv c0 c1) in *.
    intros x. unfold series. cbn [length psum nth]. rewrite (laguerre_0 HF), (laguerre_1 HF).
    apply (linear_root HF); auto.
  - intros z Hz. rewrite upd_other by auto. unfold alloc_buffer.
    destruct (Z.leb_spec base z), (Z.ltb_spec z (base + 1)); auto; lia.
Qed.
Print Assumptions C55_linear.

(** Other coefficients are ignored (the code's TODO): 1 + L_2(x) has the root 2,
    which is not an eigenvalue of its companion matrix. *)
Theorem C55_coefficients_refuted :
  let c := [Q2Qc 1; Q2Qc 0; Q2Qc 1] in
  series (O := QcOps) c (Q2Qc 2) = 0%Qc /\
  exists mat h' m, companion (O := QcOps) 0 c (fun _ => None) = Ok (mat, h') /\ ddims mat = [2; 2] /\
    (forall i j, 0 <= i < 2 -> 0 <= j < 2 -> h' (addr mat [i; j]) = Some (m i j)) /\
    ~ eigenvalue (O := QcOps) 2 m (Q2Qc 2).
Proof.
  cbv zeta. split; [apply Qc_is_canon; vm_compute; reflexivity|].
  destruct (companion_matrix (O := QcOps) 0 [Q2Qc 1; Q2Qc 0; Q2Qc 1] (fun _ => None)) as (h' & E & H & _); [simpl; lia|].
  exists (tensor_ctor 0 [2; 2]), h', (tri (O := QcOps)). split; [exact E|]. split; [reflexivity|]. split; [exact H|].
  intros (v & (i & Hi & Hv) & M). pose proof (M 0%nat ltac:(lia)) as M0. pose proof (M 1%nat ltac:(lia)) as M1.
  assert (T00 : tri (O := QcOps) 0 0 = Q2Qc 1) by (apply Qc_is_canon; vm_compute; reflexivity).
  assert (T01 : tri (O := QcOps) 0 1 = (- Q2Qc 1)%Qc) by (apply Qc_is_canon; vm_compute; reflexivity).
  assert (T10 : tri (O := QcOps) 1 0 = (- Q2Qc 1)%Qc) by (apply Qc_is_canon; vm_compute; reflexivity).
  assert (T11 : tri (O := QcOps) 1 1 = (1 + 1 + 1)%Qc) by (apply Qc_is_canon; vm_compute; reflexivity).
  assert (T2 : Q2Qc 2 = (1 + 1)%Qc) by (apply Qc_is_canon; vm_compute; reflexivity).
  set (a := v 0%nat : Qc). set (b := v 1%nat : Qc).
  change ((0 + tri (O := QcOps) 0 0 * a + tri (O := QcOps) 0 1 * b)%Qc = (Q2Qc 2 * a)%Qc) in M0.
  change ((0 + tri (O := QcOps) 1 0 * a + tri (O := QcOps) 1 1 * b)%Qc = (Q2Qc 2 * b)%Qc) in M1.
  rewrite T00, T01, T2 in M0. rewrite T10, T11, T2 in M1. change (Q2Qc 1) with 1%Qc in M0, M1.
  assert (Z0 : (a + b)%Qc = 0%Qc) by (transitivity ((1 + 1) * a - (0 + 1 * a + - (1) * b))%Qc; [ring|rewrite M0; ring]).
  assert (Z1 : (b - a)%Qc = 0%Qc) by (transitivity ((0 + - (1) * a + (1 + 1 + 1) * b) - (1 + 1) * b)%Qc; [ring|rewrite M1; ring]).
  assert (Zb : b = 0%Qc).
  { destruct (Qcmult_integral (Q2Qc 2) b) as [E2|E2]; auto; [|discriminate].
    transitivity ((a + b) + (b - a))%Qc; [|rewrite Z0, Z1; ring].
    replace (Q2Qc 2) with (1 + 1)%Qc by (apply Qc_is_canon; reflexivity). ring. }
  assert (Za : a = 0%Qc) by (transitivity ((a + b) - b)%Qc; [ring|rewrite Z0, Zb; ring]).
  destruct i as [|[|i]]; [apply Hv; exact Za|apply Hv; exact Zb|lia].
Qed.
Print Assumptions C55_coefficients_refuted.

(** L_2, whose companion matrix is (1, -1; -1, 3); a series of degree 1. *)
Example C55_case :
  let c := [Q2Qc 0; Q2Qc 0; Q2Qc 1] in
  (3 <= length c <= 4097)%nat /\ nth 2 c 0%Qc <> 0%Qc /\
  tri (O := QcOps) 0 0 = Q2Qc 1 /\ tri (O := QcOps) 0 1 = Q2Qc (-1) /\ tri (O := QcOps) 1 1 = Q2Qc 3 /\
  series (O := QcOps) [Q2Qc 3; Q2Qc (-1)] (Q2Qc (-2)) = 0%Qc.
Proof.
  cbv zeta. split; [simpl; lia|]. split; [discriminate|].
  repeat split; apply Qc_is_canon; vm_compute; reflexivity.
Qed.
