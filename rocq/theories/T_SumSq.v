(** * T_SumSq: C130, sum_square. *)
From Coq Require Import List ZArith Lia Bool Ring_theory.
From Verif Require Import Base Num Heap Conc M_Addr S_Addr L_Addr M_Einsum S_Einsum.
From Verif Require Import M_SumSq S_SumSq.
Import ListNotations.
Open Scope Z_scope.

Lemma gather_map {T} (h : heap T) (f : Z -> Z) (v : Z -> T) l :
  (forall i, In i l -> h (f i) = Some (v i)) -> gather (map f l) h = Ok (map v l).
Proof.
  induction l as [|i l IH]; intros H; [reflexivity|]. simpl. rewrite (H i) by now left.
  rewrite IH by (intros; apply H; now right). reflexivity.
Qed.
Lemma lsum_map {O : Ops} {A B} (g : A -> B) (f : B -> car O) l : lsum (map g l) f = lsum l (fun a => f (g a)).
Proof. induction l as [|x l IH]; [reflexivity|]. unfold lsum in *. simpl. now rewrite IH. Qed.

(** C130.  sum_square(a, &scale, &sumsq) of any vector or strided view whose
    extent and stride fit into an [int].  (Nothing is written but the two numbers:
    the model has no other effect.)  Missing for the full property: larger extents
    and strides, where the code is wrong ([C130_extent_refuted], [C130_stride_refuted]). *)
Theorem C130_sum_square_partial :
  forall (O : Ops) (T : Type) (abs2 : T -> car O) dom lassq (h : heap T) base n s (a : Z -> T) scale sumsq,
  lassq_spec abs2 dom lassq -> dom scale -> dom sumsq ->
  0 <= n < 2 ^ 31 -> 0 <= s < 2 ^ 31 ->
  (forall i, 0 <= i < n -> h (base + i * s) = Some (a i)) ->
  exists scale' sumsq',
    sum_square lassq (mkDesc base [n] [s]) scale sumsq h = Ok (scale', sumsq') /\
    omul (omul scale' scale') sumsq' = oadd (zsum n (fun i => abs2 (a i))) (omul (omul scale scale) sumsq).
Proof.
  intros O T abs2 dom lassq h base n s a scale sumsq HL Hs Hq Hn Hst Ha.
  unfold sum_square, tdim, tstride. simpl. rewrite !to_int32_id by lia. unfold lassq_at.
  rewrite (proj2 (Z.ltb_ge s 0)) by lia.
  rewrite (gather_map h _ a); [|intros i Hi; apply zrange_in in Hi; rewrite Z.add_0_r; auto].
  simpl. specialize (HL (map a (zrange n)) scale sumsq Hs Hq). simpl in HL.
  destruct (lassq (map a (zrange n)) scale sumsq) as [s' q']. exists s', q'. split; [reflexivity|].
  simpl in HL. rewrite HL, lsum_map. reflexivity.
Qed.

(** C130 as stated is false: an extent from 2^31 to 2^32 - 1 becomes negative and
    nothing is added, whatever the elements are. *)
Theorem C130_extent_refuted :
  forall (O : Ops) (T : Type) (abs2 : T -> car O) dom lassq (h : heap T) base n s scale sumsq, is_ring O ->
  lassq_spec abs2 dom lassq -> dom scale -> dom sumsq ->
  2 ^ 31 <= n < 2 ^ 32 ->
  exists scale' sumsq',
    sum_square lassq (mkDesc base [n] [s]) scale sumsq h = Ok (scale', sumsq') /\
    omul (omul scale' scale') sumsq' = omul (omul scale scale) sumsq.
Proof.
  intros O T abs2 dom lassq h base n s scale sumsq HR HL Hs Hq Hn.
  unfold sum_square, tdim, tstride, lassq_at. simpl nth.
  assert (E : to_int32 n = n - 2 ^ 32).
  { unfold to_int32. rewrite <- (Z.mod_unique (n + 2 ^ 31) (2 ^ 32) 1 (n - 2 ^ 31)); lia. }
  rewrite E, zrange_nonpos by lia. simpl. specialize (HL [] scale sumsq Hs Hq). simpl in HL.
  destruct (lassq [] scale sumsq) as [s' q']. exists s', q'. split; [reflexivity|].
  simpl in HL. rewrite HL. unfold lsum. simpl. apply (Radd_0_l (ir_rt O HR)).
Qed.
(** A stride that is a multiple of 2^32 (a column of a very wide matrix) becomes
    zero: the first element is counted as many times as there are elements. *)
Theorem C130_stride_refuted :
  forall (O : Ops) (T : Type) (abs2 : T -> car O) dom lassq (h : heap T) base n k (a : Z -> T) scale sumsq,
  lassq_spec abs2 dom lassq -> dom scale -> dom sumsq ->
  0 < n < 2 ^ 31 ->
  (forall i, 0 <= i < n -> h (base + i * (k * 2 ^ 32)) = Some (a i)) ->
  exists scale' sumsq',
    sum_square lassq (mkDesc base [n] [k * 2 ^ 32]) scale sumsq h = Ok (scale', sumsq') /\
    omul (omul scale' scale') sumsq' = oadd (zsum n (fun _ => abs2 (a 0))) (omul (omul scale scale) sumsq).
Proof.
  intros O T abs2 dom lassq h base n k a scale sumsq HL Hs Hq Hn Ha.
  unfold sum_square, tdim, tstride. cbn [nth ddims dstrides dbase]. rewrite (to_int32_id n) by lia.
  assert (E : to_int32 (k * 2 ^ 32) = 0).
  { unfold to_int32. rewrite Z.add_comm, Z_mod_plus_full. reflexivity. }
  rewrite E. unfold lassq_at. simpl (0 <? 0).
  rewrite (gather_map h _ (fun _ => a 0)).
  2:{ intros i Hi. specialize (Ha 0 ltac:(lia)). rewrite Z.mul_0_l in Ha. cbv beta iota. rewrite <- Ha. f_equal. change (0 <? 0) with false. cbv iota. lia. }
  simpl. specialize (HL (map (fun _ => a 0) (zrange n)) scale sumsq Hs Hq). simpl in HL.
  destruct (lassq (map (fun _ => a 0) (zrange n)) scale sumsq) as [s' q']. exists s', q'. split; [reflexivity|].
  simpl in HL. rewrite HL, lsum_map. reflexivity.
Qed.

(** A column of a matrix of Gaussian integers; a lassq within its contract. *)
Definition ex_abs2 (z : Z * Z) : Z := fst z * fst z + snd z * snd z.
Definition ex_lassq (xs : list (Z * Z)) (s q : Z) : Z * Z := (1, lsum (O := ZOps) xs ex_abs2 + s * s * q).
Example C130_case :
  lassq_spec (O := ZOps) ex_abs2 (fun x => 0 <= x) ex_lassq /\
  sum_square ex_lassq (mkDesc 1 [3] [2]) 2 5 (fun z => if (0 <=? z) && (z <? 6) then Some (z, 1) else None)
  = Ok (1, (1 + 1) + (9 + 1) + (25 + 1) + 2 * 2 * 5).
Proof. split; [|reflexivity]. intros xs s q _ _. simpl. unfold ex_lassq. simpl. lia. Qed.

Print Assumptions C130_sum_square_partial.
Print Assumptions C130_extent_refuted.
Print Assumptions C130_stride_refuted.
