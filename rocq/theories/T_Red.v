(** * T_Red: sum, max, min (C33) and the element-wise functions returning a new
    tensor (C53). *)
From Coq Require Import List ZArith Lia Bool Permutation.
From Verif Require Import Base Heap Conc M_Addr S_Addr L_Addr M_Elt L_Elt M_Einsum S_Einsum L_Einsum S_Blas L_Blas
  M_Block S_Block L_Block M_Tiled L_Tiled2 M_Red S_Red L_Red.
Import ListNotations.
Open Scope Z_scope.

(** ** C33: sum *)

(** The sum over all elements of a tensor or (strided) view of fewer than 2^31
    elements, for every distribution of the iterations over threads and every
    order in which the threads add and combine. *)
Theorem C33_sum_partial : forall (O : Ops), is_ring O -> forall d parts (h : heap (car O)) f,
  length (dstrides d) = length (ddims d) -> Forall (fun n => 0 <= n) (ddims d) -> zprod (ddims d) < 2 ^ 31 ->
  Permutation (concat parts) (zrange (size_model (ddims d))) ->
  holds h d f ->
  sum d parts h = Ok (lsum (indices (ddims d)) f).
Proof. exact sum_spec. Qed.
Print Assumptions C33_sum_partial.

Lemma zsum_const : forall n, 0 <= n -> zsum (O := ZOps) n (fun _ => 1) = n.
Proof.
  intros n Hn. rewrite <- (Z2Nat.id n) at 2 by auto. rewrite <- (zrange_length n). unfold zsum.
  induction (zrange n) as [|x l IH]; simpl; auto. rewrite IH. lia.
Qed.

Lemma ones_sum : forall m n, 0 <= m -> 0 <= n -> lsum (O := ZOps) (indices [m; n]) (fun _ => 1) = m * n.
Proof.
  intros m n Hm Hn. rewrite lsum_indices_cons by exact ZOps_ring.
  rewrite (zsum_ext ZOps m _ (fun i => omul (o := ZOps) n ((fun _ => 1) i))).
  - unfold zsum. rewrite (lsum_mul_l ZOps ZOps_ring). fold (zsum (O := ZOps) m (fun _ => 1)).
    rewrite zsum_const by auto. cbn. lia.
  - intros i Hi. rewrite lsum_indices_cons by exact ZOps_ring.
    rewrite (zsum_ext ZOps n _ (fun _ => 1)) by (intros; reflexivity). rewrite zsum_const by auto. cbn. lia.
Qed.

(** 2^32 elements equal to one: [size()] is 0 and the sum returned is 0. *)
Theorem C33_sum_large_refuted :
  let d := tensor_ctor 0 [2 ^ 16; 2 ^ 16] in
  let h : heap Z := fun a => if (0 <=? a) && (a <? 2 ^ 32) then Some 1 else None in
  holds h d (fun _ => 1) /\ Permutation (concat [[]]) (zrange (size_model (ddims d))) /\
  sum (O := ZOps) d [[]] h = Ok 0 /\ lsum (O := ZOps) (indices (ddims d)) (fun _ => 1) = 2 ^ 32.
Proof.
  cbv zeta. split; [|split; [|split]].
  - intros idx Hi. inversion Hi as [|i d is ds H1 H2]; subst. inversion H2 as [|j e js es H3 H4]; subst. inversion H4; subst.
    change (0 <= i < 65536) in H1. change (0 <= j < 65536) in H3.
    replace (addr (tensor_ctor 0 [2 ^ 16; 2 ^ 16]) [i; j]) with (i * 65536 + j).
    + destruct (Z.leb_spec 0 (i * 65536 + j)); [|lia].
      destruct (Z.ltb_spec (i * 65536 + j) (2 ^ 32)); [reflexivity|lia].
    + unfold addr, tensor_ctor. change (row_major_strides [2 ^ 16; 2 ^ 16]) with [65536; 1]. cbn [dbase dstrides dotp]. lia.
  - reflexivity.
  - reflexivity.
  - cbn [ddims tensor_ctor]. rewrite ones_sum by lia. reflexivity.
Qed.
Print Assumptions C33_sum_large_refuted.

(** Block tensors: the sum equals the sum over the whole block-diagonal tensor. *)
Theorem C33_block_sum_partial : forall (O : Ops), is_ring O -> forall rank t sizes parts inner (h : heap (car O)) f,
  (0 < rank)%nat -> bt_ok rank t sizes -> bt_holds h t f ->
  Forall (fun n => n ^ Z.of_nat rank < 2 ^ 31) sizes ->
  Permutation (concat parts) (seq 0 (length (bt_blocks t))) ->
  (forall k d, nth_error (bt_blocks t) k = Some d -> Permutation (concat (inner k)) (zrange (size_model (ddims d)))) ->
  block_sum t parts inner h = Ok (lsum (indices (repeat (bt_dim t) rank)) (dense sizes f)).
Proof.
  intros O HR rank t sizes parts inner h f Hr Hok Hh HS HP HI. assert (R := ir_rt O HR).
  assert (Hok' := Hok). destruct Hok' as (HN & HL & HB & (T1 & T2 & T3)).
  set (v := fun k => lsum (indices (repeat (nth k sizes 0) rank)) (f k)).
  assert (ZP : forall n r, zprod (repeat n r) = n ^ Z.of_nat r).
  { intros n. induction r as [|r IH]; [reflexivity|]. cbn [repeat zprod]. rewrite IH.
    rewrite Nat2Z.inj_succ, Z.pow_succ_r by lia. reflexivity. }
  assert (HBk : forall part acc, (forall k, In k part -> (k < length sizes)%nat) ->
     forM part (fun k acc =>
      match nth_error (bt_blocks t) k with
      | Some d => if tdim d 0 =? 0 then Ok acc else v <- sum d (inner k) h ;; Ok (oadd acc v)
      | None => Throw
      end) acc = Ok (fold_left (fun s k => oadd s (v k)) part acc)).
  { induction part as [|k part IH]; intros acc Hk; simpl; auto.
    destruct (bt_block rank t sizes k Hok (Hk k (or_introl eq_refl))) as (d & Ed & Dd & Drm). rewrite Ed.
    destruct (HB k d Ed) as (_ & Hc).
    assert (Nn := nth_nonneg sizes k HN).
    assert (Lk : (k < length sizes)%nat) by (apply Hk; now left).
    destruct (Z.eqb_spec (tdim d 0) 0) as [Z0|Z0].
    - simpl. rewrite IH by (intros; apply Hk; now right).
      replace (oadd acc (v k)) with acc; auto.
      unfold v. unfold tdim in Z0. rewrite Dd in Z0.
      destruct rank as [|rank]; [lia|]. simpl in Z0. rewrite Z0.
      change (indices (repeat 0 (S rank))) with (@nil (list Z)). unfold lsum. simpl. now rewrite (Radd_comm R), (Radd_0_l R).
    - rewrite (sum_spec O HR d (inner k) h (f k)).
      + simpl. rewrite Dd. fold (v k). apply IH. intros; apply Hk; now right.
      + assert (G : forall ds ss, contiguous_strides ds ss -> length ss = length ds).
        { induction ds as [|x ds IH0]; intros [|s ss] H; simpl in *; try contradiction; auto. destruct H. f_equal. auto. }
        apply G. exact Hc.
      + rewrite Dd. rewrite Forall_forall. intros x Hx. apply repeat_spec in Hx. subst. auto.
      + rewrite Dd, ZP. rewrite Forall_forall in HS. apply HS. now apply nth_In.
      + apply (HI k d Ed).
      + apply (Hh k d Ed). }
  assert (HPi : forall ps acc, (forall k, In k (concat ps) -> (k < length sizes)%nat) ->
     forM ps (fun part out => s <- block_sum_part t inner h part ;; Ok (oadd out s)) acc = Ok (oadd acc (lsum (concat ps) v))).
  { induction ps as [|p ps IH]; intros acc Hk; simpl.
    - unfold lsum. simpl. now rewrite (Radd_comm R), (Radd_0_l R).
    - unfold block_sum_part at 1. rewrite HBk by (intros; apply Hk; simpl; apply in_or_app; auto). simpl.
      rewrite IH by (intros; apply Hk; simpl; apply in_or_app; auto). f_equal.
      rewrite (fold_left_lsum O HR), (lsum_app O HR), (Radd_0_l R), (Radd_assoc R). reflexivity. }
  unfold block_sum. rewrite HPi.
  - f_equal. rewrite (Radd_0_l R), (lsum_perm O HR _ _ _ _ HP), HL, T3.
    rewrite (lsum_blocks O HR rank sizes (dense sizes f) Hr HN) by (intros; now apply dense_out).
    apply lsum_ext. intros k Hk. apply in_seq in Hk. unfold v. apply lsum_ext. intros j Hj. apply in_indices in Hj.
    rewrite (dense_in O sizes f _ k HN).
    + now rewrite shift_back.
    + destruct rank as [|rank]; [lia|]. inversion Hj; subst. discriminate.
    + apply (inb_in_blk rank); auto. lia.
  - intros k Hk. apply (Permutation_in _ HP) in Hk. apply in_seq in Hk. lia.
Qed.
Print Assumptions C33_block_sum_partial.

(** ** C33: max and min *)

(** [max] ([better] = [>], [worst] = minus infinity) and [min], for any team of
    [nt] threads and any interleaving of their single accesses: the value returned
    is a best element; for an empty tensor it is [worst].  [P] holds of the
    comparable values (for IEEE numbers: all but NaN).  The data plus the team
    must stay below 2^31 elements. *)
Theorem C33_extremum_partial : forall T (P : T -> Prop) (better : T -> T -> bool), weak_order P better ->
  forall worst, P worst -> (forall x, P x -> better worst x = false) ->
  forall d arr maxt nt (h : heap T) f,
  length (dstrides d) = length (ddims d) -> Forall (fun n => 0 <= n) (ddims d) ->
  0 < nt <= maxt -> zprod (ddims d) + nt <= 2 ^ 31 ->
  holds h d f -> (forall idx, inb idx (ddims d) -> P (f idx)) ->
  (forall a, cell d a -> ~ (arr <= a < arr + maxt)) ->
  exists ps, ext_pool better d arr nt = Ok ps /\
  par_spec ps (ext_start worst arr maxt h) (fun h' =>
    (exists r, best_entry better arr maxt h' = Ok r /\
       (zprod (ddims d) = 0 -> r = worst) /\
       (0 < zprod (ddims d) -> best_of better (ddims d) f r)) /\
    (forall a, ~ (arr <= a < arr + maxt) -> h' a = h a)).
Proof.
  intros T P better HW worst Pw Hw d arr maxt nt h f HL HN Hnt HS Hh Pf Hsep.
  set (dims := ddims d) in *. assert (HZ : 0 <= zprod dims) by (now apply zprod_nonneg).
  unfold ext_pool. fold dims. rewrite size_model_correct by (auto; lia).
  destruct (team_spec nt (zprod dims)) as (l & El & Ll & Hl & HP); [lia|lia|].
  rewrite El. simpl. eexists. split; [reflexivity|].
  set (ps := map _ (combine (zrange nt) l)).
  set (g := fun i => f (col_decode dims i)).
  set (h0 := ext_start worst arr maxt h).
  assert (Lps : length ps = Z.to_nat nt).
  { unfold ps. rewrite map_length, combine_length, zrange_length, Ll. lia. }
  assert (Hps : forall k p, nth_error ps k = Some p -> (k < Z.to_nat nt)%nat /\
     exists w, nth_error l k = Some w /\ p = pseq w (ext_body better d arr (Z.of_nat k))).
  { intros k p Hk. assert (Lk : (k < Z.to_nat nt)%nat) by (rewrite <- Lps; apply nth_error_Some; congruence).
    split; auto. unfold ps in Hk. rewrite nth_error_map in Hk.
    destruct (nth_error (combine (zrange nt) l) k) as [[t w]|] eqn:Ec; [|discriminate]. injection Hk as <-.
    assert (G : forall A B (m : list A) (n : list B) k x y, nth_error (combine m n) k = Some (x, y) ->
       nth_error m k = Some x /\ nth_error n k = Some y).
    { clear. induction m as [|a m IH]; intros [|b n] [|k] x y H; simpl in *; try discriminate; auto. injection H as <- <-. auto. }
    apply G in Ec as (E1 & E2). exists w. split; auto. simpl. f_equal. f_equal.
    assert (N := zrange_nth nt (Z.of_nat k) 0 ltac:(lia)). rewrite Nat2Z.id in N.
    apply nth_error_nth with (d := 0) in E1. congruence. }
  assert (Hin : forall k w, nth_error l k = Some w -> (k < Z.to_nat nt)%nat -> NoDup w /\ (forall x, In x w <-> 0 <= x < zprod dims /\ x mod nt = Z.of_nat k)).
  { intros k w Hw' Hk. destruct (Hl (Z.of_nat k) ltac:(lia)) as (w' & E & H1 & H2). rewrite Nat2Z.id, Hw' in E. injection E as <-. auto. }
  assert (Hdata : forall i, 0 <= i < zprod dims -> h0 (flat_addr d i) = Some (g i) /\ ~ (arr <= flat_addr d i < arr + maxt)).
  { intros i Hi. destruct (col_code_decode dims i HN Hi) as (I1 & _).
    assert (E : flat_addr d i = addr d (col_decode dims i)) by (now apply flat_addr_eq).
    assert (Hc : ~ (arr <= flat_addr d i < arr + maxt)) by (apply Hsep; exists (col_decode dims i); auto).
    split; auto. unfold h0, ext_start, alloc_buffer.
    destruct (Z.leb_spec arr (flat_addr d i)), (Z.ltb_spec (flat_addr d i) (arr + maxt)); simpl; try lia; rewrite E; now apply Hh. }
  assert (Harr : forall k, 0 <= k < maxt -> h0 (arr + k) = Some worst).
  { intros k Hk. unfold h0, ext_start, alloc_buffer.
    destruct (Z.leb_spec arr (arr + k)), (Z.ltb_spec (arr + k) (arr + maxt)); simpl; auto; lia. }
  set (fin := fun k => match nth_error ps k with
     | Some p => match run p h0 with Ok (_, g) => g | _ => h0 end | None => h0 end).
  assert (HT : forall k w, nth_error l k = Some w -> (k < Z.to_nat nt)%nat ->
     psafe (fun a => a = arr + Z.of_nat k) (fun a => exists i, In i w /\ a = flat_addr d i) (pseq w (ext_body better d arr (Z.of_nat k))) h0 /\
     exists h', run (pseq w (ext_body better d arr (Z.of_nat k))) h0 = Ok (Datatypes.tt, h') /\
       h' (arr + Z.of_nat k) = Some (fold_left (fun m i => pick better m (g i)) w worst)).
  { intros k w Hw' Hk. apply ext_thread; [apply Harr; lia|].
    intros i Hi. apply (Hin k w Hw' Hk) in Hi as (Hi & _). destruct (Hdata i Hi) as (H1 & H2). split; auto. lia. }
  assert (HD : par_spec ps h0 (fun h' =>
    (forall i a, (i < length ps)%nat -> (i < Z.to_nat nt)%nat /\ a = arr + Z.of_nat i -> h' a = fin i a) /\
    (forall a, (forall i, (i < length ps)%nat -> ~ ((i < Z.to_nat nt)%nat /\ a = arr + Z.of_nat i)) -> h' a = h0 a))).
  { apply par_drf with (shared := fun a => ~ (arr <= a < arr + maxt)).
    - intros i j a (_ & ->) (_ & E). lia.
    - intros i a (Hi & ->) Hs. lia.
    - intros k p Hk. destruct (Hps k p Hk) as (Lk & w & Hw' & ->). destruct (HT k w Hw' Lk) as (S1 & h' & E & _). split.
      + eapply psafe_mono; [| |exact S1]; simpl; auto. intros a (i & Hi & ->). left.
        apply (Hin k w Hw' Lk) in Hi as (Hi & _). now apply Hdata.
      + unfold fin. rewrite Hk, E. auto. }
  apply par_spec_weaken with (2 := HD). intros h' (H1 & H2).
  split.
  2:{ intros a Ha. rewrite H2 by (intros i Hi (_ & ->); lia). unfold h0, ext_start, alloc_buffer.
      destruct (Z.leb_spec arr a), (Z.ltb_spec a (arr + maxt)); simpl; auto; lia. }
  set (e := fun k => if k <? nt then match nth_error l (Z.to_nat k) with
      | Some w => fold_left (fun m i => pick better m (g i)) w worst | None => worst end else worst).
  assert (Pg : forall i, 0 <= i < zprod dims -> P (g i)).
  { intros i Hi. apply Pf. now apply col_code_decode. }
  assert (Hfold : forall k w, nth_error l k = Some w -> (k < Z.to_nat nt)%nat ->
     let r := fold_left (fun m i => pick better m (g i)) w worst in
     P r /\ (r = worst \/ exists i, In i w /\ r = g i) /\ better worst r = false /\ (forall i, In i w -> better (g i) r = false)).
  { intros k w Hw' Lk. apply (pick_fold P better HW); auto. intros i Hi. apply Pg. now apply (Hin k w Hw' Lk). }
  assert (He : forall k, 0 <= k < maxt -> h' (arr + k) = Some (e k) /\ P (e k)).
  { intros k Hk. unfold e. destruct (Z.ltb_spec k nt) as [L|L].
    - destruct (Hl k ltac:(lia)) as (w & Hw' & _). rewrite Hw'.
      assert (Lk : (Z.to_nat k < Z.to_nat nt)%nat) by lia. split; [|now apply (Hfold (Z.to_nat k) w)].
      rewrite (H1 (Z.to_nat k)) by lia. unfold fin.
      destruct (nth_error ps (Z.to_nat k)) as [p|] eqn:Ep; [|apply nth_error_None in Ep; lia].
      destruct (Hps _ _ Ep) as (_ & w2 & Hw2 & ->). assert (w2 = w) by congruence. subst w2.
      destruct (HT _ _ Hw' Lk) as (_ & h2 & E & V). rewrite E. rewrite Z2Nat.id in V by lia. exact V.
    - split; auto. rewrite H2 by (intros i Hi (_ & E); lia). apply Harr. lia. }
  destruct (best_entry_spec P better HW arr maxt h' e ltac:(lia) He) as (r & Er & Pr & (k & Hk & Rk) & Rb).
  exists r. split; [exact Er|]. split.
  - intros Z0. rewrite Rk. unfold e. destruct (Z.ltb_spec k nt); auto.
    destruct (Hl k ltac:(lia)) as (w & Hw' & _ & Iw). rewrite Hw'. destruct w as [|x w]; auto.
    assert (X := proj1 (Iw x) (or_introl eq_refl)). lia.
  - intros Zp. split.
    + intros idx Hi. set (i := col_code dims idx).
      assert (Bi : 0 <= i < zprod dims) by (now apply col_code_range).
      assert (Bm := Z.mod_pos_bound i nt ltac:(lia)).
      destruct (Hl (i mod nt) Bm) as (w & Hw' & _ & Iw).
      assert (Lk : (Z.to_nat (i mod nt) < Z.to_nat nt)%nat) by lia.
      destruct (Hfold _ _ Hw' Lk) as (F1 & _ & _ & F4).
      replace (f idx) with (g i) by (unfold g, i; now rewrite col_decode_code).
      destruct HW as (W1 & W2 & W3).
      apply (W3 (g i) (e (i mod nt)) r); auto.
      * apply He. lia.
      * unfold e. destruct (Z.ltb_spec (i mod nt) nt); [|lia]. rewrite Hw'. apply F4. apply Iw. auto.
      * apply Rb. lia.
    + assert (Ex : (exists i, 0 <= i < zprod dims /\ r = g i) \/ r = worst).
      { rewrite Rk. unfold e. destruct (Z.ltb_spec k nt); auto.
        destruct (Hl k ltac:(lia)) as (w & Hw' & _ & Iw). rewrite Hw'.
        destruct (Hfold (Z.to_nat k) w Hw' ltac:(lia)) as (_ & F2 & _ & _). destruct F2 as [F2|(i & Hi & F2)]; [right; exact F2|].
        left. exists i. split; auto. now apply Iw in Hi. }
      destruct Ex as [(i & Hi & ->)| ->].
      * exists (col_decode dims i). split; [now apply col_code_decode|]. destruct HW as (W1 & _ & _). apply W1, Pg; auto.
      * exists (col_decode dims 0). destruct (col_code_decode dims 0 HN ltac:(lia)) as (I1 & _). split; auto.
Qed.
Print Assumptions C33_extremum_partial.

(** With the IEEE comparison, in which every comparison with NaN is false, the
    result misses an element and depends on the number of threads: max{1,NaN,0}
    is 0 with one thread and 1 with two.  [None] is NaN, [Some None] minus infinity. *)
Definition fnum := option (option Z).
Definition fgt (x y : fnum) : bool :=
  match x, y with
  | Some (Some a), Some (Some b) => b <? a
  | Some (Some _), Some None => true
  | _, _ => false
  end.
Definition run_team {T} (better : T -> T -> bool) (d : desc) (arr nt : Z) (h : heap T) : res (heap T) :=
  ps <- ext_pool better d arr nt ;; forM ps (fun p h => r <- run p h ;; Ok (snd r)) h.
Definition nan_mem : heap fnum :=
  upd (upd (upd (fun _ => None) 0 (Some (Some 1))) 1 None) 2 (Some (Some 0)).
Definition max_of (nt : Z) : res fnum :=
  h' <- run_team fgt (tensor_ctor 0 [3]) 10 nt (ext_start (Some None) 10 4 nan_mem) ;; best_entry fgt 10 4 h'.
Theorem C33_max_nan_refuted :
  max_of 1 = Ok (Some (Some 0)) /\ max_of 2 = Ok (Some (Some 1)) /\ fgt (Some (Some 1)) (Some (Some 0)) = true.
Proof. repeat split; vm_compute; reflexivity. Qed.
Print Assumptions C33_max_nan_refuted.

(** Without NaN the comparison is a weak order: the theorem applies to it. *)
Lemma fgt_weak : weak_order (fun x : fnum => x <> None) fgt.
Proof.
  split; [|split].
  - intros [[x|]|] H; simpl; auto. apply Z.ltb_irrefl.
  - intros [[x|]|] [[y|]|] H1 H2; simpl; auto; try discriminate. intros H. apply Z.ltb_lt in H. apply Z.ltb_ge. lia.
  - intros [[x|]|] [[y|]|] [[z|]|] H1 H2 H3; simpl; auto; try congruence; try discriminate.
    rewrite !Z.ltb_ge. lia.
Qed.

(** A 2x2 strided view of a 2x4 buffer: sum with two threads, max with three. *)
Definition view22 := mkDesc 0 [2; 2] [4; 2].
Definition mem8 : heap Z := fun a => if (0 <=? a) && (a <? 8) then Some (a * a - 5 * a) else None.
Example C33_case :
  holds mem8 view22 (fun i => let a := 4 * nth 0 i 0 + 2 * nth 1 i 0 in a * a - 5 * a) /\
  Permutation (concat [[3; 0]; [1; 2]]) (zrange (size_model [2; 2])) /\
  sum (O := ZOps) view22 [[3; 0]; [1; 2]] mem8 = Ok (-4) /\
  (exists ps, ext_pool Z.gtb view22 20 3 = Ok ps /\ length ps = 3%nat) /\
  (h <- run_team Z.gtb view22 20 3 (ext_start (-1000) 20 8 mem8) ;; best_entry Z.gtb 20 8 h) = Ok 6.
Proof.
  split; [|split; [|split; [|split]]].
  - intros idx Hi. apply in_indices in Hi. simpl in Hi. repeat destruct Hi as [<-|Hi]; try reflexivity. contradiction.
  - apply NoDup_Permutation; [cbn [concat app]; do 4 (apply NoDup_cons; [simpl; lia|]); constructor|apply zrange_NoDup|].
    intros x. change (size_model [2; 2]) with 4. rewrite zrange_in. simpl. lia.
  - vm_compute. reflexivity.
  - eexists. split; [reflexivity|reflexivity].
  - vm_compute. reflexivity.
Qed.

(** The loop counter of some thread overflows as soon as the number of elements
    and the number of threads add up to more than 2^31. *)
Lemma team_overflow : forall nt size, 0 < size < 2 ^ 31 -> 0 < nt < 2 ^ 31 -> 2 ^ 31 < size + nt -> team nt size = UB.
Proof.
  intros nt size Hs Hn Hsum.
  unfold team. set (x := size - 1). assert (Hm := Z.mod_pos_bound x nt ltac:(lia)).
  assert (Hst : forall tid, 0 <= tid < nt -> match strided tid nt size with Throw => False | Ok _ => tid <> x mod nt | UB => True end).
  { intros tid Ht. destruct (strided tid nt size) as [l| |] eqn:E; auto.
    - intros ->. assert (Hle : x mod nt <= x) by (apply Z.mod_le; lia).
      assert (Hf : size - x mod nt <= Z.of_nat (Z.to_nat size)) by (rewrite Z2Nat.id; lia).
      assert (B := strided_loop_ok _ _ nt _ l ltac:(lia) Hf E x ltac:(lia)).
      unfold int_max in B. assert ((x - x mod nt) mod nt = 0); [|specialize (B H); lia].
      rewrite Zminus_mod_idemp_r. now rewrite Z.sub_diag.
    - unfold strided in E. assert (G : forall fuel i size, strided_loop fuel i nt size <> Throw).
      { induction fuel as [|fuel IH]; intros i sz; simpl; [discriminate|].
        destruct (i <? sz); [|discriminate]. destruct (int_max <? i + nt); [discriminate|].
        specialize (IH (i + nt) sz). destruct (strided_loop fuel (i + nt) nt sz); simpl; congruence. }
      now apply G in E. }
  clearbody x.
  assert (G : forall l, (forall t, In t l -> 0 <= t < nt) -> In (x mod nt) l -> mapR (fun tid => strided tid nt size) l = UB).
  { induction l as [|t l IH]; intros Hb Hin; [contradiction|]. simpl.
    assert (Ht := Hst t (Hb t (or_introl eq_refl))). destruct (strided t nt size) as [w| |] eqn:E; [|contradiction|reflexivity].
    destruct Hin as [->|Hin]; [congruence|]. simpl. rewrite IH; auto. intros; apply Hb; now right. }
  apply G; [intros t Ht; now apply zrange_in in Ht|]. apply zrange_in. lia.
Qed.

(** For a tensor of 2^31 - 1 elements every team of two or more threads runs into
    signed overflow of the loop counter. *)
Theorem C33_max_large_refuted : forall T (better : T -> T -> bool) base arr nt, 2 <= nt < 2 ^ 31 ->
  ext_pool better (tensor_ctor base [2 ^ 31 - 1]) arr nt = UB.
Proof.
  intros T better base arr nt Hn. unfold ext_pool. cbn [ddims tensor_ctor].
  rewrite size_model_correct by (try (constructor; [lia|constructor]); cbn [zprod]; lia).
  cbn [zprod]. rewrite Z.mul_1_r. rewrite team_overflow by lia. reflexivity.
Qed.
Print Assumptions C33_max_large_refuted.

(** Block tensors: the zeros outside the blocks are not considered: the maximum
    of the block tensor diag(-1,-2) comes out as -1, though its element (0,1) is 0;
    and a tensor without blocks dereferences an end iterator. *)
Theorem C33_block_max_refuted :
  let t := bt_ctor 2 9 [0; 1] [1; 1] in
  let f := fun (k : nat) (_ : list Z) => - 1 - Z.of_nat k in
  bt_ok 2 t [1; 1] /\ block_best Z.gtb (-1000) t (fun k => f k [0; 0]) = Ok (-1) /\
  dense (O := ZOps) [1; 1] f [0; 1] = 0 /\ 0 >? -1 = true /\
  block_best Z.gtb (-1000) (empty_bt 9) (fun k => f k [0; 0]) = UB.
Proof.
  cbv zeta. split; [|repeat split; reflexivity].
  split; [repeat constructor; lia|]. split; [reflexivity|]. split.
  - intros [|[|k]] d E; cbn in E; try (injection E as <-; split; [reflexivity|cbn; repeat split; reflexivity]).
    destruct k; discriminate.
  - split; [reflexivity|]. split; [|reflexivity]. intros [|[|k]] Hk; try reflexivity. cbn in Hk. lia.
Qed.
Print Assumptions C33_block_max_refuted.

(** ** C53: abs, invert, exp, scale returning a new tensor *)

(** [F] is the function applied ([std::abs], [1/x], [std::exp], [scale * x]); any
    team and interleaving; the operand may be a strided view. *)
Theorem C53_new_tensor_partial : forall T (F : T -> T) zero base d nt (h : heap T) f,
  ddims d <> [] -> length (dstrides d) = length (ddims d) -> Forall (fun n => 0 <= n) (ddims d) ->
  0 < nt -> zprod (ddims d) + nt <= 2 ^ 31 ->
  holds h d f -> (forall k, 0 <= k < zprod (ddims d) -> h (base + k) = None) ->
  let out := fst (like zero base d h) in
  exists ps, map_pool F out d nt = Ok ps /\
  par_spec ps (snd (like zero base d h)) (fun h' =>
    ddims out = ddims d /\ holds h' out (fun i => F (f i)) /\ holds h' d f /\
    (forall a, h a <> None -> h' a = h a)).
Proof.
  intros T F zero base d nt h f Hne HL HN Hnt HS Hh Hfr. cbv zeta.
  set (dims := ddims d) in *. unfold like. cbn [fst snd]. fold dims. set (out := tensor_ctor base dims).
  set (h0 := alloc_buffer zero base (data_size dims) h).
  assert (HZ : 0 <= zprod dims) by (now apply zprod_nonneg).
  unfold map_pool. fold dims. rewrite size_model_correct by (auto; lia).
  destruct (team_spec nt (zprod dims)) as (l & El & Ll & _ & HP); [lia|lia|]. rewrite El. simpl.
  eexists. split; [reflexivity|].
  assert (Lo : length (dstrides out) = length dims) by (unfold out; cbn; apply rms_length).
  set (ad := fun i => addr out (col_decode dims i)).
  set (val := fun i => Some (F (f (col_decode dims i)))).
  assert (Ea : forall i, dbase out + flat_offset (dstrides out) dims i = ad i).
  { intros i. unfold ad, addr. now rewrite flat_offset_eq. }
  assert (Dec : forall i, 0 <= i < zprod dims -> inb (col_decode dims i) dims) by (intros; now apply col_code_decode).
  assert (Cell : forall a, cell out a <-> base <= a < base + zprod dims) by (intros; now apply tensor_cell).
  assert (Src : forall i, 0 <= i < zprod dims -> h0 (flat_addr d i) = Some (f (col_decode dims i)) /\ ~ cell out (flat_addr d i)).
  { intros i Hi. rewrite flat_addr_eq by auto. fold dims.
    assert (V := Hh _ (Dec i Hi)).
    assert (Nc : ~ cell out (addr d (col_decode dims i))).
    { rewrite Cell. intros Hc. assert (X := Hfr (addr d (col_decode dims i) - base) ltac:(lia)).
      replace (base + (addr d (col_decode dims i) - base)) with (addr d (col_decode dims i)) in X by lia. congruence. }
    split; auto. unfold h0. rewrite alloc_buffer_other; auto. rewrite data_size_eq by auto. rewrite Cell in Nc. lia. }
  assert (NdA : NoDup (map ad (zrange (zprod dims)))).
  { unfold ad. rewrite <- map_map. eapply Permutation_NoDup; [apply Permutation_sym, Permutation_map, col_perm; auto|].
    apply addr_NoDup. unfold out. intros i j Hi Hj. now apply rm_inj. }
  assert (Own : forall a, owned (zrange (zprod dims)) ad a <-> cell out a).
  { intros a. unfold owned. split.
    - intros H. apply in_map_iff in H as (i & <- & Hi). apply zrange_in in Hi. exists (col_decode dims i). split; [now apply Dec|reflexivity].
    - intros (idx & Hi & ->). apply in_map_iff. exists (col_code dims idx). split.
      + unfold ad. now rewrite col_decode_code.
      + apply zrange_in. now apply col_code_range. }
  assert (TO : task_ok (zrange (zprod dims)) ad val (map_body F out d) h0).
  { intros i h1 Hi Hag. apply zrange_in in Hi. destruct (Src i Hi) as (V & Nc).
    assert (V1 : h1 (flat_addr d i) = Some (f (col_decode dims i))) by (rewrite Hag; auto; right; now rewrite Own).
    assert (W1 : h1 (ad i) = Some zero).
    { rewrite Hag by auto. unfold h0. apply alloc_buffer_cell. rewrite data_size_eq by auto. apply Cell.
      exists (col_decode dims i). split; [now apply Dec|reflexivity]. }
    unfold map_body. cbn [psafe run]. fold dims. rewrite Ea, V1, W1. split.
    - split; [right; now rewrite Own|]. exists (f (col_decode dims i)). split; [auto|]. split; [auto|]. split; eauto.
    - eexists. split; [reflexivity|]. apply upd_same. }
  apply par_spec_weaken with (2 := par_cells Z T (zrange (zprod dims)) l ad val (map_body F out d) h0 HP NdA TO).
  intros h' (H1 & H2). split; [reflexivity|]. split; [|split].
    + intros idx Hi. change (inb idx dims) in Hi.
      specialize (H1 (col_code dims idx) ltac:(apply zrange_in; now apply col_code_range)).
      unfold ad, val in H1. rewrite col_decode_code in H1 by auto. exact H1.
    + intros idx Hi. assert (V := Hh idx Hi).
      assert (Nc : ~ cell out (addr d idx)).
      { rewrite Cell. intros Hc. assert (X := Hfr (addr d idx - base) ltac:(lia)).
        replace (base + (addr d idx - base)) with (addr d idx) in X by lia. congruence. }
      rewrite H2 by (now rewrite Own). unfold h0. rewrite alloc_buffer_other; auto. rewrite data_size_eq by auto. rewrite Cell in Nc. lia.
    + intros a Ha. assert (Nc : ~ cell out a).
      { rewrite Cell. intros Hc. assert (X := Hfr (a - base) ltac:(lia)). replace (base + (a - base)) with a in X by lia. congruence. }
      rewrite H2 by (now rewrite Own). unfold h0. rewrite alloc_buffer_other; auto. rewrite data_size_eq by auto. rewrite Cell in Nc. lia.
Qed.
Print Assumptions C53_new_tensor_partial.

(** The bound on size + threads is exact: below 2^31 elements it is the only
    obstacle, and beyond it some thread's loop counter overflows. *)
Theorem C53_large_refuted : forall T (F : T -> T) out d nt, Forall (fun n => 0 <= n) (ddims d) ->
  0 < zprod (ddims d) < 2 ^ 31 -> 0 < nt < 2 ^ 31 -> 2 ^ 31 < zprod (ddims d) + nt ->
  map_pool F out d nt = UB.
Proof.
  intros T F out d nt HN HZ Hn Hs. unfold map_pool. rewrite size_model_correct by (auto; lia).
  rewrite team_overflow by lia. reflexivity.
Qed.
Print Assumptions C53_large_refuted.
Example C53_large_case : 0 < zprod [2 ^ 31 - 1] < 2 ^ 31 /\ 2 ^ 31 < zprod [2 ^ 31 - 1] + 2.
Proof. cbn [zprod]. lia. Qed.

(** [scale] by -3 of the strided view, three threads. *)
Example C53_case :
  let s := like 0 100 view22 mem8 in
  (exists ps, map_pool (Z.mul (-3)) (fst s) view22 3 = Ok ps /\
     (h <- forM ps (fun p h => r <- run p h ;; Ok (snd r)) (snd s) ;; Ok (map h [100; 101; 102; 103])) =
     Ok [Some 0; Some 18; Some 12; Some (-18)]) /\
  (forall k, 0 <= k < 4 -> mem8 (100 + k) = None).
Proof.
  cbv zeta. split.
  - eexists. split; vm_compute; reflexivity.
  - intros k Hk. unfold mem8. destruct (Z.ltb_spec (100 + k) 8); [lia|]. now rewrite andb_false_r.
Qed.

Lemma fold_best : forall T (P : T -> Prop) (better : T -> T -> bool), weak_order P better ->
  forall l m, P m -> Forall P l ->
  let r := fold_left (fun m x => if better x m then x else m) l m in
  P r /\ In r (m :: l) /\ forall x, In x (m :: l) -> better x r = false.
Proof.
  intros T P better (W1 & W2 & W3). induction l as [|y l IH]; intros m Pm Pl r.
  - subst r. simpl. split; auto. split; auto. intros x [<-|[]]. auto.
  - inversion Pl as [|? ? Py Pl']; subst. subst r. cbn [fold_left].
    destruct (better y m) eqn:E.
    + destruct (IH y Py Pl') as (Pr & I & B). split; auto. split; [right; exact I|].
      intros x [<-|[<-|Hx]].
      * apply (W3 m y); auto. apply B. now left.
      * apply B. now left.
      * apply B. now right.
    + destruct (IH m Pm Pl') as (Pr & I & B). split; auto. split; [destruct I as [I|I]; [now left|right; now right]|].
      intros x [<-|[<-|Hx]].
      * apply B. now left.
      * apply (W3 y m); auto. apply B. now left.
      * apply B. now right.
Qed.

(** Block tensors with at least one block: the result is a best element among
    the elements of the blocks, or [worst] when all blocks are empty.  [blk k] is
    what the dense routine returns for block [k] ([C33_extremum_partial]).  The
    elements outside the blocks do not count ([C33_block_max_refuted]). *)
Theorem C33_block_extremum_partial : forall T (P : T -> Prop) (better : T -> T -> bool), weak_order P better ->
  forall worst, P worst -> (forall x, P x -> better worst x = false) ->
  forall rank t sizes blk (f : nat -> list Z -> T),
  (0 < rank)%nat -> bt_ok rank t sizes -> sizes <> [] ->
  (forall k n, nth_error sizes k = Some n -> 0 < n -> P (blk k) /\ best_of better (repeat n rank) (f k) (blk k)) ->
  (forall k n idx, nth_error sizes k = Some n -> inb idx (repeat n rank) -> P (f k idx)) ->
  exists r, block_best better worst t blk = Ok r /\
    (forall k n idx, nth_error sizes k = Some n -> inb idx (repeat n rank) -> better (f k idx) r = false) /\
    ((exists k n idx, nth_error sizes k = Some n /\ inb idx (repeat n rank) /\ better r (f k idx) = false) \/
     (r = worst /\ Forall (fun n => n = 0) sizes)).
Proof.
  intros T P better HW worst Pw Hw rank t sizes blk f Hr Hok Hne Hb Pf.
  assert (W := HW). destruct W as (W1 & W2 & W3).
  destruct Hok as (HN & HL & HB & _). unfold block_best.
  set (e := fun k => match nth_error (bt_blocks t) k with Some d => if tdim d 0 =? 0 then worst else blk k | None => worst end).
  assert (He : forall k n, nth_error sizes k = Some n -> e k = if n =? 0 then worst else blk k).
  { intros k n Hk. unfold e. destruct (nth_error (bt_blocks t) k) as [d|] eqn:E.
    - destruct (HB k d E) as (Hd & _). replace (tdim d 0) with n; auto.
      unfold tdim. rewrite Hd.
      rewrite (nth_error_nth _ _ 0 Hk). destruct rank; [lia|]. reflexivity.
    - exfalso. apply nth_error_None in E. assert (k < length sizes)%nat by (apply nth_error_Some; congruence). lia. }
  rewrite HL. set (vals := map e (seq 0 (length sizes))).
  assert (HV : forall x, In x vals -> exists k n, nth_error sizes k = Some n /\ x = (if n =? 0 then worst else blk k)).
  { intros x Hx. unfold vals in Hx. apply in_map_iff in Hx. destruct Hx as (k & <- & Hk). apply in_seq in Hk.
    destruct (nth_error sizes k) as [n|] eqn:En; [|apply nth_error_None in En; lia]. exists k, n. split; auto. }
  assert (HI : forall k n, nth_error sizes k = Some n -> In (if n =? 0 then worst else blk k) vals).
  { intros k n Hk. rewrite <- (He k n Hk). apply in_map. apply in_seq.
    assert (k < length sizes)%nat by (apply nth_error_Some; congruence). lia. }
  assert (HP : Forall P vals).
  { apply Forall_forall. intros x Hx. destruct (HV x Hx) as (k & n & Hk & ->).
    destruct (Z.eqb_spec n 0); auto. apply (Hb k n Hk). assert (0 <= n); [|lia].
    assert (Q := nth_error_In _ _ Hk). rewrite Forall_forall in HN. apply HN in Q. lia. }
  clearbody vals. destruct vals as [|m l].
  - exfalso. destruct sizes as [|n s]; [congruence|]. exact (HI 0%nat n eq_refl).
  - inversion HP as [|? ? Pm Pl]; subst. destruct (fold_best T P better HW l m Pm Pl) as (Pr & I & B).
    set (r := fold_left _ l m) in *. exists r. split; auto.
    assert (G : forall k n idx, nth_error sizes k = Some n -> inb idx (repeat n rank) -> 0 < n).
    { intros k n idx Hk Hi. destruct rank; [lia|]. inversion Hi; subst. lia. }
    split.
    + intros k n idx Hk Hi. assert (Hn := G _ _ _ Hk Hi). destruct (Hb k n Hk Hn) as (Pb & B1 & _).
      apply (W3 _ (blk k)); auto.
      * eapply Pf; eauto.
      * apply B. specialize (HI k n Hk). destruct (Z.eqb_spec n 0); [lia|auto].
    + destruct (HV r I) as (k & n & Hk & Er). destruct (Z.eqb_spec n 0) as [->|Hn0].
      * destruct (Forall_dec (fun n => n = 0) (fun n => Z.eq_dec n 0) sizes) as [HF|HF]; [now right|].
        left. apply neg_Forall_Exists_neg in HF; [|intros; apply Z.eq_dec]. apply Exists_exists in HF.
        destruct HF as (n & Hin & Hn). destruct (In_nth_error _ _ Hin) as (k' & Hk').
        assert (0 < n). { rewrite Forall_forall in HN. apply HN in Hin. lia. }
        exists k', n, (repeat 0 rank). split; auto. 
        assert (Hi : inb (repeat 0 rank) (repeat n rank)) by (clear - H; induction rank; simpl; constructor; auto; lia).
        split; auto. rewrite Er. apply Hw. eapply Pf; eauto.
      * assert (0 < n). { assert (Q := nth_error_In _ _ Hk). rewrite Forall_forall in HN. apply HN in Q. lia. }
        destruct (Hb k n Hk H) as (_ & _ & idx & Hi & E). left. exists k, n, idx. rewrite Er. auto.
Qed.
(** Case: three blocks, the middle one empty. *)
Example C33_block_extremum_case :
  let t := bt_ctor 2 9 [0; 4; 4] [2; 0; 1] in
  bt_ok 2 t [2; 0; 1] /\
  block_best Z.gtb (-1000) t (fun k => match k with O => 7 | _ => 12 end) = Ok 12.
Proof.
  cbv zeta. split; [|reflexivity].
  split; [repeat constructor; lia|]. split; [reflexivity|]. split.
  - intros [|[|[|k]]] d E; cbn in E; try (injection E as <-; split; [reflexivity|cbn; repeat split; reflexivity]).
    destruct k; discriminate.
  - split; [reflexivity|]. split; [|reflexivity]. intros [|[|[|k]]] Hk; try reflexivity. cbn in Hk. lia.
Qed.
Print Assumptions C33_block_extremum_partial.
