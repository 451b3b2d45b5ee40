(** * T_Fft: Fourier transforms (C97). *)
From Coq Require Import List ZArith Lia Bool Ring Permutation.
From Verif Require Import Base Heap Conc M_Addr S_Addr L_Addr M_Elt M_Einsum S_Einsum M_Blas Num M_Fft.
Import ListNotations.
Open Scope Z_scope.

(** [tw e] behaves like exp(-2 pi i e / n): a homomorphism from the integers to
    complex numbers of modulus one, of period [n], whose sums over a period
    vanish except for multiples of [n]. *)
Definition roots_of_unity {R : Ops} (n : Z) (tw : Z -> car (CxOps R)) : Prop :=
  tw 0 = o1 /\ (forall a b, tw (a + b) = omul (tw a) (tw b)) /\ tw n = o1 /\
  (forall m, 0 < m < n -> zsum n (fun k => tw (k * m)) = o0) /\
  (forall e, cconj (tw e) = tw (- e)).

(** [x] added up [n] times. *)
Definition times {O : Ops} (n : Z) (x : car O) : car O := zsum n (fun _ => x).

Section Arr.
  Context {T : Type}.
  Lemma aread_ok : forall zero n a (h : heap T) f, (forall i, 0 <= i < n -> h (a + i) = Some (f i)) ->
    exists x, aread zero n a h = Ok x /\ forall i, 0 <= i < n -> x i = f i.
  Proof.
    intros zero n a h f H. unfold aread. rewrite (proj2 (forallb_forall _ _)).
    - eexists. split; [reflexivity|]. intros i Hi. cbn beta. now rewrite H.
    - intros i Hi. apply zrange_in in Hi. now rewrite H.
  Qed.
  Lemma aread_ub : forall zero n a (h : heap T) i, 0 <= i < n -> h (a + i) = None -> aread zero n a h = UB.
  Proof.
    intros zero n a h i Hi HN. unfold aread.
    destruct (forallb _ (zrange n)) eqn:E; auto. rewrite forallb_forall in E.
    specialize (E i (proj2 (zrange_in n i) Hi)). cbn beta in E. rewrite HN in E. discriminate.
  Qed.
  Lemma awrite_ok : forall n a f (h : heap T), (forall i, 0 <= i < n -> h (a + i) <> None) ->
    exists h', awrite n a f h = Ok h' /\ (forall i, 0 <= i < n -> h' (a + i) = Some (f i)) /\
      (forall z, ~ (a <= z < a + n) -> h' z = h z).
  Proof.
    intros n a f h H. unfold awrite.
    destruct (forM_cells _ T (zrange n) (fun i => a + i) f (fun i h => wr h (a + i) (f i)) h) as (h' & E & V & F).
    - apply FinFun.Injective_map_NoDup; [intros x y; lia|apply zrange_NoDup].
    - intros x h' Hx Hc. apply zrange_in in Hx. specialize (H x Hx). rewrite <- (Hc (a + x)) in H by auto.
      destruct (h' (a + x)) as [v|] eqn:EV; [|congruence]. apply wr_some with (w := v); auto.
    - exists h'. split; [exact E|]. split.
      + intros i Hi. apply V. now apply zrange_in.
      + intros z Hz. apply F. intros Hin. apply in_map_iff in Hin. destruct Hin as (i & <- & Hi).
        apply zrange_in in Hi. lia.
  Qed.
  Lemma awrite_ub : forall n a f (h : heap T) i, 0 <= i < n -> h (a + i) = None -> awrite n a f h = UB.
  Proof.
    intros n a f h i Hi HN. unfold awrite.
    assert (G : forall l (g : heap T), In i l -> g (a + i) = None -> forM l (fun i h => wr h (a + i) (f i)) g = UB).
    { induction l as [|j l IH]; intros g Hin Hg; [easy|]. cbn [forM]. unfold wr at 1.
      destruct (g (a + j)) eqn:EJ; cbn [bind]; auto. apply IH.
      - destruct Hin as [->|]; auto. congruence.
      - rewrite upd_other; auto. intros X. replace j with i in EJ by lia. congruence. }
    apply G; auto. now apply zrange_in.
  Qed.
End Arr.

Section Dft.
  Context {R : Ops} (HR : is_ring R).
  Notation C := (CxOps R).
  Let HC : is_ring C := CxOps_ring HR.
  Add Ring FftC : (ir_rt (CxOps R) (CxOps_ring HR)).
  Variable tw : Z -> Z -> car C.
  Variable n : Z.
  Hypothesis W : roots_of_unity n (tw n).

  Lemma tw_period : forall q, tw n (q * n) = o1.
  Proof.
    destruct W as (W0 & WA & WN & _).
    assert (G : forall q : nat, tw n (Z.of_nat q * n) = o1).
    { induction q as [|q IH]; [exact W0|]. replace (Z.of_nat (S q) * n) with (Z.of_nat q * n + n) by lia.
      rewrite WA, IH, WN. ring. }
    intros q. destruct (Z_le_gt_dec 0 q) as [Hq|Hq].
    - replace q with (Z.of_nat (Z.to_nat q)) by lia. apply G.
    - specialize (G (Z.to_nat (- q))). assert (E : tw n (q * n + Z.of_nat (Z.to_nat (- q)) * n) = o1).
      { replace (q * n + _) with 0 by lia. auto. }
      rewrite WA, G in E. rewrite <- E. ring.
  Qed.

  (** The sum over a period for every exponent. *)
  Lemma tw_sum : forall m, 0 < n -> zsum n (fun k => tw n (k * m)) = if m mod n =? 0 then times n (@o1 C) else o0.
  Proof.
    intros m Hn. destruct W as (W0 & WA & WN & WS & _).
    assert (E : m = m mod n + m / n * n) by (rewrite Z.mul_comm at 1; rewrite Z.add_comm; apply Z.div_mod; lia).
    assert (G : forall k, tw n (k * m) = tw n (k * (m mod n))).
    { intros k. rewrite E at 1. replace (k * (m mod n + m / n * n)) with (k * (m mod n) + (k * (m / n)) * n) by ring.
      rewrite WA, tw_period. ring. }
    rewrite (zsum_ext _ n _ (fun k => tw n (k * (m mod n)))) by (intros; apply G).
    assert (M := Z.mod_pos_bound m n Hn).
    destruct (Z.eqb_spec (m mod n) 0) as [Z0|NZ].
    - rewrite Z0. unfold times. apply zsum_ext. intros k Hk. rewrite Z.mul_0_r. exact W0.
    - apply WS. lia.
  Qed.

  Lemma zsum_times : forall x, omul (times n (@o1 C)) x = times n x.
  Proof.
    intros x. unfold times, zsum. rewrite <- (lsum_mul_r C HC). apply lsum_ext; auto. intros a Ha. cbv beta. ring.
  Qed.

  (** Backward after forward. *)
  Lemma dft_back : forall x j, 0 <= j < n -> 0 < n ->
    zsum n (fun k => omul (zsum n (fun i => omul (x i) (tw n (i * k)))) (tw n (- (k * j)))) = times n (x j).
  Proof.
    intros x j Hj Hn. destruct W as (W0 & WA & WN & WS & _).
    rewrite (zsum_ext _ n _ (fun k => zsum n (fun i => omul (x i) (tw n (k * (i - j)))))).
    2: { intros k Hk. unfold zsum. rewrite <- (lsum_mul_r C HC). apply lsum_ext; auto. intros i Hi.
         replace (k * (i - j)) with (i * k + - (k * j)) by ring. rewrite WA. ring. }
    unfold zsum at 1 2. rewrite (lsum_swap C HC).
    rewrite (lsum_single C HC _ (zrange n) j _ (zrange_NoDup _)).
    - rewrite (lsum_mul_l C HC). change (lsum (zrange n) ?f) with (zsum n f). rewrite tw_sum by auto.
      rewrite Z.sub_diag, Z.mod_0_l, Z.eqb_refl by lia. rewrite <- (zsum_times (x j)). ring.
    - now apply zrange_in.
    - intros i Hi Hne. apply zrange_in in Hi. rewrite (lsum_mul_l C HC). change (lsum (zrange n) ?f) with (zsum n f).
      rewrite tw_sum by auto. rewrite (proj2 (Z.eqb_neq _ 0)); [ring|].
      intros X. apply Z.mod_divide in X; [|lia]. destruct X as (q & X). assert (q = 0) by nia. nia.
  Qed.

  Lemma conj_add : forall x y : car C, cconj (oadd x y) = oadd (cconj x) (cconj y).
  Proof. Add Ring FftR : (ir_rt R HR). intros [a b] [c d]. unfold cconj. simpl. f_equal. ring. Qed.
  Lemma conj_mul : forall x y : car C, cconj (omul x y) = omul (cconj x) (cconj y).
  Proof. intros [a b] [c d]. unfold cconj. simpl. f_equal; ring. Qed.
  Lemma conj_sum : forall (l : list Z) (f : Z -> car C), cconj (lsum l f) = lsum l (fun i => cconj (f i)).
  Proof.
    induction l as [|i l IH]; intros f; [unfold cconj; simpl; f_equal; ring|].
    cbn [lsum fold_right]. rewrite conj_add. f_equal. apply IH.
  Qed.

  (** The transform of real numbers is Hermitian. *)
  Lemma dft_hermitian : forall (x : Z -> car R) k,
    cconj (zsum n (fun j => omul ((x j, o0) : car C) (tw n (j * (n - k))))) =
    zsum n (fun j => omul ((x j, o0) : car C) (tw n (j * k))).
  Proof.
    intros x k. destruct W as (W0 & WA & WN & WS & WC). unfold zsum. rewrite conj_sum. apply lsum_ext; auto.
    intros j Hj. rewrite conj_mul. f_equal.
    - unfold cconj. simpl. f_equal. ring.
    - rewrite WC. replace (- (j * (n - k))) with (j * k + - j * n) by ring. rewrite WA, tw_period. ring.
  Qed.
End Dft.

Lemma vec_addr : forall b n i, addr (tensor_ctor b [n]) [i] = b + i.
Proof. intros. unfold addr, tensor_ctor. cbn. lia. Qed.
Lemma vec_holds : forall T (h : heap T) b n f, holds h (tensor_ctor b [n]) f <-> forall i, 0 <= i < n -> h (b + i) = Some (f [i]).
Proof.
  intros T h b n f. split.
  - intros H i Hi. specialize (H [i]). unfold elem in H. rewrite vec_addr in H. apply H. repeat constructor; auto; lia.
  - intros H idx Hb. inversion Hb as [|i d is ds Hi Hr E1 E2]; subst. inversion Hr; subst. unfold elem. rewrite vec_addr. apply H. auto.
Qed.
Lemma to_int32_small : forall n, 0 <= n < 2 ^ 31 -> to_int32 n = n.
Proof. intros n Hn. unfold to_int32. rewrite Z.mod_small by lia. lia. Qed.

(** The cells of a vector that was allocated. *)
Definition allocated {T} (h : heap T) (d : desc) : Prop := exists f, holds h d f.

Section Fft.
  Context {R : Ops} (HR : is_ring R).
  Notation C := (CxOps R).
  Let HC : is_ring C := CxOps_ring HR.
  Add Ring Fft2C : (ir_rt (CxOps R) (CxOps_ring HR)).
  Variable tw : Z -> Z -> car C.

  Lemma fftw_dft_ok : forall sign n src dst (x : Z -> car C) h, 0 < n ->
    (forall i, 0 <= i < n -> h (src + i) = Some (x i)) -> (forall i, 0 <= i < n -> h (dst + i) <> None) ->
    exists h', fftw_dft tw sign n src dst h = Ok h' /\
      (forall k, 0 <= k < n -> h' (dst + k) = Some (zsum n (fun j => omul (x j) (tw n (- sign * (j * k)))))) /\
      (forall z, ~ (dst <= z < dst + n) -> h' z = h z).
  Proof.
    intros sign n src dst x h Hn HS HD. unfold fftw_dft. rewrite (proj2 (Z.leb_gt n 0)) by auto.
    destruct (aread_ok (@o0 C) n src h x HS) as (y & E & V). rewrite E. cbn [bind].
    destruct (awrite_ok n dst (dft tw sign n y) h HD) as (h' & E' & V' & F'). exists h'. split; [exact E'|]. split; auto.
    intros k Hk. rewrite V' by auto. f_equal. unfold dft. apply zsum_ext. intros j Hj. rewrite V; auto.
  Qed.
End Fft.

(** fft of complex numbers: the discrete Fourier transform, in the first
    [n] elements of the result, which may be [a] itself. *)
Theorem C97_fft :
  forall (R : Ops), is_ring R ->
  forall (tw : Z -> Z -> car (CxOps R)) (ba br n m : Z) (f : list Z -> car (CxOps R)) (h : heap (car (CxOps R))),
    let a := tensor_ctor ba [n] in let result := tensor_ctor br [m] in
    0 < n <= m -> n < 2 ^ 31 -> holds h a f -> allocated h result ->
    exists h', zzfft tw a result h = Ok h' /\
      (forall k, 0 <= k < n -> elem h' result [k] = Some (zsum n (fun j => omul (f [j]) (tw n (j * k))))) /\
      (forall z, ~ (br <= z < br + n) -> h' z = h z).
Proof.
  intros R HR tw ba br n m f h a result Hn Hs HA (g & HG). unfold zzfft. subst a result. cbn [tensor_ctor ddims dbase].
  unfold tdim. cbn [nth tensor_ctor ddims dbase]. rewrite to_int32_small by lia.
  destruct (fftw_dft_ok tw (-1) n ba br (fun i => f [i]) h) as (h' & E & V & F).
  - lia.
  - apply vec_holds. exact HA.
  - intros i Hi. rewrite (proj1 (vec_holds _ h br m g) HG) by lia. discriminate.
  - exists h'. split; [exact E|]. split; auto. intros k Hk. unfold elem. rewrite vec_addr, V by auto. f_equal. apply zsum_ext.
    intros j Hj. f_equal. f_equal. lia.
Qed.
Print Assumptions C97_fft.

(** ifft of complex numbers: the sum with the opposite sign; the length is the
    length of the result. *)
Theorem C97_ifft :
  forall (R : Ops), is_ring R ->
  forall (tw : Z -> Z -> car (CxOps R)) (ba br n m : Z) (f : list Z -> car (CxOps R)) (h : heap (car (CxOps R))),
    let a := tensor_ctor ba [m] in let result := tensor_ctor br [n] in
    0 < n <= m -> n < 2 ^ 31 -> holds h a f -> allocated h result ->
    exists h', zzifft tw a result h = Ok h' /\
      (forall k, 0 <= k < n -> elem h' result [k] = Some (zsum n (fun j => omul (f [j]) (tw n (- (j * k)))))) /\
      (forall z, ~ (br <= z < br + n) -> h' z = h z).
Proof.
  intros R HR tw ba br n m f h a result Hn Hs HA (g & HG). unfold zzifft. subst a result. cbn [tensor_ctor ddims dbase].
  unfold tdim. cbn [nth tensor_ctor ddims dbase]. rewrite to_int32_small by lia.
  destruct (fftw_dft_ok tw 1 n ba br (fun i => f [i]) h) as (h' & E & V & F).
  - lia.
  - intros i Hi. apply (proj1 (vec_holds _ h ba m f) HA). lia.
  - intros i Hi. rewrite (proj1 (vec_holds _ h br n g) HG) by lia. discriminate.
  - exists h'. split; [exact E|]. split; auto. intros k Hk. unfold elem. rewrite vec_addr, V by auto. f_equal.
Qed.
Print Assumptions C97_ifft.

(** ifft after fft gives [n] times the original (no normalisation). *)
Theorem C97_round_trip :
  forall (R : Ops), is_ring R ->
  forall (tw : Z -> Z -> car (CxOps R)) (ba bf br n : Z) (f : list Z -> car (CxOps R)) (h : heap (car (CxOps R))),
    let a := tensor_ctor ba [n] in let freq := tensor_ctor bf [n] in let result := tensor_ctor br [n] in
    roots_of_unity n (tw n) -> 0 < n < 2 ^ 31 -> holds h a f -> allocated h freq -> allocated h result ->
    exists h1 h2, zzfft tw a freq h = Ok h1 /\ zzifft tw freq result h1 = Ok h2 /\
      (forall j, 0 <= j < n -> elem h2 result [j] = Some (times n (f [j]))).
Proof.
  intros R HR tw ba bf br n f h a freq result W Hn HA HF (g & HG). subst a freq result.
  destruct (C97_fft R HR tw ba bf n n f h) as (h1 & E1 & V1 & F1); auto; try lia.
  assert (HF1 : holds h1 (tensor_ctor bf [n]) (fun idx => zsum n (fun j => omul (f [j]) (tw n (j * nth 0 idx 0))))).
  { apply vec_holds. intros i Hi. rewrite <- (vec_addr bf n i). apply V1. auto. }
  assert (HG1 : allocated h1 (tensor_ctor br [n])).
  { exists (fun idx => match h1 (br + nth 0 idx 0) with Some v => v | None => o0 end). apply vec_holds. intros i Hi. cbn [nth].
    destruct (h1 (br + i)) eqn:E; auto. exfalso.
    destruct (Z_le_gt_dec bf (br + i)); [destruct (Z_lt_le_dec (br + i) (bf + n))|].
    - specialize (V1 (br + i - bf) ltac:(lia)). unfold elem in V1. rewrite vec_addr in V1.
      replace (bf + (br + i - bf)) with (br + i) in V1 by lia. congruence.
    - rewrite F1 in E by lia. rewrite (proj1 (vec_holds _ h br n g) HG) in E by lia. discriminate.
    - rewrite F1 in E by lia. rewrite (proj1 (vec_holds _ h br n g) HG) in E by lia. discriminate. }
  destruct (C97_ifft R HR tw bf br n n _ h1 ltac:(lia) ltac:(lia) HF1 HG1) as (h2 & E2 & V2 & F2).
  exists h1, h2. split; [exact E1|]. split; [exact E2|]. intros j Hj. rewrite V2 by auto. f_equal. cbn [nth].
  apply (dft_back HR tw n W (fun i => f [i])); lia.
Qed.
Print Assumptions C97_round_trip.

(** fft of real numbers: the first n/2 + 1 elements of the transform; the
    remaining elements of the result keep their values.  Too short a result is
    rejected. *)
Theorem C97_real_fft :
  forall (R : Ops), is_ring R ->
  forall (tw : Z -> Z -> car (CxOps R)) (ba br n m : Z) (f : list Z -> car R) (hr : heap (car R)) (hc : heap (car (CxOps R))),
    let a := tensor_ctor ba [n] in let result := tensor_ctor br [m] in
    0 < n < 2 ^ 31 -> holds hr a f -> allocated hc result ->
    (m < n / 2 + 1 -> dzfft tw a result hr hc = Throw) /\
    (n / 2 + 1 <= m -> exists hc', dzfft tw a result hr hc = Ok hc' /\
      (forall k, 0 <= k <= n / 2 ->
         elem hc' result [k] = Some (zsum n (fun j => omul ((f [j], o0) : car (CxOps R)) (tw n (j * k))))) /\
      (forall z, ~ (br <= z <= br + n / 2) -> hc' z = hc z)).
Proof.
  intros R HR tw ba br n m f hr hc a result Hn HA (g & HG). unfold dzfft. subst a result. cbn [tensor_ctor ddims dbase].
  unfold tdim. cbn [nth tensor_ctor ddims dbase]. rewrite to_int32_small by lia. split; intros Hm.
  - rewrite (proj2 (Z.ltb_lt _ _)) by auto. reflexivity.
  - rewrite (proj2 (Z.ltb_ge _ _)) by auto. unfold fftw_r2c. rewrite (proj2 (Z.leb_gt n 0)) by lia.
    destruct (aread_ok (@o0 R) n ba hr (fun i => f [i])) as (y & E & V).
    { apply vec_holds. exact HA. }
    rewrite E. cbn [bind]. assert (0 <= n / 2) by (apply Z.div_pos; lia).
    destruct (awrite_ok (n / 2 + 1) br (dft tw (-1) n (fun j => (y j, o0))) hc) as (h' & E' & V' & F').
    { intros i Hi. rewrite (proj1 (vec_holds _ hc br m g) HG) by lia. discriminate. }
    exists h'. split; [exact E'|]. split.
    + intros k Hk. unfold elem. rewrite vec_addr, V' by lia. f_equal. unfold dft. apply zsum_ext.
      intros j Hj. rewrite V by auto. f_equal. f_equal. lia.
    + intros z Hz. apply F'. lia.
Qed.
Print Assumptions C97_real_fft.

(** ifft to real numbers undoes fft of real numbers up to the factor [n], for
    every state in which FFTW leaves its input array. *)
Theorem C97_real_round_trip :
  forall (R : Ops), is_ring R ->
  forall (tw : Z -> Z -> car (CxOps R)) junk (ba bf br n m : Z) (f : list Z -> car R) (hr : heap (car R)) (hc : heap (car (CxOps R))),
    let a := tensor_ctor ba [n] in let freq := tensor_ctor bf [m] in let result := tensor_ctor br [n] in
    roots_of_unity n (tw n) -> 0 < n < 2 ^ 31 -> n / 2 + 1 <= m -> holds hr a f -> allocated hc freq -> allocated hr result ->
    exists hc1 hc2 hr2, dzfft tw a freq hr hc = Ok hc1 /\ zdifft tw junk freq result hc1 hr = Ok (hc2, hr2) /\
      (forall j, 0 <= j < n -> elem hr2 result [j] = Some (times n (f [j]))) /\
      (forall z, ~ (br <= z < br + n) -> hr2 z = hr z) /\
      (forall z, ~ (bf <= z <= bf + n / 2) -> hc2 z = hc z).
Proof.
  intros R HR tw junk ba bf br n m f hr hc a freq result W Hn Hm HA HF (g & HG). subst a freq result.
  destruct (C97_real_fft R HR tw ba bf n m f hr hc) as (_ & X); auto.
  destruct (X Hm) as (hc1 & E1 & V1 & F1). clear X. assert (Hd : 0 <= n / 2) by (apply Z.div_pos; lia).
  exists hc1. unfold zdifft. cbn [tensor_ctor ddims dbase]. unfold tdim. cbn [nth tensor_ctor ddims dbase]. rewrite to_int32_small by lia.
  rewrite (proj2 (Z.ltb_ge _ _)) by lia. unfold fftw_c2r. rewrite (proj2 (Z.leb_gt n 0)) by lia.
  set (X := fun k => zsum n (fun j => omul ((f [j], o0) : car (CxOps R)) (tw n (j * k)))).
  assert (V1' : forall i, 0 <= i < n / 2 + 1 -> hc1 (bf + i) = Some (X i)).
  { intros i Hi. rewrite <- (vec_addr bf m i). apply V1. lia. }
  destruct (aread_ok (@o0 (CxOps R)) (n / 2 + 1) bf hc1 X V1') as (y & E & V). rewrite E. cbn [bind].
  destruct (awrite_ok n br (fun j => fst (dft tw 1 n (hermitian n y) j)) hr) as (hr2 & E2 & V2 & F2).
  { intros i Hi. rewrite (proj1 (vec_holds _ hr br n g) HG) by lia. discriminate. }
  rewrite E2. cbn [bind].
  destruct (awrite_ok (n / 2 + 1) bf (junk y) hc1) as (hc2 & E3 & V3 & F3).
  { intros i Hi. rewrite V1' by auto. discriminate. }
  rewrite E3. cbn [bind]. exists hc2, hr2. split; [exact E1|]. split; [reflexivity|]. split; [|split; auto].
  2: { intros z Hz. rewrite F3 by lia. apply F1. lia. }
  intros j Hj. unfold elem. rewrite vec_addr, V2 by auto. f_equal.
  transitivity (fst (times n ((f [j], o0) : car (CxOps R)))).
  - f_equal. rewrite <- (dft_back HR tw n W (fun i => (f [i], o0)) j) by lia. unfold dft. apply zsum_ext. intros k Hk.
    replace (- (1) * (k * j)) with (- (k * j)) by lia. f_equal. unfold hermitian.
    destruct (Z.leb_spec k (n / 2)).
    + apply V. lia.
    + rewrite V. 2: { assert (n = 2 * (n / 2) + n mod 2) by (apply Z.div_mod; lia). assert (Y := Z.mod_pos_bound n 2). lia. }
      unfold X. apply (dft_hermitian HR tw n W (fun j => f [j]) k).
  - unfold times, zsum. generalize (zrange n). induction l as [|i l IH]; auto. cbn [lsum fold_right]. cbn [oadd CxOps fst]. f_equal. exact IH.
Qed.
Print Assumptions C97_real_round_trip.

(** Nothing compares the lengths of complex tensors: a result shorter than the
    input is overrun, as is an input of ifft shorter than the result. *)
Theorem C97_short_refuted :
  (forall (R : Ops), is_ring R ->
   forall (tw : Z -> Z -> car (CxOps R)) (ba br n m : Z) (f : list Z -> car (CxOps R)) (h : heap (car (CxOps R))),
     0 <= m < n -> n < 2 ^ 31 -> holds h (tensor_ctor ba [n]) f -> h (br + m) = None ->
     zzfft tw (tensor_ctor ba [n]) (tensor_ctor br [m]) h = UB /\
     zzifft tw (tensor_ctor br [m]) (tensor_ctor ba [n]) h = UB) /\
  (* the result at 2 has one element; the cell 3 belongs to another tensor *)
  (let tw := fun (n e : Z) => if Z.even e then (1, 0) else (-1, 0) in
   let h := fun z : Z => nth (Z.to_nat z) (map Some [(5, 0); (2, 0); (9, 9); (8, 8)]) None in
   match zzfft (R := ZOps) tw (tensor_ctor 0 [2]) (tensor_ctor 2 [1]) h with
   | Ok h' => h' 2 = Some (7, 0) /\ h' 3 = Some (3, 0)
   | _ => False
   end).
Proof.
  split.
  - intros R HR tw ba br n m f h Hm Hs HA HN. unfold zzfft, zzifft, tdim. cbn [nth tensor_ctor ddims dbase].
    rewrite to_int32_small by lia. unfold fftw_dft. rewrite (proj2 (Z.leb_gt n 0)) by lia.
    destruct (aread_ok (@o0 (CxOps R)) n ba h (fun i => f [i]) (proj1 (vec_holds _ _ _ _ _) HA)) as (x & E & _).
    rewrite E. cbn [bind]. split.
    + apply awrite_ub with (i := m); [lia|auto].
    + rewrite aread_ub with (i := m); [reflexivity|lia|auto].
  - cbv zeta. vm_compute. auto.
Qed.
Print Assumptions C97_short_refuted.

(** ifft to real numbers takes its input as const, and FFTW may leave anything
    in it. *)
Theorem C97_input_refuted :
  forall (R : Ops), is_ring R ->
  forall (tw : Z -> Z -> car (CxOps R)) (left : Z -> car (CxOps R)) (bf br n m : Z) (f : list Z -> car (CxOps R))
         (hr : heap (car R)) (hc : heap (car (CxOps R))),
    0 < n < 2 ^ 31 -> n / 2 + 1 <= m -> holds hc (tensor_ctor bf [m]) f -> allocated hr (tensor_ctor br [n]) ->
    exists hc2 hr2, zdifft tw (fun _ => left) (tensor_ctor bf [m]) (tensor_ctor br [n]) hc hr = Ok (hc2, hr2) /\
      forall k, 0 <= k <= n / 2 -> elem hc2 (tensor_ctor bf [m]) [k] = Some (left k).
Proof.
  intros R HR tw left bf br n m f hr hc Hn Hm HF (g & HG). unfold zdifft, tdim. cbn [nth tensor_ctor ddims dbase].
  rewrite to_int32_small by lia. rewrite (proj2 (Z.ltb_ge _ _)) by lia. unfold fftw_c2r. rewrite (proj2 (Z.leb_gt n 0)) by lia.
  assert (HF' := proj1 (vec_holds _ _ _ _ _) HF).
  destruct (aread_ok (@o0 (CxOps R)) (n / 2 + 1) bf hc (fun i => f [i])) as (y & E & V).
  { intros i Hi. apply HF'. lia. }
  rewrite E. cbn [bind].
  destruct (awrite_ok n br (fun j => fst (dft tw 1 n (hermitian n y) j)) hr) as (hr2 & E2 & V2 & F2).
  { intros i Hi. rewrite (proj1 (vec_holds _ hr br n g) HG) by lia. discriminate. }
  rewrite E2. cbn [bind].
  destruct (awrite_ok (n / 2 + 1) bf left hc) as (hc2 & E3 & V3 & F3).
  { intros i Hi. rewrite HF' by lia. discriminate. }
  rewrite E3. cbn [bind]. exists hc2, hr2. split; [reflexivity|]. intros k Hk. unfold elem.
  rewrite vec_addr. apply V3. lia.
Qed.
Print Assumptions C97_input_refuted.

(** Fourth roots of unity among the Gaussian integers, and the transform of
    (1, 2, 3, 4). *)
Definition tw4 (n e : Z) : Z * Z := match e mod 4 with 0 => (1, 0) | 1 => (0, -1) | 2 => (-1, 0) | _ => (0, 1) end.
Example C97_case :
  roots_of_unity (R := ZOps) 4 (tw4 4) /\
  (let h := fun z : Z => nth (Z.to_nat z) (map Some [(1, 0); (2, 0); (3, 0); (4, 0); (9, 9); (9, 9); (9, 9); (9, 9)]) None in
   match zzfft (R := ZOps) tw4 (tensor_ctor 0 [4]) (tensor_ctor 4 [4]) h with
   | Ok h' => map h' [4; 5; 6; 7] = map Some [(10, 0); (-2, 2); (-2, 0); (-2, -2)]
   | _ => False
   end) /\
  (let hr := fun z : Z => nth (Z.to_nat z) (map Some [1; 2; 3; 4; 0; 0; 0; 0]) None in
   let hc := fun z : Z => nth (Z.to_nat z) (map Some [(9, 9); (9, 9); (9, 9); (9, 9)]) None in
   match dzfft (R := ZOps) tw4 (tensor_ctor 0 [4]) (tensor_ctor 0 [4]) hr hc with
   | Ok hc1 => map hc1 [0; 1; 2; 3] = map Some [(10, 0); (-2, 2); (-2, 0); (9, 9)] /\
       match zdifft (R := ZOps) tw4 (fun x k => (7, 7)) (tensor_ctor 0 [4]) (tensor_ctor 4 [4]) hc1 hr with
       | Ok (hc2, hr2) => map hr2 [4; 5; 6; 7] = map Some [4; 8; 12; 16] /\ hc2 1 = Some (7, 7)
       | _ => False
       end
   | _ => False
   end).
Proof.
  split; [|split].
  - assert (M : forall a, a mod 4 = 0 \/ a mod 4 = 1 \/ a mod 4 = 2 \/ a mod 4 = 3)
      by (intros a; assert (X := Z.mod_pos_bound a 4); lia).
    split; [reflexivity|]. split; [|split; [reflexivity|split]].
    + intros a b. unfold tw4. rewrite Z.add_mod by lia.
      destruct (M a) as [-> | [-> | [-> | ->]]]; destruct (M b) as [-> | [-> | [-> | ->]]]; reflexivity.
    + intros m Hm. assert (H : m = 1 \/ m = 2 \/ m = 3) by lia. destruct H as [-> | [-> | ->]]; reflexivity.
    + intros e. unfold tw4. replace (- e) with (0 - e) by lia. rewrite Zminus_mod.
      destruct (M e) as [-> | [-> | [-> | ->]]]; reflexivity.
  - vm_compute. reflexivity.
  - vm_compute. auto.
Qed.
