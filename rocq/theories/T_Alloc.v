(** * T_Alloc: the buffers of tensors (C101). *)
From Coq Require Import List ZArith Lia Bool.
From Verif Require Import Base Heap M_Alloc.
Import ListNotations.
Open Scope Z_scope.

(** What posix_memalign promises: if it delivers a block, the block is aligned,
    lies in the address space and overlaps no live block. *)
Definition memalign_ok (pm : memalign) : Prop :=
  forall h align size p, 0 < size -> pm h align size = Some p ->
    0 < p /\ p mod align = 0 /\ p + size <= 2 ^ 64 /\ forall q b, In (q, b) h -> p + size <= q \/ q + b <= p.

Lemma pad_ok : forall align size, 0 < align -> 0 < size -> size + align <= 2 ^ 64 - 1 ->
  let total := size_wrap (size + size_wrap (align - size mod align)) in size <= total /\ 0 < total.
Proof.
  intros align size HA HS HB total. unfold total, size_wrap. assert (M := Z.mod_pos_bound size align HA).
  rewrite (Z.mod_small (align - size mod align)) by lia. rewrite Z.mod_small by lia. lia.
Qed.

(** allocate(n) for a number of elements between 1 and max_size(). *)
Theorem C101_allocate :
  forall (pm : memalign) (align sizeof n : Z) (h : cheap),
    memalign_ok pm -> 0 < align < 2 ^ 64 -> 0 < sizeof -> 0 < n <= max_size align sizeof ->
    match allocate pm align sizeof n h with
    | Ok (p, h') => exists bytes, h' = (p, bytes) :: h /\ n * sizeof <= bytes /\ 0 < p /\ p mod align = 0 /\ p + bytes <= 2 ^ 64 /\
        forall q b, In (q, b) h -> p + bytes <= q \/ q + b <= p
    | Throw => exists size, n * sizeof <= size /\ pm h align size = None
    | UB => False
    end.
Proof.
  intros pm align sizeof n h PM HA HS HN.
  assert (HB : n * sizeof <= 2 ^ 64 - 1 - align).
  { unfold max_size in HN. assert (sizeof * ((2 ^ 64 - 1 - align) / sizeof) <= 2 ^ 64 - 1 - align) by (apply Z.mul_div_le; lia). nia. }
  assert (HP : 0 < n * sizeof) by nia.
  assert (W : size_wrap (n * sizeof) = n * sizeof) by (unfold size_wrap; apply Z.mod_small; lia).
  unfold allocate, allocate_aligned_memory. rewrite W. rewrite (proj2 (Z.eqb_neq (n * sizeof) 0)) by lia. cbv zeta.
  destruct (pad_ok align (n * sizeof) ltac:(lia) HP ltac:(lia)) as (G1 & G2).
  set (total := size_wrap (n * sizeof + size_wrap (align - (n * sizeof) mod align))) in *.
  destruct (pm h align total) as [p|] eqn:E.
  - destruct (PM h align total p G2 E) as (P1 & P2 & P3 & P4). rewrite (proj2 (Z.eqb_neq p 0)) by lia.
    exists total. split; [reflexivity|]. split; [exact G1|]. split; [exact P1|]. split; [exact P2|]. split; [exact P3|exact P4].
  - cbn. exists total. auto.
Qed.
Print Assumptions C101_allocate.

(** Who owns what: one live block for every tensor with elements. *)
Inductive owns (align : Z) : list owner -> cheap -> Prop :=
| ow_nil : owns align [] []
| ow_empty : forall p s own h, owns align own h -> owns align ((p, 0, s) :: own) h
| ow_block : forall p n s b own h, owns align own h -> 0 < n -> 0 < s -> n * s <= b -> 0 < p -> p mod align = 0 -> p + b <= 2 ^ 64 ->
    (forall q c, In (q, c) h -> p + b <= q \/ q + c <= p) -> owns align ((p, n, s) :: own) ((p, b) :: h).

Lemma owns_in : forall align own h, owns align own h -> forall i p n s, nth_error own i = Some (p, n, s) -> n <> 0 ->
  exists b, In (p, b) h /\ 0 < n * s <= b /\ 0 < p /\ p mod align = 0 /\ p + b <= 2 ^ 64.
Proof.
  induction 1 as [|p0 s0 own h H IH|p0 n0 s0 b own h H IH N0 S0 B P M L D]; intros i p n s E NZ.
  - destruct i; discriminate.
  - destruct i as [|i]; cbn in E; [congruence|eauto].
  - destruct i as [|i]; cbn in E.
    + injection E as <- <- <-. exists b. split; [now left|]. split; [nia|auto].
    + destruct (IH i p n s E NZ) as (c & I & X). exists c. split; [now right|exact X].
Qed.
Lemma owns_keep : forall align own h, owns align own h -> forall p, (forall b, ~ In (p, b) h) ->
  filter (fun b => negb (fst b =? p)) h = h.
Proof.
  intros align own h H p N. clear H. induction h as [|[q c] h IH]; auto. cbn. destruct (Z.eqb_spec q p).
  - subst. exfalso. apply (N c). now left.
  - cbn. f_equal. apply IH. intros b I. apply (N b). now right.
Qed.
Lemma owns_end : forall align own h, owns align own h -> forall i p n s, nth_error own i = Some (p, n, s) ->
  exists h', (if n =? 0 then Ok h else deallocate p h) = Ok h' /\ owns align (firstn i own ++ skipn (S i) own) h' /\
    (forall x, In x h' -> In x h) /\ (n <> 0 -> forall b, ~ In (p, b) h').
Proof.
  intros align own h H i p n s E.
  destruct (Z.eqb_spec n 0) as [->|NZ].
  - exists h. split; [auto|]. split; [|split; [auto|congruence]].
    revert i E. induction H as [|p0 s0 own h H IH|p0 n0 s0 b own h H IH N0 S0 B P M L D]; intros i E.
    + destruct i; discriminate.
    + destruct i as [|i]; cbn in E; cbn [firstn skipn app]; [exact H|]. constructor. apply IH; auto.
    + destruct i as [|i]; cbn in E; cbn [firstn skipn app]; [injection E as _ -> _; lia|]. constructor; auto. exact (IH i E).
  - destruct (owns_in _ _ _ H _ _ _ _ E NZ) as (b & I & B & P & _).
    unfold deallocate, c_free. rewrite (proj2 (Z.eqb_neq p 0)) by lia.
    assert (X : existsb (fun b => fst b =? p) h = true) by (apply existsb_exists; exists (p, b); cbn; rewrite Z.eqb_refl; auto).
    rewrite X. eexists. split; [reflexivity|]. split; [|split].
    + clear X I B P b. revert i E. induction H as [|p0 s0 own h H IH|p0 n0 s0 b own h H IH N0 S0 B P M L D]; intros i E.
      * destruct i; discriminate.
      * destruct i as [|i]; cbn in E; [congruence|]. cbn [firstn skipn app]. constructor. apply IH; auto.
      * destruct i as [|i]; cbn in E.
        -- injection E as <- <- <-. cbn [filter fst]. rewrite Z.eqb_refl. cbn [negb firstn skipn app].
           rewrite (owns_keep align own h H); auto. intros c I. destruct (D _ _ I) as [Q|Q]; [nia|].
           destruct (In_nth_error _ _ I) as (k & K). clear - H I Q B N0 S0.
           assert (0 < c).
           { revert I. induction H as [|? ? ? ? ? IH|? ? ? ? ? ? ? IH]; intros I; [destruct I|auto|]. destruct I as [I|I]; [injection I as <- <-; nia|auto]. }
           nia.
        -- destruct (owns_in _ _ _ H _ _ _ _ E NZ) as (c & I & C & _). destruct (D _ _ I) as [Q|Q].
           ++ cbn [filter fst]. rewrite (proj2 (Z.eqb_neq p0 p)) by nia. cbn [negb firstn skipn app]. constructor; auto.
              ** apply IH; auto.
              ** intros q d J. apply filter_In in J. apply D. tauto.
           ++ cbn [filter fst]. rewrite (proj2 (Z.eqb_neq p0 p)) by nia. cbn [negb firstn skipn app]. constructor; auto.
              ** apply IH; auto.
              ** intros q d J. apply filter_In in J. apply D. tauto.
    + intros x J. apply filter_In in J. tauto.
    + intros _ c J. apply filter_In in J. cbn in J. rewrite Z.eqb_refl in J. destruct J. discriminate.
Qed.

Lemma owns_run : forall pm align ops, memalign_ok pm -> 0 < align < 2 ^ 64 ->
  (forall s n, In (ANew s n) ops -> 0 < s /\ 0 <= n) ->
  forall own h, owns align own h -> exists own' h', aruns pm align ops (own, h) = Ok (own', h') /\ owns align own' h'.
Proof.
  intros pm align ops PM HA. unfold aruns. induction ops as [|o ops IH]; intros HO own h H; cbn [fold_left]; [eauto|].
  cbn [bind]. assert (S1 : exists own' h', astep pm align (own, h) o = Ok (own', h') /\ owns align own' h').
  { destruct o as [s n|i]; cbn [astep].
    - destruct (HO s n ltac:(now left)) as (HS & HN). unfold vector_buffer.
      destruct (Z.ltb_spec (max_size align s) n); [eauto|]. destruct (Z.eqb_spec n 0) as [->|NZ].
      + do 2 eexists. split; [reflexivity|]. constructor. exact H.
      + assert (A := C101_allocate pm align s n h PM HA HS ltac:(lia)). destruct (allocate pm align s n h) as [[p h']| |]; [|eauto|contradiction].
        destruct A as (b & -> & B & P & M & L & D). do 2 eexists. split; [reflexivity|]. constructor; auto. lia.
    - destruct (nth_error own i) as [[[p n] s]|] eqn:E; [|eauto].
      destruct (owns_end align own h H i p n s E) as (h' & E' & O' & _). rewrite E'. cbn [bind]. eauto. }
  destruct S1 as (own' & h' & E & H'). rewrite E. apply IH; auto. intros s n I. apply HO. now right.
Qed.

(** Whatever tensors are made and destroyed, in whatever order: nothing
    undefined happens; the buffer of every living tensor is aligned and has
    room for its elements; the buffers of two tensors do not overlap; and the
    memory of tensors that are gone has been returned. *)
Theorem C101_buffers :
  forall (pm : memalign) (align : Z) (ops : list aop),
    memalign_ok pm -> 0 < align < 2 ^ 64 -> (forall s n, In (ANew s n) ops -> 0 < s /\ 0 <= n) ->
    exists own h, aruns pm align ops ([], []) = Ok (own, h) /\
      (forall i p n s, nth_error own i = Some (p, n, s) -> n <> 0 ->
         0 < p /\ p mod align = 0 /\ exists bytes, In (p, bytes) h /\ n * s <= bytes /\ p + bytes <= 2 ^ 64) /\
      (forall i j p n s q m r, nth_error own i = Some (p, n, s) -> nth_error own j = Some (q, m, r) -> i <> j -> n <> 0 -> m <> 0 ->
         p + n * s <= q \/ q + m * r <= p) /\
      length h = length (filter (fun o => negb (snd (fst o) =? 0)) own).
Proof.
  intros pm align ops PM HA HO. destruct (owns_run pm align ops PM HA HO [] [] (ow_nil align)) as (own & h & E & H).
  exists own, h. split; [exact E|]. split; [|split].
  - intros i p n s I NZ. destruct (owns_in _ _ _ H i p n s I NZ) as (b & J & B & P & M & L). split; [auto|]. split; [auto|].
    exists b. split; [auto|]. split; [lia|auto].
  - clear E. induction H as [|p0 s0 own h H IH|p0 n0 s0 b own h H IH N0 S0 B P M L D]; intros i j p n s q m r Ei Ej NE NZ MZ.
    + destruct i; discriminate.
    + destruct i as [|i]; cbn in Ei; [congruence|]. destruct j as [|j]; cbn in Ej; [congruence|]. eapply IH; eauto.
    + destruct i as [|i]; cbn in Ei; destruct j as [|j]; cbn in Ej.
      * congruence.
      * injection Ei as <- <- <-. destruct (owns_in _ _ _ H j q m r Ej MZ) as (c & J & C & _). destruct (D _ _ J); nia.
      * injection Ej as <- <- <-. destruct (owns_in _ _ _ H i p n s Ei NZ) as (c & J & C & _). destruct (D _ _ J); nia.
      * eapply IH; eauto.
  - clear E. induction H as [|p0 s0 own h H IH|p0 n0 s0 b own h H IH N0 S0 B P M L D]; auto.
    cbn [filter snd fst length]. rewrite (proj2 (Z.eqb_neq n0 0)) by lia. cbn [negb length]. now rewrite IH.
Qed.
Print Assumptions C101_buffers.

(** A simple heap: a new block above all others. *)
Definition heap_end (h : cheap) : Z := fold_right (fun b m => Z.max (fst b + snd b) m) 0 h.
Definition bump : memalign := fun h align size =>
  let p := (heap_end h / align + 1) * align in
  if (0 <? align) && (p + size <=? 2 ^ 64) then Some p else None.
Lemma bump_ok : memalign_ok bump.
Proof.
  intros h align size p HS E. unfold bump in E.
  destruct (Z.ltb_spec 0 align); [|discriminate]. destruct (Z.leb_spec ((heap_end h / align + 1) * align + size) (2 ^ 64)); [|discriminate].
  cbn [andb] in E. injection E as <-.
  assert (0 <= heap_end h) by (clear; unfold heap_end; induction h; cbn; lia).
  assert (heap_end h = align * (heap_end h / align) + heap_end h mod align) by (apply Z.div_mod; lia).
  assert (M := Z.mod_pos_bound (heap_end h) align ltac:(lia)). assert (0 <= heap_end h / align) by (apply Z.div_pos; lia).
  split; [nia|]. split; [apply Z.mod_mul; lia|]. split; [auto|]. intros q b I. right.
  assert (q + b <= heap_end h).
  { clear - I. induction h as [|[q' b'] h IH]; [destruct I|]. destruct I as [I|I]; cbn.
    - injection I as <- <-. lia.
    - specialize (IH I). unfold heap_end in IH. lia. }
  nia.
Qed.

(** Beyond max_size() allocate itself (unlike std::vector) does not notice that
    the number of bytes does not fit: for 2^61 + 1 doubles it obtains 64 bytes.
    And allocate(0) throws. *)
Theorem C101_wrap_refuted :
  memalign_ok bump /\ 2 ^ 61 + 1 > max_size 64 8 /\
  allocate bump 64 8 (2 ^ 61 + 1) [] = Ok (64, [(64, 64)]) /\ allocate bump 64 8 0 [] = Throw.
Proof. split; [apply bump_ok|]. vm_compute. auto. Qed.
Print Assumptions C101_wrap_refuted.

(** Three tensors, one of them empty; the first is destroyed, a fourth is made;
    one that is too large throws. *)
Example C101_case :
  let ops := [ANew 8 10; ANew 8 0; ANew 4 3; AEnd 2; ANew 8 (2 ^ 61); ANew 16 8] in
  (forall s n, In (ANew s n) ops -> 0 < s /\ 0 <= n) /\ memalign_ok bump /\
  aruns bump 64 ops ([], []) = Ok ([(384, 8, 16); (256, 3, 4); (0, 0, 8)], [(384, 192); (256, 64)]).
Proof.
  cbv zeta. split; [|split; [apply bump_ok|vm_compute; reflexivity]].
  intros s n I. cbn in I. repeat destruct I as [I|I]; try discriminate; try contradiction; injection I as <- <-; lia.
Qed.
