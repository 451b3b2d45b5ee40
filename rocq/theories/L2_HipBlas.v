(** * L2_HipBlas: the common beginning and end of the routines with four blocks. *)
From Coq Require Import Ascii List ZArith Lia Bool.
From Verif Require Import Base Heap Conc M_Addr M_Einsum L_Einsum M_Blas S_Blas L_Blas M_Lapack M_GpuLin Num.
From Verif Require Import M_HipBlas S_HipBlas L_HipBlas.
Import ListNotations.
Open Scope Z_scope.

Section Frame.
  Context {O : Ops}.
  Notation T := (car O).
  Implicit Types (host dev d : heap T) (junk : Z -> T).

  Definition inn (p n z : Z) : Prop := p <= z < p + n.
  Definition far (p n q m : Z) : Prop := p <> q /\ forall z, inn p n z -> ~ inn q m z.

  Lemma far_apart : forall p n q m, apart (p, n) (q, m) <-> far p n q m.
  Proof. intros. unfold apart, far, in_block, inn. cbn [fst snd]. tauto. Qed.
  Lemma far_sym : forall p n q m, far p n q m -> far q m p n.
  Proof. intros p n q m (A & B). split; [auto|]. intros z Hq Hp. exact (B z Hp Hq). Qed.

  Record blocks4 (p1 s1 p2 s2 p3 s3 p4 s4 : Z) : Prop := {
    b12 : far p1 s1 p2 s2; b13 : far p1 s1 p3 s3; b14 : far p1 s1 p4 s4;
    b23 : far p2 s2 p3 s3; b24 : far p2 s2 p4 s4; b34 : far p3 s3 p4 s4 }.

  Lemma placed_blocks4 : forall dev live p1 s1 p2 s2 p3 s3 p4 s4,
    placed dev live [(p1, s1); (p2, s2); (p3, s3); (p4, s4)] -> blocks4 p1 s1 p2 s2 p3 s3 p4 s4.
  Proof.
    intros dev live p1 s1 p2 s2 p3 s3 p4 s4 (P & _ & _). inversion P as [|? ? P1 P2]; subst.
    inversion P1 as [|? ? A12 P1']; subst. inversion P1' as [|? ? A13 P1'']; subst. inversion P1'' as [|? ? A14 _]; subst.
    inversion P2 as [|? ? P3 P4]; subst. inversion P3 as [|? ? A23 P3']; subst. inversion P3' as [|? ? A24 _]; subst.
    inversion P4 as [|? ? P5 _]; subst. inversion P5 as [|? ? A34 _]; subst.
    constructor; apply far_apart; assumption.
  Qed.

  Lemma inn_dec : forall p n z, {inn p n z} + {~ inn p n z}.
  Proof. intros. unfold inn. destruct (Z_le_gt_dec p z); [destruct (Z_lt_ge_dec z (p + n))|]; [left|right|right]; lia. Qed.
  Lemma wt : forall p n z, inn p n z -> within p n z = true.
  Proof. intros. now apply within_iff. Qed.
  Lemma wf : forall p n z, ~ inn p n z -> within p n z = false.
  Proof. intros. now apply within_f. Qed.

  Lemma setup4 : forall junk host dev live reg p1 s1 p2 s2 p3 s3 p4 s4 a1 a2,
    0 <= s1 -> 0 <= s2 -> 0 <= s3 -> 0 <= s4 -> covers host a1 s1 -> covers host a2 s2 ->
    blocks4 p1 s1 p2 s2 p3 s3 p4 s4 ->
    exists d, (forall l, hrun never 0
        (CMalloc p1 s1 junk :: CMalloc p2 s2 junk :: CMalloc p3 s3 junk :: CMalloc p4 s4 junk ::
         CToDev p1 a1 s1 :: CToDev p2 a2 s2 :: l) (mkH host dev live reg None None)
      = hrun never 6 l (mkH host d ((p4, s4) :: (p3, s3) :: (p2, s2) :: (p1, s1) :: live) reg None None)) /\
      (forall z, inn p1 s1 z -> d z = host (a1 + (z - p1))) /\
      (forall z, inn p2 s2 z -> d z = host (a2 + (z - p2))) /\
      (forall z, inn p3 s3 z -> exists x, d z = Some x) /\
      (forall z, inn p4 s4 z -> exists x, d z = Some x) /\
      (forall z, ~ inn p1 s1 z -> ~ inn p2 s2 z -> ~ inn p3 s3 z -> ~ inn p4 s4 z -> d z = dev z).
  Proof.
    intros junk host dev live reg p1 s1 p2 s2 p3 s3 p4 s4 a1 a2 H1 H2 H3 H4 C1 C2 [B12 B13 B14 B23 B24 B34].
    set (d0 := fun z => if within p4 s4 z then Some (junk z) else if within p3 s3 z then Some (junk z) else
                        if within p2 s2 z then Some (junk z) else if within p1 s1 z then Some (junk z) else dev z).
    assert (K1 : covers d0 p1 s1). { intros z Hz. unfold d0. rewrite (wt p1 s1) by exact Hz.
      destruct (within p4 s4 z), (within p3 s3 z), (within p2 s2 z); eauto. }
    destruct (hcopy_ok host d0 p1 a1 s1 C1 K1) as (d1 & E1 & X1 & Y1).
    assert (K2 : covers d1 p2 s2). { intros z Hz. rewrite Y1 by (intros X; exact (proj2 B12 z X Hz)). unfold d0.
      rewrite (wt p2 s2) by exact Hz. destruct (within p4 s4 z), (within p3 s3 z); eauto. }
    destruct (hcopy_ok host d1 p2 a2 s2 C2 K2) as (d2 & E2 & X2 & Y2).
    exists d2. split.
    { intros l. rewrite !st_malloc by assumption. cbn [hrun hstep never h_host h_dev].
      fold d0. rewrite E1. cbn [bind]. cbn [with_dev h_host h_dev h_live h_reg h_val h_info]. rewrite E2. reflexivity. }
    split. { intros z Hz. rewrite Y2 by (exact (proj2 B12 z Hz)). apply X1. exact Hz. }
    split. { intros z Hz. apply X2. exact Hz. }
    split. { intros z Hz. rewrite Y2 by (intros X; exact (proj2 B23 z X Hz)). rewrite Y1 by (intros X; exact (proj2 B13 z X Hz)).
      unfold d0. rewrite (wt p3 s3) by exact Hz. destruct (within p4 s4 z); eauto. }
    split. { intros z Hz. rewrite Y2 by (intros X; exact (proj2 B24 z X Hz)). rewrite Y1 by (intros X; exact (proj2 B14 z X Hz)).
      unfold d0. rewrite (wt p4 s4) by exact Hz. eauto. }
    intros z N1 N2 N3 N4. rewrite Y2 by exact N2. rewrite Y1 by exact N1. unfold d0.
    rewrite !wf by assumption. reflexivity.
  Qed.

  (** Free the four blocks. *)
  Lemma free4 : forall k host d dev live reg p1 s1 p2 s2 p3 s3 p4 s4 v i,
    blocks4 p1 s1 p2 s2 p3 s3 p4 s4 ->
    (forall z, inn p1 s1 z \/ inn p2 s2 z \/ inn p3 s3 z \/ inn p4 s4 z -> dev z = None) ->
    (forall z, ~ inn p1 s1 z -> ~ inn p2 s2 z -> ~ inn p3 s3 z -> ~ inn p4 s4 z -> d z = dev z) ->
    exists d', hrun never k [CFree p1; CFree p2; CFree p3; CFree p4]
        (mkH host d ((p4, s4) :: (p3, s3) :: (p2, s2) :: (p1, s1) :: live) reg v i)
      = HDone (mkH host d' live reg v i) /\ same d' dev.
  Proof.
    intros k host d dev live reg p1 s1 p2 s2 p3 s3 p4 s4 v i [B12 B13 B14 B23 B24 B34] F N.
    destruct B12 as (B12 & _), B13 as (B13 & _), B14 as (B14 & _), B23 as (B23 & _), B24 as (B24 & _), B34 as (B34 & _).
    eexists. split.
    { erewrite st_free.
      2:{ apply drop_tl; [auto|]. apply drop_tl; [auto|]. apply drop_tl; [auto|]. apply drop_hd. }
      erewrite st_free. 2:{ apply drop_tl; [auto|]. apply drop_tl; [auto|]. apply drop_hd. }
      erewrite st_free. 2:{ apply drop_tl; [auto|]. apply drop_hd. }
      erewrite st_free. 2:{ apply drop_hd. } cbn [hrun]. reflexivity. }
    intros z. destruct (inn_dec p1 s1 z) as [I|I1].
    { rewrite F by tauto. destruct (within p4 s4 z), (within p3 s3 z), (within p2 s2 z); auto. rewrite wt by exact I. auto. }
    destruct (inn_dec p2 s2 z) as [I|I2].
    { rewrite F by tauto. destruct (within p4 s4 z), (within p3 s3 z); auto. rewrite (wt p2) by exact I. auto. }
    destruct (inn_dec p3 s3 z) as [I|I3].
    { rewrite F by tauto. destruct (within p4 s4 z); auto. rewrite (wt p3) by exact I. auto. }
    destruct (inn_dec p4 s4 z) as [I|I4].
    { rewrite F by tauto. rewrite (wt p4) by exact I. auto. }
    rewrite !wf by assumption. apply N; assumption.
  Qed.

  (** Copy back the block [p3] and free. *)
  Lemma finish4 : forall k host d dev live reg p1 s1 p2 s2 p3 s3 p4 s4 a3 v i,
    blocks4 p1 s1 p2 s2 p3 s3 p4 s4 ->
    (forall z, inn p1 s1 z \/ inn p2 s2 z \/ inn p3 s3 z \/ inn p4 s4 z -> dev z = None) ->
    (forall z, ~ inn p1 s1 z -> ~ inn p2 s2 z -> ~ inn p3 s3 z -> ~ inn p4 s4 z -> d z = dev z) ->
    covers host a3 s3 -> covers d p3 s3 ->
    exists h' d', hrun never k (CToHost a3 p3 s3 :: [CFree p1; CFree p2; CFree p3; CFree p4])
        (mkH host d ((p4, s4) :: (p3, s3) :: (p2, s2) :: (p1, s1) :: live) reg v i)
      = HDone (mkH h' d' live reg v i) /\ same d' dev /\
      (forall o, 0 <= o < s3 -> h' (a3 + o) = d (p3 + o)) /\ (forall z, ~ inn a3 s3 z -> h' z = host z).
  Proof.
    intros k host d dev live reg p1 s1 p2 s2 p3 s3 p4 s4 a3 v i B F N CH CD.
    destruct (st_tohost k a3 p3 s3 [CFree p1; CFree p2; CFree p3; CFree p4] host d
                ((p4, s4) :: (p3, s3) :: (p2, s2) :: (p1, s1) :: live) reg v i CH CD) as (h' & E & X & Y).
    destruct (free4 (S k) h' d dev live reg p1 s1 p2 s2 p3 s3 p4 s4 v i B F N) as (d' & E' & Z').
    exists h', d'. rewrite E, E'. split; [reflexivity|]. split; [exact Z'|]. split; [|exact Y].
    intros o Ho. rewrite X by lia. f_equal. lia.
  Qed.

  (** The optional copy of the third array. *)
  Lemma copy3 : forall (c : bool) host d live reg p3 s3 a3 l,
    covers host a3 s3 -> covers d p3 s3 ->
    exists dL k, hrun never 7 ((if c then [CToDev p3 a3 s3] else []) ++ l) (mkH host d live reg None None)
      = hrun never k l (mkH host dL live reg None None) /\
      (c = true -> forall z, inn p3 s3 z -> dL z = host (a3 + (z - p3))) /\
      covers dL p3 s3 /\ (forall z, ~ inn p3 s3 z -> dL z = d z).
  Proof.
    intros c host d live reg p3 s3 a3 l CH CD. destruct c.
    - destruct (st_todev 7 p3 a3 s3 l host d live reg None None CH CD) as (dL & E & X & Y).
      exists dL, 8%nat. cbn [app]. split; [exact E|]. split; [auto|]. split; [|exact Y].
      intros z Hz. rewrite X by exact Hz. apply CH. lia.
    - exists d, 7%nat. split; [reflexivity|]. split; [discriminate|]. auto.
  Qed.
End Frame.
