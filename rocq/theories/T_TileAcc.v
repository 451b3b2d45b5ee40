(** * T_TileAcc: access to the tiles of a tiled tensor by coordinates (C132). *)
From Coq Require Import List ZArith Lia Bool.
From Verif Require Import Base Heap Conc M_Addr M_Elt M_Einsum M_Blas M_Block M_Tiled S_Addr S_Einsum S_Blas S_Block S_Tiled
  L_Addr L_Elt L_Einsum L_Blas L_Block L_Tiled T_Addr T_Tiled.
Import ListNotations.
Open Scope Z_scope.

Lemma wrap_spell : forall sizes ks, length ks = length sizes ->
  match wrap_coords sizes ks with
  | Some c => spell (map (fun s => Z.of_nat (length s)) sizes) ks c
  | None => ~ (exists c, spell (map (fun s => Z.of_nat (length s)) sizes) ks c)
  end.
Proof.
  induction sizes as [|s ss IH]; intros [|k r] H; try discriminate; simpl; [constructor|].
  set (n := Z.of_nat (length s)). set (x := if k <? 0 then k + n else k).
  destruct ((x >=? n) || (x <? 0)) eqn:E.
  - intros (c & Hc). inversion Hc as [|d ds k' ks' i is (Hi & Hk) Hc']; subst. unfold x in E.
    destruct Hk as [->| ->].
    + destruct (Z.ltb_spec i 0); [lia|]. destruct (Z.geb_spec i n); [lia|]. destruct (Z.ltb_spec i 0); [lia|]. discriminate.
    + destruct (Z.ltb_spec (i - n) 0); [|lia]. replace (i - n + n) with i in E by lia.
      destruct (Z.geb_spec i n); [lia|]. destruct (Z.ltb_spec i 0); [lia|]. discriminate.
  - apply orb_false_iff in E as (E1 & E2). rewrite Z.geb_leb in E1. apply Z.leb_gt in E1. apply Z.ltb_ge in E2.
    assert (Hx : 0 <= x < n) by lia.
    assert (Hk : k = x \/ k = x - n) by (unfold x; destruct (k <? 0); lia).
    specialize (IH r ltac:(simpl in H; lia)). destruct (wrap_coords ss r) as [cs|].
    + constructor; [split; assumption|assumption].
    + intros (c & Hc). inversion Hc as [|d ds k' ks' i is _ Hc']; subst. apply IH. eauto.
Qed.
Lemma wrap_eq : forall sizes ks c, spell (map (fun s => Z.of_nat (length s)) sizes) ks c -> wrap_coords sizes ks = Some c.
Proof.
  intros sizes ks c H. assert (HL : length ks = length sizes).
  { remember (map (fun s : list Z => Z.of_nat (length s)) sizes) as l eqn:E. revert sizes E.
    induction H; intros [|s ss] E; try discriminate; cbn [length]; auto. injection E as _ E. f_equal. auto. }
  assert (W := wrap_spell sizes ks HL). destruct (wrap_coords sizes ks) as [c'|].
  - f_equal. rewrite <- (spell_normal _ _ _ W), <- (spell_normal _ _ _ H). reflexivity.
  - elim W. eauto.
Qed.
Lemma spell_in : forall dims ks c, spell dims ks c -> inb c dims.
Proof. intros dims ks c H. induction H as [|d ds k ks i is (Hi & _) _ IH]; [constructor|]. apply inb_cons. auto. Qed.

(** C132.  The tile with the coordinates [ks] of a constant tensor: for every
    spelling of a position in the grid the tile there, with the extents of the
    position and the elements of the tensor; an exception if there is none, or
    if the coordinates are outside. *)
Theorem C132_const_tile : forall (O : Ops) (h : heap (car O)) t f ks, tt_ok t -> tt_holds h t f -> length ks = length (tt_sizes t) ->
  (forall c d, spell (grid t) ks c -> find_tile c (tt_tiles t) = Some d ->
     const_tile t ks = Ok d /\ ddims d = tile_dims (tt_sizes t) c /\
     (forall idx j, tile_pos (tt_sizes t) idx c j -> h (addr d j) = Some (f idx))) /\
  (forall c, spell (grid t) ks c -> find_tile c (tt_tiles t) = None -> const_tile t ks = Throw) /\
  (~ (exists c, spell (grid t) ks c) -> const_tile t ks = Throw).
Proof.
  intros O h t f ks Hok HH HL. unfold const_tile. split; [|split].
  - intros c d Hs Hf. rewrite (wrap_eq _ _ _ Hs), Hf. split; [reflexivity|]. split.
    + destruct (ok_tile t Hok c d Hf) as (_ & ->). reflexivity.
    + intros idx j P. assert (H := HH idx c j P). now rewrite Hf in H.
  - intros c Hs Hf. now rewrite (wrap_eq _ _ _ Hs), Hf.
  - intros Hn. assert (W := wrap_spell _ ks HL). destruct (wrap_coords (tt_sizes t) ks) as [c|]; [|reflexivity]. elim Hn. eauto.
Qed.

(** The tile of a tensor that may change: one that exists is given as it is;
    a missing one is created, with zeros, and nothing else changes; coordinates
    outside give an exception. *)
Theorem C132_tile : forall (O : Ops) al (h : heap (car O)) t f ks, al_ok al -> tt_ok t -> tt_holds h t f -> length ks = length (tt_sizes t) ->
  (forall c d, spell (grid t) ks c -> find_tile c (tt_tiles t) = Some d -> tile al ks (t, h) = Ok (d, (t, h))) /\
  (forall c, spell (grid t) ks c -> find_tile c (tt_tiles t) = None ->
     (al h (data_size (tile_dims (tt_sizes t) c)) = None /\ tile al ks (t, h) = Throw) \/
     exists d t' h', tile al ks (t, h) = Ok (d, (t', h')) /\ tt_ok t' /\ tt_holds h' t' f /\ tt_sizes t' = tt_sizes t /\
       (forall c', find_tile c' (tt_tiles t') = if list_eq_dec Z.eq_dec c' c then Some d else find_tile c' (tt_tiles t)) /\
       ddims d = tile_dims (tt_sizes t) c /\
       (forall j, inb j (ddims d) -> h (addr d j) = None /\ h' (addr d j) = Some o0) /\
       (forall a, ~ cell d a -> h' a = h a)) /\
  (~ (exists c, spell (grid t) ks c) -> tile al ks (t, h) = Throw).
Proof.
  intros O al h t f ks Hal Hok HH HL. unfold tile. cbn [fst]. split; [|split].
  - intros c d Hs Hf. now rewrite (wrap_eq _ _ _ Hs), Hf.
  - intros c Hs Hf. rewrite (wrap_eq _ _ _ Hs), Hf. assert (Ic := spell_in _ _ _ Hs). unfold grid in Ic.
    destruct (add_tile_spec O al h t f c Hal Hok HH Ic Hf) as [H|(d & t' & h' & E & O1 & H1 & S1 & F1 & F2 & N1 & N2)]; [left; exact H|right].
    exists d, t', h'. split; [exact E|]. split; [exact O1|]. split; [exact H1|]. split; [exact S1|].
    destruct (ok_tile t' O1 c d F1) as (_ & Ed). rewrite S1 in Ed.
    assert (Dd : ddims d = tile_dims (tt_sizes t) c) by (rewrite Ed; reflexivity).
    split; [|split; [exact Dd|split; [|exact N2]]].
    + intros c'. destruct (list_eq_dec Z.eq_dec c' c) as [->|Hne]; auto.
    + intros j Hj. split; [apply N1; exists j; auto|]. rewrite Dd in Hj. destruct (tile_pos_exists _ _ _ Ic Hj) as (idx & P).
      assert (Q := HH idx c j P). rewrite Hf in Q. assert (Q' := H1 idx c j). rewrite S1 in Q'. specialize (Q' P). rewrite F1 in Q'. now rewrite Q', Q.
  - intros Hn. assert (W := wrap_spell _ ks HL). destruct (wrap_coords (tt_sizes t) ks) as [c|]; [|reflexivity]. elim Hn. eauto.
Qed.

(** Case: the last tile of a 2 x 1 grid, by two spellings, after an element of
    it has been written. *)
Example C132_case : exists p t h d, trun (O:=ZOps) (first_fit 50) [TWrite [-1; 0] 4] (tt_ctor [[1; 2]; [3]], fun _ => None) = Ok (p, (t, h)) /\
  const_tile t [-1; -1] = Ok d /\ const_tile t [1; 0] = Ok d /\ h (addr d [1; 0]) = Some 4 /\ const_tile t [0; 0] = Throw /\ const_tile t [2; 0] = Throw /\
  const_tile t [-3; 0] = Throw /\ spell (grid t) [-1; -1] [1; 0].
Proof.
  do 4 eexists. split; [vm_compute; reflexivity|]. repeat split; try (vm_compute; reflexivity).
  repeat constructor; vm_compute; auto; congruence.
Qed.

Print Assumptions C132_const_tile.
Print Assumptions C132_tile.

(** ** C31, tensors cut into different numbers of tiles: both dot products throw. *)
Theorem C31_dot_rejects :
  forall (O : Ops) (A B : tt) (order : list Z) (h : heap (car O)),
    map (@length Z) (tt_sizes A) <> map (@length Z) (tt_sizes B) ->
    tt_dot A B order h = Throw /\ tt_true_dot A B order h = Throw.
Proof.
  intros O A B order h HN.
  assert (NE : grid A <> grid B).
  { intro E. apply HN. unfold grid in E. revert E. generalize (tt_sizes B). generalize (tt_sizes A).
    induction l as [|x l IH]; intros [|y m] E; cbn [map] in *; try discriminate; [reflexivity|].
    injection E as E1 E2. f_equal; [lia|]. now apply IH. }
  unfold tt_dot, tt_true_dot. destruct (list_eq_dec Z.eq_dec (grid A) (grid B)); [contradiction|].
  split; reflexivity.
Qed.
Print Assumptions C31_dot_rejects.

Example C31_rejects_case :
  map (@length Z) (tt_sizes (tt_ctor [[2; 1]; [1; 2]])) <> map (@length Z) (tt_sizes (tt_ctor [[3]; [1; 2]])).
Proof. vm_compute. discriminate. Qed.
