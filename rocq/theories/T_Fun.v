(** * T_Fun: function tensors and their views (C41). *)
From Coq Require Import List ZArith Lia Bool Permutation.
From Verif Require Import Base Heap Conc M_Addr S_Addr L_Addr M_Elt L_Elt S_Einsum M_Fun S_Fun.
Import ListNotations.
Open Scope Z_scope.

Definition small (d : Z) : Prop := 0 <= d < 2 ^ 31.

Lemma fix_index_ok : forall d k i, small d -> spells d k i -> fix_index d k = Ok i.
Proof.
  intros d k i Hd (Hi & Hk). unfold small in Hd. unfold fix_index.
  assert (E : (if k <? 0 then to_int32 (k + d) else k) = i).
  { destruct (Z.ltb_spec k 0); destruct Hk; subst; try lia. rewrite to_int32_id; lia. }
  rewrite E. rewrite Z.mod_small by lia.
  destruct (Z.leb_spec d i); [lia|]. destruct (Z.ltb_spec i 0); [lia|]. reflexivity.
Qed.

Lemma fix_index_throw : forall d k, small d -> - 2 ^ 31 <= k < 2 ^ 31 -> ~ (- d <= k < d) -> fix_index d k = Throw.
Proof.
  intros d k Hd Hk Hn. unfold small in Hd. unfold fix_index. destruct (Z.ltb_spec k 0).
  - rewrite to_int32_id by lia. destruct (Z.ltb_spec (k + d) 0); [now rewrite orb_true_r|lia].
  - rewrite Z.mod_small by lia. destruct (Z.leb_spec d k); [reflexivity|lia].
Qed.

Lemma fix_indices_ok : forall dims ks idx, Forall small dims -> spell dims ks idx -> fix_indices dims ks = Ok idx.
Proof.
  intros dims ks idx HS H. induction H as [|d ds k ks i is Hk Hs IH]; [reflexivity|].
  inversion HS; subst. cbn [fix_indices]. rewrite (fix_index_ok d k i) by auto. simpl. rewrite IH by auto. reflexivity.
Qed.

Lemma fix_indices_throw : forall dims ks, Forall small dims -> length ks = length dims ->
  Forall (fun k => - 2 ^ 31 <= k < 2 ^ 31) ks -> ~ Forall2 (fun k d => - d <= k < d) ks dims ->
  fix_indices dims ks = Throw.
Proof.
  induction dims as [|d ds IH]; intros [|k ks] HS HL HI Hn; try discriminate.
  - exfalso. apply Hn. constructor.
  - inversion HS; inversion HI; subst. cbn [fix_indices].
    destruct (Z_le_dec (- d) k); [destruct (Z_lt_dec k d)|].
    + destruct (Z.ltb_spec k 0).
      * rewrite (fix_index_ok d k (k + d)) by (auto; split; lia). simpl. rewrite IH; [reflexivity|auto|simpl in HL; lia|auto|].
        intros HF. apply Hn. constructor; auto.
      * rewrite (fix_index_ok d k k) by (auto; split; lia). simpl. rewrite IH; [reflexivity|auto|simpl in HL; lia|auto|].
        intros HF. apply Hn. constructor; auto.
    + rewrite fix_index_throw by (auto; lia). reflexivity.
    + rewrite fix_index_throw by (auto; lia). reflexivity.
Qed.

Lemma slice_dims_small : forall args dims, Forall small dims -> Forall2 arg_ok args dims -> Forall small (slice_dims args dims).
Proof.
  intros args dims HS H. induction H as [|a d args ds Ha H IH]; [constructor|]. inversion HS as [|? ? Hd HS']; subst.
  unfold small in Hd. inversion Ha; subst; simpl; auto; constructor; auto; unfold small;
    try (destruct (Z.ltb_spec hi 0); lia); lia.
Qed.

Lemma fslice_dims : forall args dims, Forall small dims -> Forall2 arg_ok args dims ->
  snd (fslice_parts dims args) = slice_dims args dims.
Proof.
  intros args dims HS H. induction H as [|a d args ds Ha H IH]; [reflexivity|]. inversion HS as [|? ? Hd HS']; subst.
  specialize (IH HS'). unfold small in Hd. cbn [fslice_parts].
  destruct (fslice_parts ds args) as ((t, o), v) eqn:E. simpl in IH. subst v.
  inversion Ha; subst; simpl; auto; f_equal; destruct (Z.ltb_spec hi 0); try lia; rewrite Z.mod_small; lia.
Qed.

Lemma apply_view_selects : forall args dims j p, selects args dims j p -> Forall small dims -> Forall2 arg_ok args dims ->
  forall b tmpl o v, fslice_parts dims args = (tmpl, o, v) -> apply_view b tmpl (combine j (combine v o)) = Ok p.
Proof.
  intros args dims j p H.
  induction H as [|k d i args ds j p Hk H IH |d x args ds j p Hx H IH
                 |lo hi e d x args ds j p He Hed Hlo Hx Hle H IH]; intros HS HA b tmpl o v E.
  - inversion E; subst. reflexivity.
  - inversion HS as [|? ? Hd HS']; inversion HA as [|? ? ? ? Ha HA']; subst. cbn [fslice_parts] in E.
    destruct (fslice_parts ds args) as ((t, o'), v') eqn:E'. injection E as <- <- <-.
    unfold small in Hd. destruct Hk as (Hi & Hk).
    assert (Et : to_int32 (if k <? 0 then d + k else k) = i).
    { destruct (Z.ltb_spec k 0); destruct Hk; subst; try lia; rewrite to_int32_id; lia. }
    rewrite Et. specialize (IH HS' HA').
    destruct (combine j (combine v' o')) as [|(x, (dd, oo)) r] eqn:Ec.
    + specialize (IH b _ _ _ eq_refl). rewrite Ec in IH.
      replace (apply_view b t []) with (Ok t) in IH by (destruct t; reflexivity). injection IH as ->. reflexivity.
    + cbn [apply_view]. destruct (Z.leb_spec 0 i); [|lia].
      specialize (IH true _ _ _ eq_refl). rewrite Ec in IH. rewrite IH. reflexivity.
  - inversion HS as [|? ? Hd HS']; inversion HA as [|? ? ? ? Ha HA']; subst. cbn [fslice_parts] in E.
    destruct (fslice_parts ds args) as ((t, o'), v') eqn:E'. injection E as <- <- <-.
    cbn [combine apply_view]. change (0 <=? -1) with false. cbv iota.
    rewrite (fix_index_ok d x x) by (auto; split; auto). simpl.
    rewrite (IH HS' HA' false _ _ _ eq_refl). simpl. rewrite to_int32_id by (unfold small in Hd; lia). rewrite Z.add_0_r. reflexivity.
  - inversion HS as [|? ? Hd HS']; inversion HA as [|? ? ? ? Ha HA']; subst. cbn [fslice_parts] in E.
    destruct (fslice_parts ds args) as ((t, o'), v') eqn:E'. injection E as <- <- <-.
    cbn [combine apply_view]. change (0 <=? -1) with false. cbv iota. unfold small in Hd.
    assert (Ed : ((if hi <? 0 then d + hi else hi) - lo) mod 2 ^ 64 = e - lo).
    { destruct (Z.ltb_spec hi 0); destruct He as [(He & ->)|(He & ->)]; try lia; rewrite Z.mod_small; lia. }
    change (Z.pow_pos 2 64) with (2 ^ 64). rewrite Ed. rewrite (fix_index_ok (e - lo) x x) by (unfold small, spells; lia). simpl.
    rewrite (IH HS' HA' false _ _ _ eq_refl). simpl.
    rewrite (Z.mod_small lo) by lia. rewrite to_int32_id by lia. f_equal. f_equal. lia.
Qed.

Section V.
  Context {T : Type}.
  Lemma fslice_fdims : forall (t : @ftensor T) args, Forall small (fdims t) -> Forall2 arg_ok args (fdims t) ->
    fdims (fslice t args) = slice_dims args (fdims t).
  Proof.
    intros t args HS HA. unfold fslice. rewrite <- (fslice_dims args (fdims t)) by auto.
    destruct (fslice_parts (fdims t) args) as ((a, b), c). reflexivity.
  Qed.
  Lemma fslice_call : forall (t : @ftensor T) args j p, Forall small (fdims t) -> Forall2 arg_ok args (fdims t) ->
    selects args (fdims t) j p -> fcall (fslice t args) j = fcall t p.
  Proof.
    intros t args j p HS HA H. unfold fslice.
    destruct (fslice_parts (fdims t) args) as ((a, b), c) eqn:E. simpl.
    rewrite (apply_view_selects _ _ _ _ H HS HA false _ _ _ E). reflexivity.
  Qed.

  Lemma chain_spec : forall argss (t : @ftensor T), Forall small (fdims t) -> chain_ok argss (fdims t) ->
    fdims (fold_left fslice argss t) = chain_dims argss (fdims t) /\ Forall small (chain_dims argss (fdims t)) /\
    forall j p, sees argss (fdims t) j p -> fcall (fold_left fslice argss t) j = fcall t p.
  Proof.
    induction argss as [|a r IH]; intros t HS HC.
    - simpl. split; auto. split; auto. intros j p ->. reflexivity.
    - destruct HC as (HA & HC). cbn [fold_left chain_dims sees].
      assert (E := fslice_fdims t a HS HA). destruct (IH (fslice t a)) as (D & S & C).
      + rewrite E. now apply slice_dims_small.
      + rewrite E. auto.
      + rewrite E in *. split; auto. split; auto. intros j p (q & Hq & Hs). rewrite (C j q) by auto. now apply fslice_call.
  Qed.

  Lemma sees_total : forall argss dims j, chain_ok argss dims -> inb j (chain_dims argss dims) ->
    exists p, inb p dims /\ sees argss dims j p.
  Proof.
    induction argss as [|a r IH]; intros dims j HC Hj.
    - exists j. split; auto. reflexivity.
    - destruct HC as (HA & HC). destruct (IH _ _ HC Hj) as (q & Hq & Hs).
      destruct (selects_total _ _ HA q Hq) as (p & Hp). exists p. split; [now destruct (selects_inb _ _ _ _ Hp)|].
      simpl. eauto.
  Qed.
End V.

(** C41.  A function tensor, a slice of it, a slice of a slice, and so on: its
    extents are those of the slice; every index (each position counted from the
    front or from the back) evaluates the function at the element the slices
    select, and every such element exists; an index out of range (of [int]
    values) throws. *)
Theorem C41_eval_partial : forall T dims (f : list Z -> T) argss, Forall small dims -> chain_ok argss dims ->
  let t := fold_left fslice argss (FBase dims f) in
  fdims t = chain_dims argss dims /\
  (forall ks j p, spell (chain_dims argss dims) ks j -> sees argss dims j p -> fget t ks = Ok (f p)) /\
  (forall j, inb j (chain_dims argss dims) -> exists p, inb p dims /\ sees argss dims j p) /\
  (forall ks, length ks = length (chain_dims argss dims) -> Forall (fun k => - 2 ^ 31 <= k < 2 ^ 31) ks ->
     ~ Forall2 (fun k d => - d <= k < d) ks (chain_dims argss dims) -> fget t ks = Throw).
Proof.
  intros T dims f argss HS HC t.
  destruct (chain_spec argss (FBase dims f) HS HC) as (D & S & C). fold t in D, C. cbn [fdims] in D, S, C.
  split; auto. split; [|split].
  - intros ks j p Hk Hs. unfold fget. rewrite D.
    assert (E : map to_int32 ks = ks).
    { clear - S Hk. induction Hk as [|d ds k ks i is (Hi & Hk) Hs IH]; auto. inversion S as [|? ? Hd Sd]; subst. unfold small in Hd. simpl.
      rewrite IH by auto. rewrite to_int32_id by lia. reflexivity. }
    rewrite E, (fix_indices_ok _ _ j) by auto. simpl. now rewrite (C j p).
  - intros j Hj. now apply sees_total.
  - intros ks HL HI Hn. unfold fget. rewrite D.
    assert (E : map to_int32 ks = ks).
    { clear - HI. induction HI; simpl; auto. rewrite IHHI, to_int32_id by lia. reflexivity. }
    rewrite E, fix_indices_throw by auto. reflexivity.
Qed.

(** Converting a function tensor (or slice) to a tensor: for every distribution
    of the indices over threads and every interleaving the new tensor holds the
    function's values. *)
Theorem C41_to_tensor : forall T (zero : T) dims (f : list Z -> T) argss g base parts (h : heap T),
  Forall small dims -> chain_ok argss dims ->
  let t := fold_left fslice argss (FBase dims f) in
  let out := tensor_ctor base (fdims t) in
  fdims t <> [] ->
  (forall j p, sees argss dims j p -> inb j (fdims t) -> g j = f p) ->
  Permutation (concat parts) (indices (fdims t)) ->
  exists ps, conv_pool t out parts = Ok ps /\
  par_spec ps (alloc_buffer zero base (data_size (fdims t)) h) (fun h' =>
    holds h' out g /\ (forall a, ~ (base <= a < base + zprod (fdims t)) -> h' a = h a)).
Proof.
  intros T zero dims f argss g base parts h HS HC t out Hne Hg HP.
  destruct (C41_eval_partial T dims f argss HS HC) as (D & E & TT & _). fold t in D, E.
  assert (Ev : forall i, inb i (fdims t) -> fget t i = Ok (g i)).
  { intros i Hi. rewrite D in Hi. destruct (TT i Hi) as (p & Hp & Hs). rewrite (E i i p); auto.
    - f_equal. symmetry. apply Hg; auto. now rewrite D.
    - now apply spell_self. }
  assert (Evs : forall l, (forall i, In i l -> inb i (fdims t)) -> evals t l = Ok (map (fun i => (i, g i)) l)).
  { induction l as [|i l IH]; intros Hl; auto. simpl. rewrite Ev by (apply Hl; now left). simpl.
    rewrite IH by (intros; apply Hl; now right). reflexivity. }
  assert (Ep : conv_pool t out parts = Ok (map (fun r => pseq r (conv_body out)) (map (map (fun i => (i, g i))) parts))).
  { assert (Hin : forall r i, In r parts -> In i r -> inb i (fdims t)).
    { intros r i Hr Hi. apply in_indices. eapply Permutation_in; [exact HP|]. apply in_concat. eauto. }
    clear - Evs Hin. induction parts as [|r ps IH]; auto. simpl. rewrite Evs by (intros; eapply Hin; [now left|auto]).
    simpl. rewrite IH; auto. intros; eapply Hin; [right; eauto|auto]. }
  rewrite Ep. eexists. split; [reflexivity|].
  assert (HF : Forall (fun d => 0 <= d) (fdims t)).
  { rewrite D. clear - f HS HC. destruct (chain_spec argss (FBase dims f) HS HC) as (_ & S & _). cbn [fdims] in S.
    eapply Forall_impl; [|exact S]. unfold small. simpl. lia. }
  assert (Hbuf : forall i, inb i (fdims t) -> base <= addr out i < base + data_size (fdims t)).
  { intros i Hi. unfold addr, out. simpl. rewrite data_size_eq by auto. assert (R := rm_range _ _ Hi). lia. }
  set (l := map (fun i => (i, g i)) (indices (fdims t))).
  assert (Mad : map (fun iv : list Z * T => addr out (fst iv)) l = map (addr out) (indices (ddims out))).
  { unfold l. rewrite map_map. reflexivity. }
  refine (par_spec_weaken _ _ _ _ _ _ (par_cells _ _ l _ (fun iv => addr out (fst iv)) (fun iv => Some (snd iv)) _ _ _ _ _)).
  - intros h' (H1 & H2). split.
    + intros i Hi. cbn [ddims out tensor_ctor] in Hi. apply (H1 (i, g i)). apply in_map_iff. exists i. split; auto. now apply in_indices.
    + intros a Ha. rewrite H2.
      * apply alloc_buffer_other. rewrite data_size_eq by auto. auto.
      * unfold owned. rewrite Mad. rewrite in_addrs. intros (i & Hi & ->). apply Ha. apply Hbuf in Hi. rewrite data_size_eq in Hi by auto. exact Hi.
  - rewrite <- concat_map. now apply Permutation_map.
  - rewrite Mad. apply addr_NoDup. apply rm_inj.
  - intros (i, v) h' Hin Hsame. apply in_map_iff in Hin. destruct Hin as (i' & E1 & Hi). inversion E1; subst i' v.
    apply in_indices in Hi. unfold conv_body, pwrite. cbn [fst snd]. 
    rewrite subscript_inb by auto. 
    assert (A : h' (addr out i) = Some zero).
    { rewrite Hsame by (left; reflexivity). apply alloc_buffer_cell. auto. }
    split.
    + cbn [psafe]. split; [reflexivity|]. split; [eauto|exact I].
    + eexists. cbn [run]. rewrite A. split; [reflexivity|]. apply upd_same.
Qed.

(** C41 fails for indices that are not [int] values: 2^32 + 1 is taken for 1. *)
Theorem C41_wide_index_refuted : forall T (f : list Z -> T),
  fget (FBase [3] f) [2 ^ 32 + 1] = Ok (f [1]).
Proof. reflexivity. Qed.

(** C41 fails for an out-of-range integer in a slice: too large, the function is
    called outside the tensor; too small, the position counts as free and the
    view's index goes there. *)
Theorem C41_slice_range_refuted : forall T (f : list Z -> T),
  fget (fslice (FBase [3; 3] f) [SInt 5; SAll]) [1] = Ok (f [5; 1]) /\
  fget (fslice (FBase [3; 3] f) [SInt (-5); SAll]) [1] = Ok (f [1; -1]).
Proof. split; reflexivity. Qed.

(** C41, Kronecker delta. *)
Theorem C41_kronecker : forall (O : Ops) n ks i j, small n -> spell [n; n] ks [i; j] ->
  fget (kronecker (O := O) n) ks = Ok (if i =? j then o1 else o0).
Proof.
  intros O n ks i j Hn Hs.
  destruct (C41_eval_partial (car O) [n; n] (fun inds => match inds with [i; j] => if i =? j then o1 else o0 | _ => o0 end) []) as (_ & E & _).
  - repeat constructor; apply Hn.
  - exact I.
  - exact (E ks [i; j] [i; j] Hs eq_refl).
Qed.

(** Case: a 4 x 5 x 6 function tensor, the slice (-1, Range{1,-1}, All), of it
    the slice (2, Range{3,6}): element (-1) is the function at (3, 3, 5). *)
Example C41_case :
  let f := fun idx => match idx with [a; b; c] => 100 * a + 10 * b + c | _ => 0 end in
  let argss := [[SInt (-1); SRange 1 (-1); SAll]; [SInt 2; SRange 3 6]] in
  Forall small [4; 5; 6] /\ chain_ok argss [4; 5; 6] /\
  spell (chain_dims argss [4; 5; 6]) [-1] [2] /\ sees argss [4; 5; 6] [2] [3; 3; 5] /\
  fget (fold_left fslice argss (FBase [4; 5; 6] f)) [-1] = Ok 335 /\
  fget (fold_left fslice argss (FBase [4; 5; 6] f)) [3] = Throw.
Proof.
  cbv zeta. split; [repeat constructor; lia|]. split; [|split; [|split]].
  - split; [|split; [|exact I]].
    + constructor; [constructor; lia|]. constructor; [apply ok_range_neg; lia|]. constructor; [constructor; lia|]. constructor.
    + simpl. constructor; [constructor; lia|]. constructor; [apply ok_range; lia|]. constructor.
  - simpl. constructor; [split; [lia|right; lia]|constructor].
  - exists [2; 5]. split.
    + apply sel_int; [split; [lia|right; lia]|]. change 3 with (1 + 2) at 1. eapply sel_range with (e := 4); try lia.
      apply sel_all; [lia|]. constructor.
    + exists [2]. split; [|reflexivity]. simpl. apply sel_int; [split; [lia|left; lia]|].
      change 5 with (3 + 2) at 1. eapply sel_range with (e := 6); try lia. constructor.
  - split; reflexivity.
Qed.

Print Assumptions C41_eval_partial.
Print Assumptions C41_to_tensor.
Print Assumptions C41_wide_index_refuted.
Print Assumptions C41_slice_range_refuted.
Print Assumptions C41_kronecker.
