(** * L_Decomp: lemmas for C70 and C71. *)
From Coq Require Import List ZArith Lia Bool Permutation.
From Verif Require Import Base Heap Conc M_Addr S_Addr L_Addr M_Elt L_Elt M_Einsum S_Einsum L_Einsum S_Blas L_Blas
  M_Red L_Red M_Decomp S_Decomp.
Import ListNotations.
Open Scope Z_scope.

Lemma ctor_cell : forall p dims a, Forall (fun d => 0 <= d) dims ->
  cell (tensor_ctor p dims) a <-> p <= a < p + zprod dims.
Proof.
  intros p dims a HN. unfold cell, addr. cbn [tensor_ctor dbase dstrides ddims]. split.
  - intros (i & Hi & ->). assert (R := rm_range _ _ Hi). lia.
  - intros Ha. exists (sentinel_to_indices (a - p) (row_major_strides dims)). split.
    + apply rm_sti_inb; auto. lia.
    + rewrite rm_sti_ordinal by (auto; lia). lia.
Qed.

Lemma forM_nested : forall X Y St (m : X -> list Y) (f : X -> Y -> St -> res St) l s,
  forM l (fun x s => forM (m x) (f x) s) s = forM (flat_map (fun x => map (pair x) (m x)) l) (fun p => f (fst p) (snd p)) s.
Proof.
  intros X Y St m f. induction l as [|x l IH]; intros s; simpl; auto.
  rewrite forM_app.
  assert (E : forall r s, forM (map (pair x) r) (fun p => f (fst p) (snd p)) s = forM r (f x) s).
  { induction r as [|y r IHr]; intros s0; simpl; auto. destruct (f x y s0); simpl; auto. }
  rewrite E. destruct (forM (m x) (f x) s); simpl; auto.
Qed.

Section D.
  Context {O : Ops} (HR : is_ring O).
  Notation T := (car O).
  Add Ring R : (ir_rt O HR).

  Lemma new_tensor_spec : forall pl dims (h : heap T), alloc_ok pl -> dims <> [] -> Forall (fun d => 0 <= d) dims ->
    (new_tensor pl dims h = Throw /\ refuses pl) \/
    exists p h1, new_tensor pl dims h = Ok (tensor_ctor p dims, h1) /\
      (forall a, cell (tensor_ctor p dims) a -> h a = None) /\
      (forall a, cell (tensor_ctor p dims) a -> h1 a = Some o0) /\
      (forall a, ~ cell (tensor_ctor p dims) a -> h1 a = h a).
  Proof.
    intros pl dims h Hpl Hne HN. unfold new_tensor. destruct (pl h (data_size dims)) as [p|] eqn:E.
    - right. exists p, (alloc_buffer o0 p (data_size dims) h). split; auto. rewrite data_size_eq in * by auto.
      split; [|split]; intros a Ha; rewrite ctor_cell in Ha by auto.
      + replace a with (p + (a - p)) by lia. apply (Hpl h (zprod dims)); auto. lia.
      + apply alloc_buffer_cell. auto.
      + apply alloc_buffer_other. auto.
    - left. split; auto. exists h, (data_size dims). auto.
  Qed.

  Lemma delete_spec : forall p dims (h : heap T), dims <> [] -> Forall (fun d => 0 <= d) dims ->
    (forall a, cell (tensor_ctor p dims) a -> h a <> None) ->
    exists h', delete (tensor_ctor p dims) h = Ok h' /\
      (forall a, cell (tensor_ctor p dims) a -> h' a = None) /\ (forall a, ~ cell (tensor_ctor p dims) a -> h' a = h a).
  Proof.
    intros p dims h Hne HN Hall. unfold delete. cbn [tensor_ctor ddims dbase]. rewrite data_size_eq by auto.
    assert (G : forall l (h : heap T), NoDup l -> (forall k, In k l -> h (p + k) <> None) ->
      exists h', forM l (fun k h => match h (p + k) with Some _ => Ok (fun a => if a =? p + k then None else h a) | None => UB end) h = Ok h' /\
        (forall k, In k l -> h' (p + k) = None) /\ (forall a, ~ In (a - p) l -> h' a = h a)).
    { induction l as [|k l IH]; intros g Hd Hg; simpl.
      - exists g. split; auto. split; auto. intros ? [].
      - inversion Hd as [|? ? Hk Hd']; subst. assert (Gk := Hg k (or_introl eq_refl)).
        destruct (g (p + k)) eqn:Ek; [|congruence]. simpl.
        destruct (IH (fun a => if a =? p + k then None else g a) Hd') as (h' & E & V & F).
        { intros j Hj. destruct (Z.eqb_spec (p + j) (p + k)); [assert (j = k) by lia; subst; contradiction|]. apply Hg. now right. }
        exists h'. split; auto. split.
        + intros j [<-|Hj]; auto. rewrite F by (replace (p + k - p) with k by lia; auto). now rewrite Z.eqb_refl.
        + intros a Ha. rewrite F by tauto. destruct (Z.eqb_spec a (p + k)); auto. exfalso. apply Ha. left. lia. }
    destruct (G (zrange (zprod dims)) h (zrange_NoDup _)) as (h' & E & V & F).
    { intros k Hk. apply zrange_in in Hk. apply Hall. rewrite ctor_cell by auto. lia. }
    exists h'. split; auto. split; intros a Ha; rewrite ctor_cell in Ha by auto.
    - replace a with (p + (a - p)) by lia. apply V. apply zrange_in. lia.
    - apply F. rewrite zrange_in. lia.
  Qed.

  Lemma copy_into_spec : forall dst src (h : heap T) f, ddims dst = ddims src -> inj dst -> holds h src f ->
    (forall a, cell dst a -> h a <> None) -> (forall a, cell dst a -> ~ cell src a) ->
    exists h', copy_into dst src h = Ok h' /\ holds h' dst f /\ (forall a, ~ cell dst a -> h' a = h a).
  Proof.
    intros dst src h f ED HI Hs Hd Hdisj. unfold copy_into.
    destruct (forM_cells _ T (indices (ddims src)) (addr dst) f (fun idx h => v <- tget h src idx ;; tset h dst idx v) h) as (h' & E & V & F).
    - rewrite <- ED. now apply addr_NoDup.
    - intros idx h' Hi Hsame. rewrite <- ED in Hsame. apply in_indices in Hi.
      assert (Hid : inb idx (ddims dst)) by (now rewrite ED).
      unfold tget, tset. rewrite !subscript_inb by auto.
      assert (V1 : h' (addr src idx) = Some (f idx)).
      { rewrite Hsame; [apply Hs; auto|]. right. rewrite in_addrs. intros C. apply (Hdisj _ C). exists idx. auto. }
      rewrite (rd_some _ _ _ _ V1). cbn [bind].
      assert (V2 : h' (addr dst idx) <> None).
      { rewrite Hsame by (left; auto). apply Hd. exists idx. auto. }
      destruct (h' (addr dst idx)) eqn:E2; [|congruence]. now rewrite (wr_some _ _ _ _ _ E2).
    - exists h'. split; auto. split.
      + intros idx Hi. apply V. apply in_indices. now rewrite <- ED.
      + intros a Ha. apply F. rewrite <- ED, in_addrs. auto.
  Qed.

  (** A loop adding a value to one element per iteration. *)
  Lemma acc_loop : forall X (tgt : X -> list Z) (val : X -> T) new (h0 : heap T) body, inj new ->
    forall l h f,
    (forall x, In x l -> inb (tgt x) (ddims new)) -> holds h new f -> (forall a, ~ cell new a -> h a = h0 a) ->
    (forall x h' t, In x l -> (forall a, ~ cell new a -> h' a = h0 a) -> h' (addr new (tgt x)) = Some t ->
       body x h' = Ok (upd h' (addr new (tgt x)) (oadd t (val x)))) ->
    exists h', forM l body h = Ok h' /\
      holds h' new (fun t => oadd (f t) (lsum l (fun x => if list_eq_dec Z.eq_dec (tgt x) t then val x else o0))) /\
      (forall a, ~ cell new a -> h' a = h0 a).
  Proof.
    intros X tgt val new h0 body HI. induction l as [|x l IH]; intros h f Ht Hh Hf Hb; cbn [forM].
    - exists h. split; auto. split; auto. intros idx Hi. rewrite Hh by auto. f_equal. simpl. ring.
    - assert (Tx := Ht x (or_introl eq_refl)).
      rewrite (Hb x h (f (tgt x))) by (auto; now left). cbn [bind].
      destruct (IH (upd h (addr new (tgt x)) (oadd (f (tgt x)) (val x)))
                   (fun t => if list_eq_dec Z.eq_dec (tgt x) t then oadd (f t) (val x) else f t)) as (h' & E & V & F).
      + intros; apply Ht; now right.
      + intros idx Hi. destruct (list_eq_dec Z.eq_dec (tgt x) idx) as [<-|Ne]; [apply upd_same|].
        rewrite upd_other; auto.
      + intros a Ha. rewrite upd_other; auto. intros ->. apply Ha. exists (tgt x). auto.
      + intros; apply Hb; auto. now right.
      + exists h'. split; auto. split; auto. intros idx Hi. rewrite V by auto. f_equal.
        change (lsum (x :: l) ?g) with (oadd (g x) (lsum l g)). cbv beta.
        destruct (list_eq_dec Z.eq_dec (tgt x) idx); ring.
  Qed.

  (** The elements that the loop over all positions adds up at one position. *)
  Lemma mode_sum : forall pd d qd pt n0 qt ext (v : list Z -> Z -> T),
    inb pt pd -> inb qt qd -> 0 <= n0 < ext ->
    lsum (flat_map (fun src => map (pair src) (zrange ext)) (indices (pd ++ d :: qd)))
      (fun p => if list_eq_dec Z.eq_dec (set_at (length pd) (snd p) (fst p)) (pt ++ n0 :: qt) then v (fst p) (snd p) else o0) =
    zsum d (fun k => v (pt ++ k :: qt) n0).
  Proof.
    intros pd d qd pt n0 qt ext v Hp Hq Hn.
    assert (Lp := inb_length _ _ Hp).
    rewrite (lsum_flat_map O HR).
    set (i := length pd).
    assert (Split : forall src, inb src (pd ++ d :: qd) -> exists a k b, src = a ++ k :: b /\ length a = i /\ inb a pd /\ 0 <= k < d /\ inb b qd).
    { intros src Hs. assert (L := inb_length _ _ Hs). rewrite app_length in L. simpl in L.
      exists (firstn i src), (nth i src 0), (skipn (S i) src).
      assert (E : src = firstn i src ++ nth i src 0 :: skipn (S i) src).
      { clear - L. unfold i. revert src L. induction (length pd) as [|m IH]; intros [|x src] L; simpl in *; try lia; auto.
        f_equal. apply IH. lia. }
      assert (L1 : length (firstn i src) = i) by (rewrite firstn_length; unfold i; lia).
      rewrite E in Hs. apply inb_app_inv in Hs; [|exact L1]. destruct Hs as (H1 & H2). apply inb_cons in H2. tauto. }
    assert (Inner : forall src, In src (indices (pd ++ d :: qd)) ->
      lsum (map (pair src) (zrange ext)) (fun p => if list_eq_dec Z.eq_dec (set_at i (snd p) (fst p)) (pt ++ n0 :: qt) then v (fst p) (snd p) else o0) =
      if (if list_eq_dec Z.eq_dec (set_at i n0 src) (pt ++ n0 :: qt) then true else false) then v src n0 else o0).
    { intros src Hs. apply in_indices in Hs. destruct (Split src Hs) as (a & k & b & -> & La & _).
      rewrite (lsum_map O). cbn [fst snd].
      rewrite (lsum_single O HR _ (zrange ext) n0 _ (zrange_NoDup _)).
      - destruct (list_eq_dec Z.eq_dec (set_at i n0 (a ++ k :: b)) (pt ++ n0 :: qt)); auto.
      - now apply zrange_in.
      - intros n _ Hne. destruct (list_eq_dec Z.eq_dec (set_at i n (a ++ k :: b)) (pt ++ n0 :: qt)) as [E|]; auto.
        exfalso. rewrite <- La, set_at_app in E.
        assert (E2 := f_equal (fun l => nth i l 0) E). cbv beta in E2.
        rewrite app_nth2, app_nth2 in E2 by lia. rewrite La, Lp in E2. fold i in E2. rewrite Nat.sub_diag in E2. simpl in E2. auto. }
    rewrite (lsum_ext O _ _ _ _ Inner).
    rewrite <- (lsum_filter_ite O HR _ (indices (pd ++ d :: qd))
       (fun src => if list_eq_dec Z.eq_dec (set_at i n0 src) (pt ++ n0 :: qt) then true else false) (fun src => v src n0)).
    unfold zsum. rewrite <- (lsum_map O _ _ (fun k => pt ++ k :: qt) (zrange d) (fun src => v src n0)).
    apply (lsum_perm O HR). apply NoDup_Permutation.
    - apply NoDup_filter, indices_NoDup.
    - assert (N := zrange_NoDup d). revert N. generalize (zrange d). induction l as [|x l IH]; intros N; simpl; constructor; inversion N; subst; auto.
      intros Hin. apply in_map_iff in Hin as (y & E & Hy). apply app_inv_head in E. congruence.
    - intros src. rewrite filter_In, in_indices, in_map_iff. split.
      + intros (Hs & E). destruct (Split src Hs) as (a & k & b & -> & La & Ha & Hk & Hb).
        destruct (list_eq_dec Z.eq_dec (set_at i n0 (a ++ k :: b)) (pt ++ n0 :: qt)) as [E'|]; [|discriminate].
        rewrite <- La, set_at_app in E'. exists k. split; [|now apply zrange_in].
        assert (a = pt /\ b = qt).
        { clear - E' La Lp. unfold i in La. rewrite <- Lp in La. clear Lp. revert pt La E'. induction a as [|x a IH]; intros [|y pt] La E; simpl in *; try discriminate.
          - injection E as ->. auto.
          - injection E as -> E. destruct (IH pt) as (-> & ->); auto. }
        destruct H; subst. reflexivity.
      + intros (k & <- & Hk). apply zrange_in in Hk. split.
        * apply inb_app; auto. apply inb_cons. auto.
        * unfold i. rewrite <- Lp, set_at_app. destruct (list_eq_dec Z.eq_dec (pt ++ n0 :: qt) (pt ++ n0 :: qt)); congruence.
  Qed.

  (** One element of a factor matrix, as used in one direction or the other. *)
  Definition fidx (tr : bool) (x r : Z) : list Z := if tr then [r; x] else [x; r].

  Lemma mode_step_spec : forall tr pl pd d qd ext F f p (h : heap T) g,
    alloc_ok pl -> Forall (fun d => 0 <= d) (pd ++ d :: qd) -> 0 <= ext ->
    let old := tensor_ctor p (pd ++ d :: qd) in
    ddims F = fidx tr ext d -> holds h F f -> (forall a, cell F a -> ~ cell old a) -> holds h old g ->
    (mode_step tr pl (length pd) ext F old h = Throw /\ refuses pl) \/
    exists p' h', let new := tensor_ctor p' (pd ++ ext :: qd) in
      mode_step tr pl (length pd) ext F old h = Ok (new, h') /\
      (forall a, cell new a -> h a = None) /\
      (forall a, ~ cell new a -> (cell old a -> h' a = None) /\ (~ cell old a -> h' a = h a)) /\
      (forall pt x qt, inb pt pd -> 0 <= x < ext -> inb qt qd ->
         h' (addr new (pt ++ x :: qt)) = Some (zsum d (fun k => omul (g (pt ++ k :: qt)) (f (fidx tr x k))))).
  Proof.
    intros tr pl pd d qd ext F f p h g Hpl HN Hext old DF HF Hsep Hold. unfold mode_step.
    change (ddims old) with (pd ++ d :: qd). rewrite set_at_app.
    assert (HN' : Forall (fun d => 0 <= d) (pd ++ ext :: qd)).
    { apply Forall_app in HN as (H1 & H2). apply Forall_app. split; auto. inversion H2; subst. constructor; auto. }
    assert (Ne : forall x, pd ++ x :: qd <> []) by (intros x E; destruct pd; discriminate).
    destruct (new_tensor_spec pl (pd ++ ext :: qd) h Hpl (Ne ext) HN') as [(E & Rf)|(p' & h1 & E & Fr & Z1 & K1)].
    { left. rewrite E. auto. }
    right. exists p'. set (new := tensor_ctor p' (pd ++ ext :: qd)) in *. rewrite E. cbn [bind fst snd].
    assert (NoF : forall a, cell F a -> ~ cell new a).
    { intros a (i & Hi & ->) C. assert (A := Fr _ C). rewrite HF in A by auto. discriminate. }
    assert (NoO : forall a, cell old a -> ~ cell new a).
    { intros a (i & Hi & ->) C. assert (A := Fr _ C). rewrite Hold in A by auto. discriminate. }
    set (val := fun p0 : list Z * Z => omul (g (fst p0)) (f (fidx tr (snd p0) (nth (length pd) (fst p0) 0)))).
    assert (Split : forall src, inb src (pd ++ d :: qd) -> exists a k b, src = a ++ k :: b /\ length a = length pd /\ inb a pd /\ 0 <= k < d /\ inb b qd).
    { intros src Hs. assert (L := inb_length _ _ Hs). rewrite app_length in L. simpl in L.
      exists (firstn (length pd) src), (nth (length pd) src 0), (skipn (S (length pd)) src).
      assert (Es : src = firstn (length pd) src ++ nth (length pd) src 0 :: skipn (S (length pd)) src).
      { clear - L. revert src L. induction (length pd) as [|m IH]; intros [|x src] L; simpl in *; try lia; auto.
        f_equal. apply IH. lia. }
      assert (L1 : length (firstn (length pd) src) = length pd) by (rewrite firstn_length; lia).
      rewrite Es in Hs. apply inb_app_inv in Hs; [|exact L1]. destruct Hs as (H1 & H2). apply inb_cons in H2. tauto. }
    assert (ML : exists h2, mode_loop tr (length pd) ext F old new h1 = Ok h2 /\
       holds h2 new (fun t => oadd o0 (lsum (flat_map (fun src => map (pair src) (zrange ext)) (indices (pd ++ d :: qd)))
         (fun q => if list_eq_dec Z.eq_dec (set_at (length pd) (snd q) (fst q)) t then val q else o0))) /\
       (forall a, ~ cell new a -> h2 a = h1 a)).
    { unfold mode_loop. change (ddims old) with (pd ++ d :: qd).
      rewrite (forM_nested _ _ _ (fun _ => zrange ext) (fun src n h => s <- tget h old src ;; t <- tget h new (set_at (length pd) n src) ;;
         f0 <- tget h F (if tr then [nth (length pd) src 0; n] else [n; nth (length pd) src 0]) ;;
         tset h new (set_at (length pd) n src) (oadd t (omul s f0)))).
      assert (Tin : forall q, In q (flat_map (fun src => map (pair src) (zrange ext)) (indices (pd ++ d :: qd))) ->
         inb (fst q) (pd ++ d :: qd) /\ 0 <= snd q < ext /\ inb (set_at (length pd) (snd q) (fst q)) (ddims new)).
      { intros (src, n) Hq. apply in_flat_map in Hq as (s & Hs & Hq). apply in_map_iff in Hq as (m & Em & Hm). inversion Em; subst s m.
        apply in_indices in Hs. apply zrange_in in Hm. cbn [fst snd]. split; auto. split; auto.
        destruct (Split src Hs) as (a & k & b & -> & La & Ha & Hk & Hb). rewrite <- La, set_at_app. apply inb_app; auto. now apply inb_cons. }
      apply (acc_loop _ (fun q => set_at (length pd) (snd q) (fst q)) val new h1 _ (rm_inj _ _) _ h1 (fun _ => o0)).
      - intros q Hq. apply Tin; auto.
      - intros idx Hi. apply Z1. exists idx. auto.
      - auto.
      - intros (src, n) h' t Hq Hsame Ht. destruct (Tin _ Hq) as (Hs & Hn & Hi). cbn [fst snd] in *.
        unfold tget, tset. rewrite (subscript_inb old src) by auto.
        assert (V1 : h' (addr old src) = Some (g src)).
        { assert (C : cell old (addr old src)) by (exists src; auto). rewrite Hsame by auto. rewrite K1 by auto. apply Hold. auto. }
        rewrite (rd_some _ _ _ _ V1). cbn [bind]. rewrite (subscript_inb new) by auto. rewrite (rd_some _ _ _ _ Ht). cbn [bind].
        destruct (Split src Hs) as (a & k & b & Es & La & Ha & Hk & Hb).
        assert (Nk : nth (length pd) src 0 = k) by (rewrite Es, app_nth2, La, Nat.sub_diag by lia; reflexivity).
        change (if tr then [nth (length pd) src 0; n] else [n; nth (length pd) src 0]) with (fidx tr n (nth (length pd) src 0)).
        assert (If : inb (fidx tr n (nth (length pd) src 0)) (ddims F)).
        { rewrite DF, Nk. unfold fidx. destruct tr; repeat constructor; lia. }
        rewrite subscript_inb by auto.
        assert (V3 : h' (addr F (fidx tr n (nth (length pd) src 0))) = Some (f (fidx tr n (nth (length pd) src 0)))).
        { assert (C : cell F (addr F (fidx tr n (nth (length pd) src 0)))) by (eexists; split; [exact If|reflexivity]).
          rewrite Hsame by auto. rewrite K1 by auto. apply HF. auto. }
        rewrite (rd_some _ _ _ _ V3). cbn [bind]. now rewrite (wr_some _ _ _ _ _ Ht). }
    destruct ML as (h2 & E2 & V2 & F2). rewrite E2. cbn [bind].
    destruct (delete_spec p (pd ++ d :: qd) h2 (Ne d) HN) as (h3 & E3 & D3 & F3).
    { fold old. intros a C. rewrite F2 by auto. rewrite K1 by auto. destruct C as (i & Hi & ->). rewrite Hold by auto. discriminate. }
    fold old in E3, D3, F3. exists h3. rewrite E3. cbn [bind]. split; auto. split; auto. split.
    - intros a Ha. split; intros C; auto. rewrite F3, F2, K1 by auto. reflexivity.
    - intros pt x qt Hp Hx Hq.
      assert (Hi : inb (pt ++ x :: qt) (ddims new)) by (apply inb_app; auto; now apply inb_cons).
      rewrite F3.
      + rewrite V2 by auto. f_equal. unfold val.
        rewrite (mode_sum pd d qd pt x qt ext (fun s n => omul (g s) (f (fidx tr n (nth (length pd) s 0))))) by auto.
        rewrite (zsum_ext O d _ (fun k => omul (g (pt ++ k :: qt)) (f (fidx tr x k)))); [ring|].
        intros k Hk. rewrite app_nth2 by (rewrite (inb_length _ _ Hp); lia).
        rewrite (inb_length _ _ Hp), Nat.sub_diag. reflexivity.
      + intros C. apply (NoO _ C). exists (pt ++ x :: qt). auto.
  Qed.

  (** The product of the factor elements, in either direction. *)
  Definition eprod (tr : bool) (fs : list (list Z -> T)) (x r : list Z) : T := if tr then elems_prod fs r x else elems_prod fs x r.

  Lemma eprod_cons : forall tr f fs x xs r rs, eprod tr (f :: fs) (x :: xs) (r :: rs) = omul (f (fidx tr x r)) (eprod tr fs xs rs).
  Proof. intros [] f fs x xs r rs; reflexivity. Qed.

  (** Factors with extents for either direction. *)
  Definition mats (tr : bool) (h : heap T) Fs (exts ds : list Z) fs : Prop := if tr then matrices h Fs ds exts fs else matrices h Fs exts ds fs.

  Lemma mats_inv : forall tr h Fs exts ds fs, mats tr h Fs exts ds fs ->
    (Fs = [] /\ exts = [] /\ ds = [] /\ fs = []) \/
    exists F Fs' e exts' d ds' f fs', Fs = F :: Fs' /\ exts = e :: exts' /\ ds = d :: ds' /\ fs = f :: fs' /\
      ddims F = fidx tr e d /\ holds h F f /\ mats tr h Fs' exts' ds' fs'.
  Proof.
    intros tr h Fs exts ds fs H. unfold mats in *. destruct tr; inversion H; subst; auto; right; do 8 eexists; repeat split; eauto.
  Qed.

  Lemma mats_frame : forall tr (h h' : heap T) Fs exts ds fs, mats tr h Fs exts ds fs ->
    (forall F a, In F Fs -> cell F a -> h' a = h a) -> mats tr h' Fs exts ds fs.
  Proof.
    assert (G : forall (h h' : heap T) Fs rs cs fs, matrices h Fs rs cs fs -> (forall F a, In F Fs -> cell F a -> h' a = h a) -> matrices h' Fs rs cs fs).
    { intros h h' Fs rs cs fs H. induction H as [|F r c f Fs rs cs fs D Hh H IH]; intros E; constructor; auto.
      - intros idx Hi. rewrite (E F) by (try (now left); exists idx; auto). apply Hh; auto.
      - apply IH. intros; eapply E; eauto. now right. }
    intros [] h h' Fs exts ds fs H E; unfold mats in *; eapply G; eauto.
  Qed.

  Lemma modes_spec : forall tr pl, alloc_ok pl -> forall Fs exts ds fs pd p (h : heap T) g,
    Forall (fun d => 0 <= d) (pd ++ ds) -> Forall (fun d => 0 <= d) exts ->
    let old := tensor_ctor p (pd ++ ds) in
    mats tr h Fs exts ds fs -> (forall F a, In F Fs -> cell F a -> ~ cell old a) -> holds h old g ->
    (modes tr pl (length pd) (combine Fs exts) old h = Throw /\ refuses pl) \/
    exists p' h', let new := tensor_ctor p' (pd ++ exts) in
      modes tr pl (length pd) (combine Fs exts) old h = Ok (new, h') /\
      (forall a, cell new a -> h a = None \/ cell old a) /\
      (forall a, ~ cell new a -> (cell old a -> h' a = None) /\ (~ cell old a -> h' a = h a)) /\
      (forall pt xs, inb pt pd -> inb xs exts ->
         h' (addr new (pt ++ xs)) = Some (lsum (indices ds) (fun r => omul (g (pt ++ r)) (eprod tr fs xs r)))).
  Proof.
    intros tr pl Hpl. induction Fs as [|F Fs IH]; intros exts ds fs pd p h g HN HE old HM Hsep Hold;
      destruct (mats_inv _ _ _ _ _ _ HM) as [(E1 & -> & -> & ->)|(F' & Fs' & e & exts' & d & ds' & f & fs' & E1 & -> & -> & -> & DF & HF & HM')]; try discriminate.
    - right. exists p, h. cbn [combine modes]. split; auto. split; auto. split; [intros a Ha; split; [contradiction|auto]|].
      intros pt xs Hp Hx. inversion Hx; subst. change (indices []) with [@nil Z]. rewrite Hold.
      + f_equal. change (lsum [[]] ?f) with (oadd (f []) o0). cbv beta. unfold eprod. destruct tr; simpl; ring.
      + cbn [old tensor_ctor ddims]. rewrite !app_nil_r. auto.
    - injection E1 as <- <-. cbn [combine modes]. inversion HE as [|? ? He HE']; subst.
      destruct (mode_step_spec tr pl pd d ds' e F f p h g Hpl HN He DF HF (fun a => Hsep F a (or_introl eq_refl)) Hold)
        as [(E & Rf)|(p1 & h1 & E & Fr & Fm & V)].
      { left. fold old in E. rewrite E. auto. }
      fold old in E, Fm. rewrite E. cbn [bind fst snd]. set (mid := tensor_ctor p1 (pd ++ e :: ds')) in *.
      assert (Eq : pd ++ e :: ds' = (pd ++ [e]) ++ ds') by (now rewrite <- app_assoc).
      assert (NF : forall G a, In G Fs -> cell G a -> ~ cell mid a).
      { intros G a HG C C2. assert (A := Fr _ C2). 
        assert (Al : h a <> None).
        { clear - HM' HG C. assert (Q : exists rs cs, matrices h Fs rs cs fs') by (unfold mats in HM'; destruct tr; eauto).
          destruct Q as (rs & cs & Q). clear HM'. induction Q as [|F r c f Fs rs cs fs D Hh Q IH]; [contradiction|]. destruct HG as [->|HG]; auto.
          destruct C as (i & Hi & ->). rewrite Hh by auto. discriminate. }
        contradiction. }
      assert (HM1 : mats tr h1 Fs exts' ds' fs').
      { apply (mats_frame tr h h1); auto. intros G a HG C. apply (Fm a (NF G a HG C)). apply (Hsep G); auto. now right. }
      destruct (IH exts' ds' fs' (pd ++ [e]) p1 h1 (fun idx => zsum d (fun k => omul (g (firstn (length pd) idx ++ k :: skipn (S (length pd)) idx)) (f (fidx tr (nth (length pd) idx 0) k)))))
        as [(E2 & Rf)|(p' & h' & E2 & Fr2 & Fm2 & V2)]; auto.
      + apply Forall_app in HN as (N1 & N2). inversion N2; subst. rewrite <- Eq. apply Forall_app. split; auto.
      + rewrite <- Eq. fold mid. intros G a HG C. apply (NF G a HG C).
      + rewrite <- Eq. fold mid. intros idx Hi. cbn [mid tensor_ctor ddims] in Hi.
        assert (L := inb_length _ _ Hi). rewrite app_length in L. simpl in L.
        assert (Es : idx = firstn (length pd) idx ++ nth (length pd) idx 0 :: skipn (S (length pd)) idx).
        { clear - L. revert idx L. induction (length pd) as [|m IH]; intros [|x src] L; simpl in *; try lia; auto.
          f_equal. apply IH. lia. }
        rewrite Es in Hi. apply inb_app_inv in Hi; [|rewrite firstn_length; lia]. destruct Hi as (I1 & I2). apply inb_cons in I2 as (I2 & I3).
        rewrite Es at 1. rewrite V by auto. reflexivity.
      + left. rewrite app_length in E2. simpl in E2. rewrite Nat.add_1_r in E2. rewrite <- Eq in E2. fold mid in E2. auto.
      + right. exists p', h'. rewrite app_length in E2. simpl in E2. rewrite Nat.add_1_r in E2. rewrite <- Eq in *. fold mid in E2, Fr2, Fm2.
        assert (Eq2 : (pd ++ [e]) ++ exts' = pd ++ e :: exts') by (now rewrite <- app_assoc). rewrite Eq2 in *.
        set (new := tensor_ctor p' (pd ++ e :: exts')) in *.
        split; auto.
        assert (NoM : forall a, cell mid a -> ~ cell old a).
        { intros a C C2. assert (A := Fr _ C). destruct C2 as (i & Hi & ->). rewrite Hold in A by auto. discriminate. }
        split; [|split].
        * intros a C. destruct (Fr2 a C) as [A|A]; [|left; auto].
          assert (Dm : cell mid a \/ ~ cell mid a).
          { unfold mid. rewrite ctor_cell; [lia|]. apply Forall_app in HN as (N1 & N2). inversion N2; subst. apply Forall_app. split; auto. }
          destruct Dm as [Dm|Dm]; [left; auto|].
          assert (Do : cell old a \/ ~ cell old a) by (unfold old; rewrite ctor_cell by auto; lia).
          destruct Do as [Do|Do]; auto. left. rewrite <- (proj2 (Fm a Dm) Do). auto.
        * intros a C. destruct (Fm2 a C) as (Q1 & Q2).
          assert (Dm : cell mid a \/ ~ cell mid a).
          { unfold mid. rewrite ctor_cell; [lia|]. apply Forall_app in HN as (N1 & N2). inversion N2; subst. apply Forall_app. split; auto. }
          destruct Dm as [Dm|Dm].
          -- split; intros Co; [exfalso; eapply NoM; eauto|]. rewrite Q1 by auto. symmetry. auto.
          -- rewrite Q2 by auto. apply (Fm a Dm).
        * intros pt xs Hp Hx. inversion Hx as [|x ? xs' ? Hx1 Hx2]; subst.
          assert (V3 := V2 (pt ++ [x]) xs' ltac:(apply inb_app; auto; repeat constructor; lia) Hx2).
          replace ((pt ++ [x]) ++ xs') with (pt ++ x :: xs') in V3 by (now rewrite <- app_assoc). rewrite V3. f_equal.
          rewrite (lsum_indices_cons O HR). unfold zsum at 2. rewrite (lsum_swap O HR _ _ (zrange d)).
          apply (lsum_ext O). intros r Hr.
          replace ((pt ++ [x]) ++ r) with (pt ++ x :: r) by (now rewrite <- app_assoc).
          assert (Lp := inb_length _ _ Hp).
          assert (F1 : firstn (length pd) (pt ++ x :: r) = pt) by (rewrite <- Lp, firstn_app, Nat.sub_diag, firstn_all; simpl; apply app_nil_r).
          assert (F2 : skipn (S (length pd)) (pt ++ x :: r) = r).
          { rewrite <- Lp. clear. induction pt; simpl; auto. }
          assert (F3 : nth (length pd) (pt ++ x :: r) 0 = x) by (rewrite app_nth2, <- Lp, Nat.sub_diag by lia; reflexivity).
          rewrite F1, F2, F3. unfold zsum. rewrite <- (lsum_mul_r O HR). apply (lsum_ext O). intros k Hk. rewrite eprod_cons. ring.
  Qed.

  Lemma mats_alloc : forall tr (h : heap T) Fs exts ds fs F a, mats tr h Fs exts ds fs -> In F Fs -> cell F a -> h a <> None.
  Proof.
    intros tr h Fs exts ds fs F a HM HF C. assert (Q : exists rs cs, matrices h Fs rs cs fs) by (unfold mats in HM; destruct tr; eauto).
    destruct Q as (rs & cs & Q). clear HM. induction Q as [|G r c f Fs rs cs fs D Hh Q IH]; [contradiction|]. destruct HF as [->|HF]; auto.
    destruct C as (i & Hi & ->). rewrite Hh by auto. discriminate.
  Qed.

  Lemma all_modes_spec : forall tr pl g Fs exts ds fs (h : heap T) gf, alloc_ok pl -> Fs <> [] ->
    ddims g = ds -> Forall (fun d => 0 <= d) ds -> Forall (fun d => 0 <= d) exts ->
    mats tr h Fs exts ds fs -> holds h g gf ->
    (all_modes tr pl g (combine Fs exts) h = Throw /\ refuses pl) \/
    exists p h', all_modes tr pl g (combine Fs exts) h = Ok (tensor_ctor p exts, h') /\
      created h h' (tensor_ctor p exts) /\
      holds h' (tensor_ctor p exts) (fun xs => lsum (indices ds) (fun r => omul (gf r) (eprod tr fs xs r))).
  Proof.
    intros tr pl g Fs exts ds fs h gf Hpl Hne Dg HN HE HM Hg.
    assert (Ned : ds <> [] /\ exts <> []).
    { destruct (mats_inv _ _ _ _ _ _ HM) as [(-> & _)|(? & ? & ? & ? & ? & ? & ? & ? & _ & -> & -> & _)]; [congruence|split; discriminate]. }
    destruct Ned as (Ned & Nee).
    assert (Eam : all_modes tr pl g (combine Fs exts) h =
      (r <- new_tensor pl (ddims g) h ;; h2 <- copy_into (fst r) g (snd r) ;; s <- modes tr pl 0 (combine Fs exts) (fst r) h2 ;;
       t <- new_tensor pl (ddims (fst s)) (snd s) ;; h3 <- copy_into (fst t) (fst s) (snd t) ;; h4 <- delete (fst s) h3 ;; Ok (fst t, h4))).
    { unfold all_modes. destruct Fs; [congruence|]. destruct exts; [congruence|]. reflexivity. }
    rewrite Eam. clear Eam. rewrite Dg.
    destruct (new_tensor_spec pl ds h Hpl Ned HN) as [(E & Rf)|(p0 & h1 & E & Fr & Z1 & K1)]; rewrite E; cbn [bind fst snd]; auto.
    set (old := tensor_ctor p0 ds) in *.
    assert (NoG : forall a, cell old a -> ~ cell g a).
    { intros a C (i & Hi & ->). assert (A := Fr _ C). rewrite Hg in A by auto. discriminate. }
    destruct (copy_into_spec old g h1 gf) as (h2 & E2 & V2 & F2); auto.
    { apply rm_inj. }
    { intros i Hi. assert (C : cell g (addr g i)) by (exists i; auto). rewrite K1; [apply Hg; auto|]. intros C2. apply (NoG _ C2 C). }
    { intros a C. rewrite Z1 by auto. discriminate. }
    rewrite E2. cbn [bind].
    assert (K2 : forall a, ~ cell old a -> h2 a = h a) by (intros a C; rewrite F2, K1; auto).
    assert (NoF : forall F a, In F Fs -> cell F a -> ~ cell old a).
    { intros F a HF C C2. apply (mats_alloc tr h Fs exts ds fs F a HM HF C). auto. }
    destruct (modes_spec tr pl Hpl Fs exts ds fs [] p0 h2 gf) as [(E3 & Rf)|(p1 & h3 & E3 & Fr3 & Fm3 & V3)]; auto.
    { apply (mats_frame tr h h2); auto. intros F a HF C. apply K2. eapply NoF; eauto. }
    { simpl in E3. fold old in E3. simpl. rewrite E3. auto. }
    cbn [app length] in E3, Fr3, Fm3, V3. fold old in E3, Fr3, Fm3. rewrite E3. cbn [bind fst snd].
    set (last := tensor_ctor p1 exts) in *. change (ddims last) with exts.
    destruct (new_tensor_spec pl exts h3 Hpl Nee HE) as [(E4 & Rf)|(p & h4 & E4 & Fr4 & Z4 & K4)]; rewrite E4; cbn [bind fst snd]; auto.
    right. set (d := tensor_ctor p exts) in *.
    set (v := fun xs => lsum (indices ds) (fun r => omul (gf r) (eprod tr fs xs r))).
    assert (Vl : holds h3 last v) by (intros xs Hx; apply (V3 [] xs); auto; constructor).
    assert (NoL : forall a, cell d a -> ~ cell last a).
    { intros a C (i & Hi & ->). assert (A := Fr4 _ C). rewrite Vl in A by auto. discriminate. }
    destruct (copy_into_spec d last h4 v) as (h5 & E5 & V5 & F5); auto.
    { apply rm_inj. }
    { intros i Hi. assert (C : cell last (addr last i)) by (exists i; auto). rewrite K4; [apply Vl; auto|]. intros C2. apply (NoL _ C2 C). }
    { intros a C. rewrite Z4 by auto. discriminate. }
    rewrite E5. cbn [bind].
    destruct (delete_spec p1 exts h5 Nee HE) as (h6 & E6 & D6 & K6).
    { fold last. intros a C. assert (~ cell d a) by (intros C2; apply (NoL a C2 C)). rewrite F5, K4 by auto. destruct C as (i & Hi & ->). rewrite Vl by auto. discriminate. }
    fold last in E6, D6, K6. exists p, h6. rewrite E6. cbn [bind]. split; auto.
    assert (Dl : forall a, cell last a \/ ~ cell last a) by (intros a; unfold last; rewrite ctor_cell by auto; lia).
    assert (Do : forall a, cell old a \/ ~ cell old a) by (intros a; unfold old; rewrite ctor_cell by auto; lia).
    assert (K3 : forall a, ~ cell last a -> h3 a = h a).
    { intros a C. destruct (Do a) as [Co|Co].
      - rewrite (proj1 (Fm3 a C) Co). symmetry. auto.
      - rewrite (proj2 (Fm3 a C) Co). auto. }
    assert (Lh : forall a, cell last a -> h a = None).
    { intros a C. destruct (Do a) as [Co|Co]; auto. destruct (Fr3 a C) as [A|A]; [|contradiction]. rewrite <- (K2 a Co). auto. }
    split; [split|].
    - intros a C. rewrite <- K3 by auto. auto.
    - intros a C. destruct (Dl a) as [Cl|Cl].
      + rewrite D6 by auto. symmetry. auto.
      + rewrite K6, F5, K4 by auto. auto.
    - intros xs Hx. assert (C : cell d (addr d xs)) by (exists xs; auto). rewrite K6 by auto. apply V5; auto.
  Qed.

  Lemma orthonormal_sum : forall ds ks fs, orthonormal (O := O) ds ks fs -> forall i j, inb i ds -> inb j ds ->
    lsum (indices ks) (fun r => omul (elems_prod fs i r) (elems_prod fs j r)) = if list_eq_dec Z.eq_dec i j then o1 else o0.
  Proof.
    intros ds ks fs H. induction H as [|d k f ds ks fs Hf H IH]; intros i j Hi Hj.
    - inversion Hi; subst. inversion Hj; subst. simpl. ring.
    - inversion Hi as [|x ? i' ? Hx Hi']; subst. inversion Hj as [|y ? j' ? Hy Hj']; subst.
      rewrite (lsum_indices_cons O HR).
      rewrite (zsum_ext O k _ (fun a => omul (omul (f [x; a]) (f [y; a])) (lsum (indices ks) (fun r => omul (elems_prod fs i' r) (elems_prod fs j' r))))).
      + unfold zsum. rewrite (lsum_mul_r O HR). fold (zsum k (fun a => omul (f [x; a]) (f [y; a]))). rewrite (Hf x y Hx Hy), IH by auto.
        destruct (list_eq_dec Z.eq_dec (x :: i') (y :: j')) as [E|E].
        * injection E as -> ->. rewrite Z.eqb_refl. destruct (list_eq_dec Z.eq_dec j' j'); [ring|congruence].
        * destruct (Z.eqb_spec x y); [|ring]. destruct (list_eq_dec Z.eq_dec i' j'); [congruence|ring].
      + intros a _. rewrite <- (lsum_mul_l O HR). apply (lsum_ext O). intros r _. simpl. ring.
  Qed.

  (** Contracting twice with orthonormal rows gives back the element. *)
  Lemma orthonormal_back : forall ds ks fs (t : list Z -> T), orthonormal (O := O) ds ks fs -> forall i, inb i ds ->
    lsum (indices ks) (fun r => omul (lsum (indices ds) (fun j => omul (t j) (elems_prod fs j r))) (elems_prod fs i r)) = t i.
  Proof.
    intros ds ks fs t H i Hi.
    rewrite (lsum_ext O _ (indices ks) _ (fun r => lsum (indices ds) (fun j => omul (t j) (omul (elems_prod fs j r) (elems_prod fs i r))))).
    - rewrite (lsum_swap O HR _ _ (indices ks)).
      rewrite (lsum_ext O _ (indices ds) _ (fun j => if list_eq_dec Z.eq_dec j i then t j else o0)).
      + rewrite (lsum_single O HR _ (indices ds) i _ (indices_NoDup _)).
        * destruct (list_eq_dec Z.eq_dec i i); [auto|congruence].
        * now apply in_indices.
        * intros j _ Hne. destruct (list_eq_dec Z.eq_dec j i); [congruence|auto].
      + intros j Hj. apply in_indices in Hj. rewrite (lsum_mul_l O HR), (orthonormal_sum ds ks fs H j i) by auto.
        destruct (list_eq_dec Z.eq_dec j i); ring.
    - intros r _. rewrite <- (lsum_mul_r O HR). apply (lsum_ext O). intros j _. ring.
  Qed.

  Lemma elems_prod_flip : forall ds ks (fs : list (list Z -> T)), length fs = length ds -> length fs = length ks ->
    forall i r, inb i ds -> inb r ks -> elems_prod (map (fun f l => f (rev l)) fs) r i = elems_prod fs i r.
  Proof.
    intros ds ks fs. revert ds ks. induction fs as [|f fs IH]; intros ds ks L1 L2 i r Hi Hr; simpl; auto.
    destruct ds as [|d ds]; [discriminate|]. destruct ks as [|k ks]; [discriminate|]. inversion Hi; subst. inversion Hr; subst.
    injection L1 as L1. injection L2 as L2. cbn [map elems_prod]. rewrite (IH ds ks); auto.
  Qed.
End D.
