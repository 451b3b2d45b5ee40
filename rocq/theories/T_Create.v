(** * T_Create: tensors made with given contents (C92), random contents (C93),
      the domain of a set of points (C95). *)
From Coq Require Import List ZArith Lia Bool Permutation.
From Verif Require Import Base Heap Conc M_Addr S_Addr L_Addr M_Elt L_Elt M_Einsum S_Einsum M_Blas S_Blas L_Blas M_Lapack
  T_Lapack T_Lapack2 M_Trunc M_Create T_Elem.
Import ListNotations.
Open Scope Z_scope.

(** ** C92 *)

(** Place of an element in row-major order. *)
Fixpoint place (idx dims : list Z) : Z :=
  match idx, dims with
  | i :: is, _ :: ds => i * zprod ds + place is ds
  | _, _ => 0
  end.
(** [step] added [k] times to zero. *)
Fixpoint times {O : Ops} (k : nat) (step : car O) : car O :=
  match k with 0%nat => o0 | S k' => oadd (times k' step) step end.

Lemma place_dotp : forall idx dims, inb idx dims -> place idx dims = dotp idx (row_major_strides dims).
Proof. induction 1 as [|i d is ds Hi Hr IH]; auto. rewrite rms_cons. cbn [place dotp]. lia. Qed.

(** What surrounds the buffer of a new tensor is not touched. *)
Definition only_buffer {T} (base : Z) (dims : list Z) (h h' : heap T) : Prop :=
  forall a, ~ (base <= a < base + zprod dims) -> h' a = h a.

Lemma new_cell : forall base dims idx, inb idx dims -> base <= addr (tensor_ctor base dims) idx < base + zprod dims.
Proof.
  intros base dims idx Hi. assert (H := rm_range _ _ Hi). unfold addr. cbn [tensor_ctor dbase dstrides]. lia.
Qed.

Lemma counted_loop : forall (O : Ops) (step : car O) (l : list (list Z)) (ad : list Z -> Z) (m : nat) (h : heap (car O)),
  NoDup (map ad l) -> (forall x, In x l -> h (ad x) <> None) ->
  exists h', forM l (fun it s => h' <- wr (snd s) (ad it) (fst s) ;; Ok (oadd (fst s) step, h')) (times m step, h)
             = Ok (times (m + length l) step, h') /\
    (forall k x, nth_error l k = Some x -> h' (ad x) = Some (times (m + k) step)) /\
    (forall a, ~ In a (map ad l) -> h' a = h a).
Proof.
  intros O step l ad. induction l as [|x l IH]; intros m h Hn Ha.
  - exists h. rewrite Nat.add_0_r. split; [reflexivity|]. split; auto. intros [|k] x H; discriminate.
  - cbn [map] in Hn. inversion Hn as [|y ys Hx Hl]; subst. cbn [forM].
    destruct (h (ad x)) as [w|] eqn:E; [|elim (Ha x (or_introl eq_refl)); auto].
    cbn [fst snd]. unfold wr. rewrite E. cbn [bind].
    destruct (IH (S m) (upd h (ad x) (times m step)) Hl) as (h' & E' & V & F).
    { intros y Hy. unfold upd. destruct (Z.eqb_spec (ad y) (ad x)); [discriminate|]. apply Ha. right. auto. }
    exists h'. split; [refine (eq_trans E' _); do 3 f_equal; simpl; lia|]. split.
    + intros [|k] y Hy; cbn [nth_error] in Hy.
      * injection Hy as <-. rewrite F by auto. unfold upd. rewrite Z.eqb_refl, Nat.add_0_r. auto.
      * rewrite (V k y Hy). do 2 f_equal. lia.
    + intros a Hna. cbn [map] in Hna. rewrite F by (intros H; apply Hna; right; auto). unfold upd.
      destruct (Z.eqb_spec a (ad x)) as [->|]; auto. elim Hna. left. auto.
Qed.

Theorem C92_incremented :
  forall (O : Ops) (step : car O) (base : Z) (dims : list Z) (h : heap (car O)),
    dims <> [] -> int_dims dims ->
    exists h', create_incremented step base dims h = Ok (tensor_ctor base dims, h') /\
      holds h' (tensor_ctor base dims) (fun idx => times (Z.to_nat (place idx dims)) step) /\ only_buffer base dims h h'.
Proof.
  intros O step base dims h Hne HD. unfold create_incremented. rewrite int_dims_id by auto.
  set (A := tensor_ctor base dims). rewrite data_size_eq by auto. set (h0 := alloc_buffer o0 base (zprod dims) h).
  rewrite (forM_ext _ _ _ _ (fun it s => h' <- wr (snd s) (addr A it) (fst s) ;; Ok (oadd (fst s) step, h'))).
  2: { intros x s Hx. apply in_indices in Hx. rewrite subscript_inb by (cbn; auto). reflexivity. }
  destruct (counted_loop O step (indices dims) (addr A) 0 h0) as (h' & E & V & F).
  { apply (addr_NoDup A). apply rm_inj. }
  { intros x Hx. apply in_indices in Hx. unfold h0. rewrite alloc_buffer_cell by (apply new_cell; auto). discriminate. }
  cbn [times] in E. rewrite E. cbn [bind snd]. exists h'. split; [reflexivity|]. split.
  - intros idx Hi. cbn [A ddims tensor_ctor] in Hi. rewrite place_dotp by auto.
    apply (V _ idx (nth_error_indices _ _ Hi)).
  - intros a Ha. rewrite F.
    + apply alloc_buffer_other. auto.
    + rewrite in_map_iff. intros (x & <- & Hx). apply in_indices in Hx. apply Ha. apply new_cell. auto.
Qed.
Print Assumptions C92_incremented.

Lemma new_set_all : forall (O : Ops) (v : car O) base dims (h : heap (car O)), dims <> [] ->
  exists h', set_all base (data_size dims) v (alloc_buffer o0 base (data_size dims) h) = Ok h' /\
    (forall z, base <= z < base + zprod dims -> h' z = Some v) /\ only_buffer base dims h h'.
Proof.
  intros O v base dims h Hne. rewrite data_size_eq by auto.
  destruct (set_all_spec _ base (zprod dims) v (alloc_buffer o0 base (zprod dims) h)) as (h' & E & V & F).
  { intros k Hk. exists o0. apply alloc_buffer_cell. lia. }
  exists h'. split; [exact E|]. split.
  - intros z Hz. replace z with (base + (z - base)) by lia. apply V. lia.
  - intros a Ha. rewrite F by auto. apply alloc_buffer_other. auto.
Qed.

Theorem C92_ones :
  forall (O : Ops) (base : Z) (dims : list Z) (h : heap (car O)),
    dims <> [] ->
    exists h', create_ones base dims h = Ok (tensor_ctor base dims, h') /\
      holds h' (tensor_ctor base dims) (fun _ => o1) /\ only_buffer base dims h h'.
Proof.
  intros O base dims h Hne. unfold create_ones.
  destruct (new_set_all O o1 base dims h Hne) as (h' & E & V & F). rewrite E. cbn [bind].
  exists h'. split; [reflexivity|]. split; auto. intros idx Hi. apply V. apply new_cell. auto.
Qed.
Print Assumptions C92_ones.

Lemma NoDup_map_inj_in : forall A B (f : A -> B) l, (forall x y, In x l -> In y l -> f x = f y -> x = y) -> NoDup l -> NoDup (map f l).
Proof.
  intros A B f l. induction l as [|x l IH]; intros H Hn; cbn [map]; [constructor|]. inversion Hn; subst. constructor.
  - rewrite in_map_iff. intros (y & E & Hy). assert (y = x) by (apply H; auto; [right|left]; auto). congruence.
  - apply IH; auto. intros a b Ha Hb. apply H; right; auto.
Qed.

(** All entries of an index are equal. *)
Definition on_diagonal (idx : list Z) : Prop := forall x y, In x idx -> In y idx -> x = y.

Lemma repeat_inb : forall k dims, Forall (fun d => k < d) dims -> 0 <= k -> inb (repeat k (length dims)) dims.
Proof. intros k dims H Hk. induction H; cbn [length repeat]; constructor; auto. Qed.
Lemma on_diagonal_repeat : forall idx x, In x idx -> on_diagonal idx -> idx = repeat x (length idx).
Proof.
  intros idx x Hx HD. assert (G : Forall (fun y => y = x) idx) by (apply Forall_forall; intros y Hy; auto).
  clear Hx HD. induction G as [|y l E G IH]; auto. cbn [length repeat]. rewrite E, <- IH. auto.
Qed.

(** Ones on the diagonal, zeros elsewhere, when no extent is smaller than the
    first.  Missing: see [C92_identity_refuted]. *)
Theorem C92_identity_partial :
  forall (O : Ops) (base : Z) (dims : list Z) (h : heap (car O)),
    dims <> [] -> Forall (fun d => nth 0 dims 0 <= d) dims ->
    exists h', create_identity base dims h = Ok (tensor_ctor base dims, h') /\
      (forall idx, inb idx dims ->
         (on_diagonal idx -> elem h' (tensor_ctor base dims) idx = Some o1) /\
         (~ on_diagonal idx -> elem h' (tensor_ctor base dims) idx = Some o0)) /\
      only_buffer base dims h h'.
Proof.
  intros O base dims h Hne HD. unfold create_identity. set (A := tensor_ctor base dims).
  destruct (new_set_all O o0 base dims h Hne) as (h1 & E & V & F). rewrite E. cbn [bind].
  set (n := nth 0 dims 0) in *. set (r := length dims).
  assert (HI : forall k, 0 <= k < n -> inb (repeat k r) dims).
  { intros k Hk. apply repeat_inb; [|lia]. eapply Forall_impl; [|exact HD]. simpl. intros. lia. }
  assert (Hr : (0 < r)%nat) by (unfold r; destruct dims; [congruence|simpl; lia]).
  destruct (forM_cells Z (car O) (zrange n) (fun k => addr A (repeat k r)) (fun _ => o1)
     (fun k h => wr h (subscript A (repeat k r)) o1) h1) as (h' & E' & V' & F').
  - apply NoDup_map_inj_in; [|apply zrange_NoDup]. intros x y Hx Hy Exy.
    apply zrange_in in Hx. apply zrange_in in Hy.
    assert (G : repeat x r = repeat y r) by (apply (rm_inj base dims); auto; apply HI; auto).
    destruct r; [lia|]. cbn in G. congruence.
  - intros x h2 Hx Hag. apply zrange_in in Hx. rewrite subscript_inb by (cbn; apply HI; auto).
    eapply wr_some. rewrite Hag by auto. apply V. apply new_cell. apply HI. auto.
  - rewrite E'. cbn [bind]. exists h'. split; [reflexivity|]. split.
    + intros idx Hi. assert (HL : length idx = r) by (apply (inb_length _ _ Hi)). split.
      * intros Hd. destruct idx as [|x idx]; [simpl in HL; lia|].
        assert (Hx : 0 <= x < n).
        { destruct dims as [|d ds]; [congruence|]. apply inb_cons in Hi as (Hx & _). exact Hx. }
        rewrite (on_diagonal_repeat (x :: idx) x (or_introl eq_refl) Hd). rewrite HL. unfold elem.
        apply (V' x). apply zrange_in. auto.
      * intros Hd. unfold elem. rewrite F'.
        -- apply V. apply new_cell. auto.
        -- intros Hin. apply in_map_iff in Hin as (k & Ek & Hk). apply zrange_in in Hk.
           assert (G : repeat k r = idx) by (apply (rm_inj base dims); auto; apply HI; auto).
           apply Hd. rewrite <- G. intros a b Ha Hb. apply repeat_spec in Ha. apply repeat_spec in Hb. congruence.
    + intros a Ha. rewrite F'; [apply F; auto|]. intros Hin. apply in_map_iff in Hin as (k & <- & Hk).
      apply zrange_in in Hk. apply Ha. apply new_cell. apply HI. auto.
Qed.
Print Assumptions C92_identity_partial.

(** A matrix with more rows than columns: the loop writes behind the buffer. *)
Lemma forM_wr_miss : forall T (l : list Z) (ad : Z -> Z) (v : T) (h h' : heap T) x,
  In x l -> h (ad x) = None -> forM l (fun k h => wr h (ad k) v) h <> Ok h'.
Proof.
  intros T l ad v h h' x. revert h. induction l as [|y l IH]; intros h Hx Hn E; [destruct Hx|].
  cbn [forM] in E. destruct (wr h (ad y) v) as [h1| |] eqn:W; try discriminate. cbn [bind] in E.
  unfold wr in W. destruct (h (ad y)) eqn:Ey; [|discriminate]. injection W as <-.
  destruct Hx as [->|Hx]; [congruence|]. apply (IH (upd h (ad y) v)); auto. unfold upd.
  destruct (Z.eqb_spec (ad x) (ad y)) as [e|]; [exfalso; rewrite e, Ey in Hn; discriminate|exact Hn].
Qed.
Lemma forM_wr_nothrow : forall T (l : list Z) (ad : Z -> Z) (v : T) (h : heap T),
  forM l (fun k h => wr h (ad k) v) h <> Throw.
Proof.
  intros T l ad v. induction l as [|y l IH]; intros h; cbn [forM]; [discriminate|].
  unfold wr at 1. destruct (h (ad y)); cbn [bind]; [apply IH|discriminate].
Qed.
Theorem C92_identity_refuted :
  forall (O : Ops) (base r c : Z) (h : heap (car O)),
    0 <= c < r -> (forall z, base + r * c <= z -> h z = None) -> create_identity base [r; c] h = UB.
Proof.
  intros O base r c h Hc Hn. unfold create_identity.
  destruct (new_set_all O o0 base [r; c] h ltac:(discriminate)) as (h1 & E & V & F). rewrite E. cbn [bind].
  cbn [nth length repeat].
  assert (NT := forM_wr_nothrow (car O) (zrange r) (fun k => subscript (tensor_ctor base [r; c]) [k; k]) o1 h1).
  assert (M := forM_wr_miss (car O) (zrange r) (fun k => subscript (tensor_ctor base [r; c]) [k; k]) o1 h1).
  destruct (forM (zrange r) _ h1) as [h2| |] eqn:EE; [|elim NT; reflexivity|reflexivity].
  exfalso. apply (M h2 (r - 1)); [apply zrange_in; lia| |reflexivity].
  assert (A : subscript (tensor_ctor base [r; c]) [r - 1; r - 1] = base + (r - 1) * c + (r - 1)).
  { unfold subscript. cbn [tensor_ctor ddims wrap_negative]. destruct (Z.ltb_spec (r - 1) 0); [lia|].
    rewrite (mat_addr _ r c c) by apply tc_mat. reflexivity. }
  rewrite A. rewrite F; [apply Hn; nia|]. cbn [zprod]. nia.
Qed.
Print Assumptions C92_identity_refuted.

(** The 5 x 2 "identity" of a buffer that is followed by other memory writes
    there; before that it puts a one into element (3, 0). *)
Example C92_identity_wrong :
  match create_identity (O := ZOps) 0 [5; 2] (fun z => if z <? 20 then Some 7 else None) with
  | Ok (A, h) => elem h A [3; 0] = Some 1 /\ h 12 = Some 1 /\ h 11 = Some 7
  | _ => False
  end.
Proof. vm_compute. auto. Qed.

Lemma put_diagonal_ok : forall (O : Ops) (v : desc) (n inc base r c : Z) (x : list Z -> car O) (h : heap (car O)),
  vect v n inc -> n <= r -> n <= c -> holds h v x -> (forall z, cell v z -> ~ (base <= z < base + r * c)) ->
  (forall z, base <= z < base + r * c -> h z = Some o0) ->
  exists h', put_diagonal v (tensor_ctor base [r; c]) h = Ok h' /\
    holds h' (tensor_ctor base [r; c])
      (fun idx => if (nth 0 idx 0 =? nth 1 idx 0) && (nth 0 idx 0 <? n) then x [nth 0 idx 0] else o0) /\
    (forall z, ~ (base <= z < base + r * c) -> h' z = h z).
Proof.
  intros O v n inc base r c x h HV Hr Hc HX Hd HZ. unfold put_diagonal.
  assert (Dv : ddims v = [n]) by (destruct HV; auto). unfold tdim. rewrite Dv. cbn [nth].
  set (A := tensor_ctor base [r; c]).
  assert (HA : forall i, 0 <= i < n -> inb [i; i] [r; c]) by (intros; repeat constructor; lia).
  assert (HB : forall i, 0 <= i < n -> base <= addr A [i; i] < base + r * c).
  { intros i Hi. assert (G := new_cell base [r; c] [i; i] (HA i Hi)). cbn [zprod] in G. unfold A. lia. }
  destruct (forM_cells Z (car O) (zrange n) (fun i => addr A [i; i]) (fun i => x [i])
     (fun i h => y <- rd h (subscript v [i]) ;; wr h (subscript A [i; i]) y) h) as (h' & E & V & F).
  - apply NoDup_map_inj_in; [|apply zrange_NoDup]. intros a b Ha Hb Eab. apply zrange_in in Ha. apply zrange_in in Hb.
    assert (G : [a; a] = [b; b]) by (apply (rm_inj base [r; c]); auto; apply HA; auto). congruence.
  - intros i h2 Hi Hag. apply zrange_in in Hi. assert (Hvi : inb [i] (ddims v)) by (rewrite Dv; repeat constructor; lia).
    rewrite !subscript_inb by (auto; apply HA; auto).
    assert (R : h2 (addr v [i]) = Some (x [i])).
    { rewrite Hag; [apply HX; auto|]. right. rewrite in_map_iff. intros (k & Ek & Hk). apply zrange_in in Hk.
      apply (Hd (addr v [i])); [exists [i]; auto|]. rewrite <- Ek. apply HB. auto. }
    unfold rd. rewrite R. cbn [bind]. eapply wr_some. rewrite Hag by auto. apply HZ. apply HB. auto.
  - exists h'. split; [exact E|]. split.
    + intros idx Hi. cbn [A tensor_ctor ddims] in Hi. apply inb2_inv in Hi as (i & j & -> & Hi & Hj). cbn [nth].
      destruct (Z.eqb_spec i j) as [<-|Hij]; [destruct (Z.ltb_spec i n)|]; cbn [andb].
      * apply (V i). apply zrange_in. lia.
      * rewrite F; [apply HZ; assert (G := new_cell base [r; c] [i; i] ltac:(repeat constructor; lia)); cbn [zprod] in G; unfold A in *; lia|].
        rewrite in_map_iff. intros (k & Ek & Hk). apply zrange_in in Hk.
        assert (G : [k; k] = [i; i]) by (apply (rm_inj base [r; c]); [apply HA; auto|repeat constructor; lia|exact Ek]). injection G as ->. lia.
      * rewrite F; [apply HZ; assert (G := new_cell base [r; c] [i; j] ltac:(repeat constructor; lia)); cbn [zprod] in G; unfold A in *; lia|].
        rewrite in_map_iff. intros (k & Ek & Hk). apply zrange_in in Hk.
        assert (G : [k; k] = [i; j]) by (apply (rm_inj base [r; c]); [apply HA; auto|repeat constructor; lia|exact Ek]). injection G as -> ->. lia.
    + intros z Hz. apply F. rewrite in_map_iff. intros (k & <- & Hk). apply zrange_in in Hk. apply Hz. apply HB. auto.
Qed.

(** diagonal(v): v on the diagonal of a square matrix, zeros elsewhere. *)
Theorem C92_diagonal :
  forall (O : Ops) (v : desc) (n inc base : Z) (x : list Z -> car O) (h : heap (car O)),
    vect v n inc -> holds h v x -> (forall z, base <= z < base + n * n -> h z = None) ->
    exists h', create_diagonal v base h = Ok (tensor_ctor base [n; n], h') /\
      holds h' (tensor_ctor base [n; n]) (fun idx => if nth 0 idx 0 =? nth 1 idx 0 then x [nth 0 idx 0] else o0) /\
      only_buffer base [n; n] h h'.
Proof.
  intros O v n inc base x h HV HX Hfr. unfold create_diagonal. unfold tdim.
  assert (Dv : ddims v = [n]) by (destruct HV; auto). rewrite Dv. cbn [nth].
  destruct (new_set_all O o0 base [n; n] h ltac:(discriminate)) as (h1 & E & V & F). rewrite E. cbn [bind].
  cbn [zprod] in V. rewrite Z.mul_1_r in V.
  assert (KV : forall z, cell v z -> ~ (base <= z < base + n * n)).
  { intros z (i & Hi & ->) Hz. specialize (HX i Hi). rewrite Hfr in HX by auto. discriminate. }
  destruct (put_diagonal_ok O v n inc base n n x h1) as (h2 & E2 & V2 & F2); auto; try lia.
  { intros i Hi. rewrite F; [apply HX; auto|]. cbn [zprod]. rewrite Z.mul_1_r. apply KV. exists i. auto. }
  rewrite E2. cbn [bind]. exists h2. split; [reflexivity|]. split.
  - intros idx Hi. rewrite (V2 idx Hi). cbn [tensor_ctor ddims] in Hi. apply inb2_inv in Hi as (i & j & -> & Hi & Hj).
    cbn [nth]. rewrite (proj2 (Z.ltb_lt i n)) by lia. rewrite andb_true_r. reflexivity.
  - intros z Hz. cbn [zprod] in Hz. rewrite Z.mul_1_r in Hz. rewrite F2 by auto. apply F. cbn [zprod]. rewrite Z.mul_1_r. auto.
Qed.
Print Assumptions C92_diagonal.

(** diagonal_like(v, like): v on the diagonal of a matrix shaped like [like]
    that is large enough.  Missing: see [C92_diagonal_like_refuted]. *)
Theorem C92_diagonal_like_partial :
  forall (O : Ops) (v like : desc) (n inc r c base : Z) (x : list Z -> car O) (h : heap (car O)),
    vect v n inc -> ddims like = [r; c] -> n <= r -> n <= c ->
    holds h v x -> (forall z, base <= z < base + r * c -> h z = None) ->
    exists h', create_diagonal_like v like base h = Ok (tensor_ctor base [r; c], h') /\
      holds h' (tensor_ctor base [r; c])
        (fun idx => if (nth 0 idx 0 =? nth 1 idx 0) && (nth 0 idx 0 <? n) then x [nth 0 idx 0] else o0) /\
      only_buffer base [r; c] h h'.
Proof.
  intros O v like n inc r c base x h HV HL Hr Hc HX Hfr. unfold create_diagonal_like. rewrite HL.
  destruct (new_set_all O o0 base [r; c] h ltac:(discriminate)) as (h1 & E & V & F). rewrite E. cbn [bind].
  cbn [zprod] in V. rewrite Z.mul_1_r in V.
  assert (KV : forall z, cell v z -> ~ (base <= z < base + r * c)).
  { intros z (i & Hi & ->) Hz. specialize (HX i Hi). rewrite Hfr in HX by auto. discriminate. }
  destruct (put_diagonal_ok O v n inc base r c x h1) as (h2 & E2 & V2 & F2); auto.
  { intros i Hi. rewrite F; [apply HX; auto|]. cbn [zprod]. rewrite Z.mul_1_r. apply KV. exists i. auto. }
  rewrite E2. cbn [bind]. exists h2. split; [reflexivity|]. split; auto.
  intros z Hz. cbn [zprod] in Hz. rewrite Z.mul_1_r in Hz. rewrite F2 by auto. apply F. cbn [zprod]. rewrite Z.mul_1_r. auto.
Qed.
Print Assumptions C92_diagonal_like_partial.

(** Three values for a 5 x 2 matrix: the third one lands in row 3, column 0.
    For a 3 x 2 matrix it lands behind the buffer. *)
Theorem C92_diagonal_like_refuted :
  let v := tensor_ctor 0 [3] in let h := fun z => if (0 <=? z) && (z <? 3) then Some (z + 5) else None in
  (exists A h', create_diagonal_like (O := ZOps) v (tensor_ctor 50 [5; 2]) 10 h = Ok (A, h') /\ elem h' A [3; 0] = Some 7) /\
  create_diagonal_like (O := ZOps) v (tensor_ctor 50 [3; 2]) 10 h = UB.
Proof. cbv zeta. split; [eexists; eexists; split; [reflexivity|vm_compute; reflexivity]|vm_compute; reflexivity]. Qed.
Print Assumptions C92_diagonal_like_refuted.

Example C92_case :
  (exists A h', create_incremented (O := ZOps) 1 3 [2; 3] (fun _ => None) = Ok (A, h') /\
     elem h' A [1; 2] = Some 5 /\ place [1; 2] [2; 3] = 5) /\
  (exists A h', create_identity (O := ZOps) 3 [2; 3; 4] (fun _ => None) = Ok (A, h') /\
     elem h' A [1; 1; 1] = Some 1 /\ elem h' A [0; 1; 1] = Some 0) /\
  Forall (fun d => nth 0 [2; 3; 4] 0 <= d) [2; 3; 4] /\ on_diagonal [1; 1; 1] /\ ~ on_diagonal [0; 1; 1] /\
  (exists A h', create_diagonal (O := ZOps) (mkDesc 0 [2] [2]) 10 (fun z => if z <? 10 then Some z else None) = Ok (A, h') /\
     elem h' A [1; 1] = Some 2 /\ elem h' A [0; 1] = Some 0).
Proof.
  split; [do 2 eexists; split; [reflexivity|split; vm_compute; reflexivity]|].
  split; [do 2 eexists; split; [reflexivity|split; vm_compute; reflexivity]|].
  split; [repeat constructor; cbn; lia|].
  split; [intros x y Hx Hy; cbn in Hx, Hy; lia|]. split; [intros H; specialize (H 0 1); cbn in H; lia|].
  do 2 eexists; split; [reflexivity|split; vm_compute; reflexivity].
Qed.
