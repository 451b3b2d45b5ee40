(** * T_Value: dense tensors behave as values (C68). *)
From Coq Require Import List ZArith Lia Bool.
From Verif Require Import Base Heap Conc M_Addr S_Addr L_Addr M_Elt M_Value S_Value L_Value L_Value2.
Import ListNotations.
Open Scope Z_scope.

Lemma ins_owns : forall vs x a, ins (vs x) a <-> owns vs x a.
Proof.
  intros vs x a. unfold owns, ins, inside. destruct (vs x) as [o|]; split.
  - intros H. exists o. auto.
  - intros (p & E & H). injection E as <-. auto.
  - tauto.
  - intros (p & E & _). discriminate.
Qed.

(** Full claim: every sequence of statements that makes sense for values
    ([aruns]) has exactly that effect: same exceptions, same extents and
    elements; no two variables share memory, memory of others is untouched,
    and exactly the memory of the living variables is allocated.  Missing (and
    false, see the [_refuted] theorems): the cases excluded by [ops_ok]. *)
Theorem C68_values_partial :
  forall (T : Type) (zero : T) pl (os : list (vop T)) bs s' (h0 : heap T),
  place_ok pl -> aruns zero os (fun _ => None) = Some (bs, s') -> ops_ok zero os (fun _ => None) ->
  (vruns zero pl os (fun _ => None, h0) = Throw /\ exhausted pl) \/
  exists vs h, vruns zero pl os (fun _ => None, h0) = Ok (bs, (vs, h)) /\
    (forall x, s' x = None <-> vs x = None) /\
    (forall x d xs, s' x = Some (Val d xs) -> exists o, vs x = Some o /\ ddims (ob_desc o) = d /\ Z.of_nat (length xs) = zprod d /\
       forall inds k, position 0 d inds = Some k -> exists e, nth_error xs (Z.to_nat k) = Some e /\ obj_get o inds h = Ok e) /\
    (forall x y a, x <> y -> owns vs x a -> ~ owns vs y a) /\
    (forall a, h0 a <> None -> h a = h0 a /\ forall x, ~ owns vs x a) /\
    (forall a, h a <> None <-> h0 a <> None \/ exists x, owns vs x a).
Proof.
  intros T zero pl os bs s' h0 HP HA HO.
  assert (I0 : Inv h0 (fun _ => None, h0) (fun _ => None)).
  { split; [|split; [|split]]; simpl; auto. }
  destruct (runs_ok T zero pl HP h0 os _ _ _ _ _ I0 HA HO) as [X|((vs, h) & E & (I1 & I2 & I3 & I4))]; [left; exact X|right].
  exists vs, h. split; auto. split; [|split; [|split; [|split]]].
  - intros x. specialize (I1 x). unfold rep_opt in I1. destruct (vs x), (s' x); try tauto; split; congruence.
  - intros x d xs Ex. specialize (I1 x). rewrite Ex in I1. unfold rep_opt in I1. destruct (vs x) as [o|]; [|tauto]. exists o. split; auto.
    destruct I1 as (R1 & R2 & R3 & R4 & R5 & R6). split; [now rewrite R1|]. split; auto. intros inds k Hk.
    destruct (position_range _ _ _ Hk) as (Rk & Ek). destruct (nth_error xs (Z.to_nat k)) as [e|] eqn:Ee; [|apply nth_error_None in Ee; lia].
    exists e. split; auto. unfold obj_get. assert (Eo : ordinal o inds = k) by (unfold ordinal; rewrite R1; simpl; congruence).
    rewrite Eo. apply vec_rd_ok; [lia|]. rewrite R6; auto. lia.
  - intros x y a Hxy Hx Hy. apply (I2 x y a Hxy); now apply ins_owns.
  - intros a Ha. destruct (I3 a Ha) as (A & B). split; auto. intros x Hx. apply (B x). now apply ins_owns.
  - intros a. split.
    + intros Ha. destruct (I4 a Ha) as [A|(x & A)]; auto. right. exists x. now apply ins_owns.
    + intros [Ha|(x & Hx)]; [destruct (I3 a Ha); congruence|]. apply ins_owns in Hx. apply (rep_opt_alloc T h (vs x) (s' x)); auto.
Qed.
Print Assumptions C68_values_partial.

(** ** An allocator for the cases: the first multiple of 10 below 100 that fits. *)
Definition first_fit {T} (h : heap T) (b len n : Z) : option Z :=
  find (fun p => forallb (fun k => match h (p + k) with None => true | Some _ => false end) (zrange n)) (map (Z.mul 10) (zrange 10)).

Lemma first_fit_ok : forall T, place_ok (@first_fit T).
Proof.
  intros T h b len n p k _ E Hk. left. apply find_some in E as (_ & E). rewrite forallb_forall in E. specialize (E k).
  rewrite zrange_in in E. specialize (E Hk). destruct (h (p + k)); congruence.
Qed.

(** Moved-from tensors.  After the vector of variable 0 moved to variable 2,
    assigning a tensor of the old extents to variable 0 copies into a vector
    without elements; a tensor of other extents is fine. *)
Theorem C68_moved_from_refuted :
  let prog d := [VMake 0%nat [2; 2]; VMake 1%nat d; VReshape 2%nat 0%nat [4]; VAssign 0%nat 1%nat] in
  (exists s, aruns 0 (prog [2; 2]) (fun _ => None) = Some ([false; false; false; false], s) /\ s 0%nat = Some (Val [2; 2] [0; 0; 0; 0])) /\
  vruns 0 first_fit (prog [2; 2]) (fun _ => None, fun _ => None) = UB /\
  (exists st, vruns 0 first_fit (prog [3; 2]) (fun _ => None, fun _ => None) = Ok ([false; false; false; false], st)).
Proof. split; [eexists; split; reflexivity|]. split; [vm_compute; reflexivity|]. eexists. vm_compute. reflexivity. Qed.
Print Assumptions C68_moved_from_refuted.

(** [resize] of a moved-from tensor to its old extents does nothing: writing an
    element afterwards is undefined. *)
Theorem C68_resize_refuted :
  let prog := [VMake 0%nat [2; 2]; VReshape 1%nat 0%nat [4]; VResize 0%nat [2; 2]; VWrite 0%nat [1; 1] 7] in
  (exists s, aruns 0 prog (fun _ => None) = Some ([false; false; false; false], s) /\ s 0%nat = Some (Val [2; 2] [0; 0; 0; 7])) /\
  vruns 0 first_fit prog (fun _ => None, fun _ => None) = UB.
Proof. split; [eexists; split; reflexivity|]. vm_compute. reflexivity. Qed.
Print Assumptions C68_resize_refuted.

(** Assigning a tensor of another element type to a moved-from matrix throws. *)
Theorem C68_cast_refuted :
  let prog := [VMake 0%nat [2; 2]; VMake 1%nat [3; 3]; VReshape 2%nat 0%nat [4]; VAssignCast Z.opp 0%nat 1%nat] in
  (exists s, aruns 0 prog (fun _ => None) = Some ([false; false; false; false], s)) /\
  (exists st, vruns 0 first_fit prog (fun _ => None, fun _ => None) = Ok ([false; false; false; true], st)).
Proof. split; eexists; vm_compute; reflexivity. Qed.
Print Assumptions C68_cast_refuted.

(** Arithmetic assignment with 2^32 elements on one side and none on the other
    is not rejected and reads outside the empty vector. *)
Theorem C68_size_refuted :
  let a := mkObj (tensor_ctor 0 [2 ^ 32]) (2 ^ 32) in
  let b := mkObj (tensor_ctor 0 [0]) 0 in
  let vs := fun x => if Nat.eqb x 0 then Some a else Some b in
  forall h : heap Z, vstep 0 first_fit (VOpT Z.add 0%nat 1%nat) (vs, h) = UB.
Proof.
  intros a b vs h. unfold vstep, vs. cbn [Nat.eqb]. unfold obj_op2. replace (size_model _ =? size_model _) with true by reflexivity. cbn [negb].
  assert (G : forall n body, 0 < n -> body 0 h = @UB (heap Z) -> forM (zrange n) body h = UB).
  { intros n body Hn Hb. replace n with (Z.of_nat (S (Z.to_nat (n - 1)))) by lia. unfold zrange. rewrite Nat2Z.id. cbn [seq map forM]. 
    change (Z.of_nat 0) with 0. now rewrite Hb. }
  rewrite G; [reflexivity|reflexivity|]. reflexivity.
Qed.
Print Assumptions C68_size_refuted.

(** A program with every kind of statement: two exceptions, self-assignment, a
    default-constructed variable, growing, shrinking, and a dropped variable. *)
Definition case_prog : list (vop Z) :=
  [VMake 0%nat [2; 2]; VWrite 0%nat [-1; 0] 5; VCopy 1%nat 0%nat; VOpS Z.add 1%nat 3; VDefault 2%nat [7; 1] [4; 4]; VAssign 2%nat 1%nat;
   VWrite 1%nat [0; 1] 9; VOpT Z.mul 2%nat 0%nat; VResize 0%nat [2; 3]; VAssign 0%nat 0%nat; VOpT Z.sub 0%nat 1%nat;
   VAssignCast Z.opp 0%nat 1%nat; VMake 3%nat [0; 0]; VAssignCast Z.opp 3%nat 1%nat; VReshape 4%nat 1%nat [-1]; VFill 4%nat 6;
   VResize 4%nat [2]; VDrop 3%nat].

Example C68_case :
  exists bs s, aruns 0 case_prog (fun _ => None) = Some (bs, s) /\
    bs = [false; false; false; false; false; false; false; false; false; false; true; true; false; false; false; false; false; false] /\
    map s [0; 1; 2; 3; 4]%nat = [Some (Val [2; 3] [0; 0; 5; 0; 0; 0]); Some (Hollow [2; 2]); Some (Val [2; 2] [0; 0; 40; 0]); None; Some (Val [2] [6; 6])] /\
    ops_ok 0 case_prog (fun _ => None) /\
    match vruns 0 first_fit case_prog (fun _ => None, fun _ => None) with
    | Ok (cs, (vs, h)) =>
        cs = bs /\ match vs 2%nat with Some o => obj_get o [1; 0] h = Ok 40 /\ obj_get o [-1; -2] h = Ok 40 | None => False end
    | _ => False
    end.
Proof.
  do 2 eexists. split; [reflexivity|]. split; [reflexivity|]. split; [reflexivity|]. split.
  - cbn -[Z.lt Z.pow]. repeat split; try discriminate; try (right; discriminate).
  - vm_compute. repeat split; reflexivity.
Qed.
