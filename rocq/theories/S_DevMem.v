(** * S_DevMem: what a program with device tensors is expected to compute.

    A tensor is a value: a mode, extents and its elements in row-major order.
    Names stand for values; nothing is shared.  [astep] gives no result where
    nothing is promised: names that do not exist or exist already, extents that
    are not positive, ranks that do not match, positions outside, tensors that
    have no value.  It gives none, either, for two uses that a reader would
    expect to work and that do not (see the refuted statements): [resize] to
    other extents with the same number of elements, and the use, other than
    destruction and assignment, of a tensor whose elements were taken, or its
    assignment in the mode MAPPED. *)
From Coq Require Import List ZArith Lia Bool.
From Verif Require Import Base M_DevMem S_Value.
Import ListNotations.
Open Scope Z_scope.

Inductive aten :=
  | AVal (m : hmode) (dims : list Z) (elts : list (option Z))
  | ADefault                (* default constructed *)
  | AMoved (m : hmode).     (* its elements were taken *)
Definition astate := nat -> option aten.
Definition aput (id : nat) (x : option aten) (a : astate) : astate := fun k => if Nat.eqb k id then x else a k.

Definition real (m : hmode) : bool := match m with MUnknown => false | _ => true end.
Definition mapped (m : hmode) : bool := match m with MMapped => true | _ => false end.
(** At least one extent, all positive. *)
Definition proper_dims (dims : list Z) : bool := negb (Nat.eqb (length dims) 0) && forallb (fun d => 0 <? d) dims.
(** Nothing is known about elements that were not written. *)
Definition unset (dims : list Z) : list (option Z) := repeat None (Z.to_nat (zprod dims)).
Definition same_rank (d e : list Z) : bool := Nat.eqb (length d) (length e).
Definition fits (dims l : list Z) : bool := Z.of_nat (length l) =? zprod dims.
Definition given (b : bool) (x : option astate) : option astate := if b then x else None.
Definition is_new (a : astate) (id : nat) : bool := match a id with None => true | Some _ => false end.

Definition astep (o : dop) (a : astate) : option astate :=
  match o with
  | DNew id m dims => given (is_new a id && real m && proper_dims dims) (Some (aput id (Some (AVal m dims (unset dims))) a))
  | DDefault id _ => given (is_new a id) (Some (aput id (Some ADefault) a))
  | DCopy id src =>
      match a src with
      | Some (AVal m d v) => given (is_new a id) (Some (aput id (Some (AVal m d v)) a))
      | _ => None end
  | DHost id m dims l =>
      given (is_new a id && real m && proper_dims dims && fits dims l) (Some (aput id (Some (AVal m dims (map Some l))) a))
  | DMove id src dims =>
      match a src with
      | Some (AVal m d v) => given (is_new a id && proper_dims dims && (zprod dims =? zprod d))
                               (Some (aput id (Some (AVal m dims v)) (aput src (Some (AMoved m)) a)))
      | _ => None end
  | DResize id dims =>
      match a id with
      | Some (AVal m d v) =>
          if list_eq_dec Z.eq_dec dims d then Some a
          else given (proper_dims dims && same_rank dims d && negb (zprod dims =? zprod d)) (Some (aput id (Some (AVal m dims (unset dims))) a))
      | _ => None end
  | DAssign id src =>
      match a id, a src with
      | Some (AVal m d _), Some (AVal _ d' v) => given (same_rank d d') (Some (aput id (Some (AVal m d' v)) a))
      | Some ADefault, Some (AVal m d' v) => Some (aput id (Some (AVal m d' v)) a)
      | Some (AMoved m), Some (AVal _ d' v) => given (negb (mapped m)) (Some (aput id (Some (AVal m d' v)) a))
      | _, _ => None end
  | DAssignHost id dims l =>
      match a id with
      | Some (AVal m d _) => given (proper_dims dims && same_rank d dims && fits dims l) (Some (aput id (Some (AVal m dims (map Some l))) a))
      | _ => None end
  | DFill id v =>
      match a id with Some (AVal m d l) => Some (aput id (Some (AVal m d (map (fun _ => Some v) l))) a) | _ => None end
  | DRead id l =>
      match a id with
      | Some (AVal m d v) => given (Z.of_nat (length l) <=? zprod d) (Some (aput id (Some (AVal m d (map Some l ++ skipn (length l) v))) a))
      | _ => None end
  | DSet id ix x =>
      match a id with
      | Some (AVal m d v) =>
          match position 0 d ix with
          | Some k => Some (aput id (Some (AVal m d (firstn (Z.to_nat k) v ++ Some x :: skipn (Z.to_nat (k + 1)) v))) a)
          | None => None end
      | _ => None end
  | DDel id => given (negb (is_new a id)) (Some (aput id None a))
  end.
Fixpoint arun (os : list dop) (a : astate) : option astate :=
  match os with [] => Some a | o :: r => match astep o a with Some a1 => arun r a1 | None => None end end.
Definition nothing : astate := fun _ => None.

(** The state shows a value: what the members of the tensor return. *)
Definition shows (s : dstate) (id : nat) (x : option aten) : Prop :=
  match x with
  | None => assoc_ten id s = None
  | Some (AVal m d v) =>
      (exists t, assoc_ten id s = Some t /\ t_mode t = m /\ t_dims t = d) /\
      write_list id s = ROk v s /\
      forall ix k, position 0 d ix = Some k -> exists e, nth_error v (Z.to_nat k) = Some e /\ get id ix s = ROk e s
  | Some _ => exists t, assoc_ten id s = Some t
  end.
Definition is_move (o : dop) : bool := match o with DMove _ _ _ => true | _ => false end.
Definition moves (os : list dop) : nat := length (filter is_move os).
