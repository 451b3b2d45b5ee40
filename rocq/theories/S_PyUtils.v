(** * S_PyUtils: iterators over indices and random fillings. *)
From Coq Require Import List ZArith.
From Verif Require Import Base.
From Verif Require Import M_PyTensor M_PyUtils.
Import ListNotations.

(** An iterator is the list of the indices it has still to give; [next] gives
    and removes the first. *)
Definition rest_step (st : list (list (list Z))) (o : ti_op) : list (list (list Z)) * list (option (list Z)) :=
  match o with
  | TNew dims => (st ++ [indices dims], [])
  | TCopy k => (st ++ [nth k st []], [])
  | TReversed k => (st, [])
  | TNext k => match nth k st [] with
               | [] => (st, [None])
               | x :: r => (firstn k st ++ r :: skipn (S k) st, [Some x])
               end
  end.
Fixpoint rest_run (st : list (list (list Z))) (os : list ti_op) : list (option (list Z)) :=
  match os with [] => [] | o :: r => snd (rest_step st o) ++ rest_run (fst (rest_step st o)) r end.
(** Programs that reverse nothing, use only iterators that exist ([n] of them at
    the start) and tensors with extents that are not negative. *)
Fixpoint forward (n : nat) (os : list ti_op) : Prop :=
  match os with
  | [] => True
  | TNew dims :: r => Forall (fun d => 0 <= d)%Z dims /\ forward (S n) r
  | TCopy k :: r => (k < n)%nat /\ forward (S n) r
  | TReversed _ :: _ => False
  | TNext k :: r => (k < n)%nat /\ forward n r
  end.
(** Element number [n] of a random tensor, from the values the function gives:
    [x k] (and the imaginary part [y k]) at call number [k].  Call 0 is only a
    trial.  [ce]: the elements are complex; [cf]: the function gives complex
    numbers.  Real values are used in pairs for complex elements; of complex
    values only the real part is used for real elements. *)
Definition wanted {O : Ops} (ce cf : bool) (rnd : car O -> car O) (x y : nat -> car O) (n : nat) : car O * car O :=
  if ce then if cf then (rnd (x (1 + n)%nat), rnd (y (1 + n)%nat)) else (rnd (x (1 + 2 * n)%nat), rnd (x (2 + 2 * n)%nat))
  else (rnd (x (1 + n)%nat), o0).
(** Calls for each element. *)
Definition calls (ce cf : bool) : nat := if (ce && negb cf)%bool then 2%nat else 1%nat.
(** The data types a tensor can have, and those with complex elements. *)
Definition tensor_types : list item := [F32; F64; C64; C128].
Definition complex_elements (te : item) : bool := match te with C64 | C128 => true | _ => false end.
