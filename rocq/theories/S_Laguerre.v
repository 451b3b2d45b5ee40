(** * S_Laguerre: Laguerre polynomials by their coefficients, series, formal
    derivatives. *)
From Coq Require Import List Arith.
From Verif Require Import Base.
Import ListNotations.

Section S.
  Context {O : Ops}.
  Notation T := (car O).

  Fixpoint num (n : nat) : T := match n with 0 => o0 | S m => oadd o1 (num m) end.
  Fixpoint pow (x : T) (n : nat) : T := match n with 0 => o1 | S m => omul x (pow x m) end.
  (** f 0 + ... + f (n-1). *)
  Fixpoint psum (f : nat -> T) (n : nat) : T := match n with 0 => o0 | S m => oadd (psum f m) (f m) end.

  (** A field of characteristic 0. *)
  Record is_field0 : Prop := mkField0 {
    f_ring : is_ring O;
    f_div : forall a b : T, b <> o0 -> omul (odiv a b) b = a;
    f_char : forall n, num (S n) <> o0;
    f_int : forall a b : T, omul a b = o0 -> a = o0 \/ b = o0
  }.

  Fixpoint binom (n p : nat) : nat :=
    match n, p with
    | _, 0 => 1
    | 0, S _ => 0
    | S n', S p' => binom n' p' + binom n' p
    end.

  (** The coefficient of x^p in the Laguerre polynomial of degree k is
      (-1)^p * binomial(k,p) / p!. *)
  Definition lcoef (k p : nat) : T := odiv (omul (pow (oopp o1) p) (num (binom k p))) (num (fact p)).
  Definition laguerre (k : nat) (x : T) : T := psum (fun p => omul (lcoef k p) (pow x p)) (S k).
  (** The series sum_k c_k L_k at a point, and its coefficient of x^p. *)
  Definition series (c : list T) (x : T) : T := psum (fun k => omul (nth k c o0) (laguerre k x)) (length c).
  Definition scoef (c : list T) (p : nat) : T := psum (fun k => omul (nth k c o0) (lcoef k p)) (length c).
  (** Formal derivative of a polynomial given by its coefficients. *)
  Definition dcoef (f : nat -> T) (p : nat) : T := omul (num (S p)) (f (S p)).
End S.
Arguments is_field0 : clear implicits.
