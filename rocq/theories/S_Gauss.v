(** * S_Gauss: what a Gauss-Laguerre rule is. *)
From Coq Require Import List ZArith.
From Verif Require Import Base S_Laguerre.
Import ListNotations.

Section S.
  Context {O : Ops}.
  Notation T := (car O).

  (** The polynomial with coefficients p, lowest first, at t. *)
  Definition poly (p : list T) (t : T) : T := psum (fun k => omul (nth k p o0) (pow t k)) (length p).
  (** Its integral against exp(-t) over the positive numbers: t^k gives k!. *)
  Definition integral (p : list T) : T := psum (fun k => omul (nth k p o0) (num (fact k))) (length p).
  (** The sum of w_i f(x_i). *)
  Definition quadrature (x w : list T) (f : T -> T) : T :=
    psum (fun i => omul (nth i w o0) (f (nth i x o0))) (length x).
  (** The recurrence of the Laguerre polynomials as a symmetric matrix: 2i+1 in
      row i of the diagonal, -(i+1) between rows i and i+1. *)
  Definition recurrence (i j : Z) : T :=
    if Z.eqb i j then num (2 * Z.to_nat i + 1)
    else if Z.eqb j (i + 1) then oopp (num (Z.to_nat j))
    else if Z.eqb i (j + 1) then oopp (num (Z.to_nat i))
    else o0.
End S.
