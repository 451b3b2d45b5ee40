(** * S_SumSq: what lassq promises. *)
From Coq Require Import List.
From Verif Require Import Base.

(** The documentation of lassq: scale_out^2 * sumsq_out = |x_1|^2 + ... + |x_n|^2 +
    scale^2 * sumsq, for the values [dom] it accepts (those that are not negative).
    [abs2] is the square of the magnitude of an element. *)
Definition lassq_spec {O : Ops} {T} (abs2 : T -> car O) (dom : car O -> Prop) (lassq : list T -> car O -> car O -> car O * car O) : Prop :=
  forall xs s q, dom s -> dom q ->
  let r := lassq xs s q in
  omul (omul (fst r) (fst r)) (snd r) = oadd (lsum xs abs2) (omul (omul s s) q).
