(** * Num: concrete element types used in examples and counterexamples. *)
From Coq Require Import List ZArith Lia Bool QArith Qcanon Ring Ring_theory Field_theory SpecFloat.
From Verif Require Import Base.
Open Scope Z_scope.

(** Exact rationals. *)
Definition QcOps : Ops :=
  mkOps Qc 0%Qc 1%Qc Qcplus Qcmult Qcminus Qcopp Qcdiv (fun x y => if Qc_eq_dec x y then true else false).
Lemma QcOps_ring : is_ring QcOps.
Proof.
  split.
  - exact Qcrt.
  - intros x y. simpl. destruct (Qc_eq_dec x y); split; intros; auto; try discriminate; contradiction.
Qed.

(** C++ [int] (without overflow): division truncates. *)
Definition IntOps : Ops := mkOps Z 0 1 Z.add Z.mul Z.sub Z.opp Z.quot Z.eqb.

(** IEEE 754 binary64 with round-to-nearest-even, by the executable
    specification of the standard library (Coq.Floats.SpecFloat). *)
Definition f64_one : spec_float := S754_finite false (2 ^ 52) (-52).
Definition F64Ops : Ops :=
  mkOps spec_float (S754_zero false) f64_one (SFadd 53 1024) (SFmul 53 1024) (SFsub 53 1024) SFopp (SFdiv 53 1024) SFeqb.
(** Conversion of a double to an integer, towards zero. *)
Definition f64_trunc (x : spec_float) : Z :=
  match x with
  | S754_finite s m e =>
      let v := if 0 <=? e then Z.pos m * 2 ^ e else Z.pos m / 2 ^ (- e) in if s then - v else v
  | _ => 0
  end.
(** The double nearest to an integer. *)
Definition f64_ofZ (z : Z) : spec_float := binary_normalize 53 1024 z 0 false.
(** The double nearest to [p/q]. *)
Definition f64_frac (p q : Z) : spec_float := SFdiv 53 1024 (f64_ofZ p) (f64_ofZ q).

(** Complex numbers over [O] (division is not used). *)
Definition CxOps (O : Ops) : Ops :=
  mkOps (car O * car O) (o0, o0) (o1, o0)
    (fun x y => (oadd (fst x) (fst y), oadd (snd x) (snd y)))
    (fun x y => (osub (omul (fst x) (fst y)) (omul (snd x) (snd y)), oadd (omul (fst x) (snd y)) (omul (snd x) (fst y))))
    (fun x y => (osub (fst x) (fst y), osub (snd x) (snd y)))
    (fun x => (oopp (fst x), oopp (snd x)))
    (fun x y => x)
    (fun x y => oeqb (fst x) (fst y) && oeqb (snd x) (snd y)).
Definition cconj {O : Ops} (x : car (CxOps O)) : car (CxOps O) := (fst x, oopp (snd x)).
Section Cx.
  Context {O : Ops} (HR : is_ring O).
  Add Ring CxR : (ir_rt O HR).
  Lemma CxOps_ring : is_ring (CxOps O).
  Proof.
    split.
    - constructor; intros; repeat match goal with x : car (CxOps O) |- _ => destruct x end; simpl; f_equal; ring.
    - intros [x1 x2] [y1 y2]. simpl. rewrite andb_true_iff, !(ir_eqb O HR). split; [intros [-> ->]; auto|intros E; injection E; auto].
  Qed.
End Cx.
