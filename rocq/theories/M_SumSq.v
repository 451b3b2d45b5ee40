(** * M_SumSq: sum_square.  Model definitions only.
    "BL" is /repo/src/include/einsums/linear_algebra_imp/BaseLinearAlgebra.hpp. *)
From Coq Require Import List ZArith Bool.
From Verif Require Import Base Heap Conc M_Addr M_Einsum.
Import ListNotations.
Open Scope Z_scope.

Section SumSq.
  (** [T]: the elements; [K]: the real numbers belonging to them. *)
  Context {T K : Type}.
  (** lassq of LAPACK on the elements it is given, in order: any function here,
      its contract is in S_SumSq (Vendor.cpp 648-670 only passes it on). *)
  Variable lassq : list T -> K -> K -> K * K.

  Fixpoint gather (l : list Z) (h : heap T) : res (list T) :=
    match l with
    | [] => Ok []
    | z :: r => match h z with Some v => t <- gather r h ;; Ok (v :: t) | None => UB end
    end.
  (** Where lassq looks by its documentation: [n] elements [incx] apart; a
      negative step counts from the end; none for [n <= 0]. *)
  Definition lassq_at (x n incx : Z) : list Z :=
    map (fun i => x + (if incx <? 0 then (1 - n) * incx else 0) + i * incx) (zrange n).
  (** BL 11-17 [sum_square]: extent and stride become [int] (14-15).  LinearAlgebra.hpp
      65-68 only calls it. *)
  Definition sum_square (a : desc) (scale sumsq : K) (h : heap T) : res (K * K) :=
    let n := to_int32 (tdim a 0) in
    let incx := to_int32 (tstride a 0) in
    xs <- gather (lassq_at (dbase a) n incx) h ;;
    Ok (lassq xs scale sumsq).
End SumSq.
