(** * M_Generic: linear algebra on tensors that are not backed by BLAS (at least
    one operand is a function tensor).  Model definitions only.
    File: /repo/src/include/einsums/linear_algebra_imp/UnoptimizedLinearAlgebra.hpp
    (lines without a file name).  [scale] (242-267) accepts no tensor type of the
    library that can be written to and is not modelled. *)
From Coq Require Import List ZArith Lia Bool.
From Verif Require Import Base Heap Conc M_Addr M_Einsum M_Fun M_Red.
Import ListNotations.
Open Scope Z_scope.

Section Generic.
  Context {O : Ops}.
  Notation T := (car O).

  (** A read-only operand: a dense tensor or view, or a function tensor. *)
  Inductive operand := ODense (d : desc) | OFun (t : @ftensor T).
  (** [A.dim(i)] *)
  Definition odims (x : operand) : list Z := match x with ODense d => ddims d | OFun t => fdims t end.
  Definition odim (x : operand) (i : nat) : Z := nth i (odims x) 0.
  (** [A(i, j, ...)]: one memory access, or a call of the function (evaluated
      when the program is built: it does not depend on memory). *)
  Definition oread (x : operand) (idx : list Z) : res (prog T T) :=
    match x with
    | ODense d => Ok (pread (subscript d idx))
    | OFun t => v <- fget t idx ;; Ok (PRet v)
    end.
  (** The same, executed in memory [h]. *)
  Definition oval (x : operand) (idx : list Z) (h : heap T) : res T :=
    p <- oread x idx ;; r <- run p h ;; Ok (fst r).

  (** 38-44, 77-83, 212-218: [index[i] = quotient / strides[i]] (an [int]),
      [quotient %= strides[i]]; division by zero is undefined. *)
  Fixpoint gindex (q : Z) (strides : list Z) : res (list Z) :=
    match strides with
    | [] => Ok []
    | s :: ss => if s =? 0 then UB else r <- gindex (q mod s) ss ;; Ok (to_int32 (q / s) :: r)
    end.
  (** 27-34, 66-73, 191-208: the extents are compared; strides and total. *)
  Definition same_dims (a b : list Z) : bool := if list_eq_dec Z.eq_dec a b then true else false.

  (** A parallel loop: [parts] lists the iterations of each thread. *)
  Definition gen_pool {X} (body : X -> res (prog T unit)) (parts : list (list X)) : res (list (prog T unit)) :=
    mapR (fun r => ps <- mapR body r ;; Ok (pseq ps (fun p => p))) parts.

  (** 13-50 [dot] ([cj] the identity), 52-93 [true_dot] ([cj] the conjugation):
      each thread adds its iterations to a private copy, the copies are added up. *)
  Definition gen_dot_part (cj : T -> T) (A B : operand) (strides : list Z) (h : heap T) (part : list Z) : res T :=
    forM part (fun s acc =>
      idx <- gindex s strides ;; a <- oval A idx h ;; b <- oval B idx h ;; Ok (oadd acc (omul (cj a) b))) o0.
  Definition gen_dot (cj : T -> T) (A B : operand) (parts : list (list Z)) (h : heap T) : res T :=
    if negb (same_dims (odims A) (odims B)) then Throw
    else let strides := fst (dims_to_strides (odims A)) in
         forM parts (fun part out => s <- gen_dot_part cj A B strides h part ;; Ok (oadd out s)) o0.
  (** Number of iterations ([prod]). *)
  Definition gen_total (A : operand) : Z := snd (dims_to_strides (odims A)).

  (** 119-131, 160-168: the inner loop; [terms] are the pairs of factors read. *)
  Definition inner_sum (terms : list (prog T T * prog T T)) : prog T T :=
    pfold terms (fun s ab => pbind (fst ab) (fun x => pbind (snd ab) (fun y => PRet (oadd s (omul x y))))) o0.
  (** 132-136, 170-174: [beta == 0] overwrites. *)
  Definition store (alpha beta : T) (a : Z) (sum : T) : prog T unit :=
    if oeqb beta o0 then pwrite a (omul alpha sum)
    else PRd a (fun c => pwrite a (oadd (omul beta c) (omul alpha sum))).

  (** 116-138: one iteration of the collapsed loop of [gemm]. *)
  Definition gen_gemm_body (TA TB : bool) (alpha : T) (A B : operand) (beta : T) (C : desc) (inner : Z) (ij : Z * Z)
    : res (prog T unit) :=
    let (i, j) := ij in
    terms <- mapR (fun k =>
      a <- oread A (if TA then [k; i] else [i; k]) ;;
      b <- oread B (if TB then [j; k] else [k; j]) ;; Ok (a, b)) (zrange inner) ;;
    Ok (pbind (inner_sum terms) (store alpha beta (subscript C [i; j]))).
  (** 95-139 [gemm] *)
  Definition gen_gemm (TA TB : bool) (alpha : T) (A B : operand) (beta : T) (C : desc) (parts : list (list (Z * Z)))
    : res (list (prog T unit)) :=
    let inner := if TA then odim A 0 else odim A 1 in
    if negb (inner =? (if TB then odim B 1 else odim B 0)) then Throw
    else if negb ((if TA then odim A 1 else odim A 0) =? tdim C 0) then Throw
    else if negb ((if TB then odim B 0 else odim B 1) =? tdim C 1) then Throw
    else gen_pool (gen_gemm_body TA TB alpha A B beta C inner) parts.

  (** 158-175: one iteration of [gemv]. *)
  Definition gen_gemv_body (TA : bool) (alpha : T) (A z : operand) (beta : T) (y : desc) (cols : Z) (i : Z)
    : res (prog T unit) :=
    terms <- mapR (fun j =>
      a <- oread A (if TA then [j; i] else [i; j]) ;; b <- oread z [j] ;; Ok (a, b)) (zrange cols) ;;
    Ok (pbind (inner_sum terms) (store alpha beta (subscript y [i]))).
  (** 141-176 [gemv] *)
  Definition gen_gemv (TA : bool) (alpha : T) (A z : operand) (beta : T) (y : desc) (parts : list (list Z))
    : res (list (prog T unit)) :=
    if negb ((if TA then odim A 0 else odim A 1) =? odim z 0) then Throw
    else if negb ((if TA then odim A 1 else odim A 0) =? tdim y 0) then Throw
    else gen_pool (gen_gemv_body TA alpha A z beta y (odim z 0)) parts.

  (** 210-221: one iteration of [direct_product]. *)
  Definition gen_prod_body (alpha : T) (A B : operand) (C : desc) (strides : list Z) (s : Z) : res (prog T unit) :=
    idx <- gindex s strides ;; a <- oread A idx ;; b <- oread B idx ;;
    Ok (pbind a (fun x => pbind b (fun y => pwrite (subscript C idx) (omul (omul alpha x) y)))).
  (** 178-222 [direct_product]; the fourth argument has no name in the code. *)
  Definition gen_prod (alpha : T) (A B : operand) (beta : T) (C : desc) (parts : list (list Z))
    : res (list (prog T unit)) :=
    if negb (same_dims (odims A) (odims B) && same_dims (odims A) (ddims C)) then Throw
    else gen_pool (gen_prod_body alpha A B C (fst (dims_to_strides (odims A)))) parts.

  (** 234-239: one iteration of [ger]. *)
  Definition gen_ger_body (alpha : T) (X Y : operand) (A : desc) (ij : Z * Z) : res (prog T unit) :=
    let (i, j) := ij in
    x <- oread X [i] ;; y <- oread Y [j] ;;
    Ok (pbind x (fun x => pbind y (fun y =>
          PRd (subscript A [i; j]) (fun c => pwrite (subscript A [i; j]) (oadd c (omul (omul alpha x) y)))))).
  (** 224-240 [ger] *)
  Definition gen_ger (alpha : T) (X Y : operand) (A : desc) (parts : list (list (Z * Z))) : res (list (prog T unit)) :=
    if negb (tdim A 0 =? odim X 0) || negb (tdim A 1 =? odim Y 0) then Throw
    else gen_pool (gen_ger_body alpha X Y A) parts.
End Generic.
