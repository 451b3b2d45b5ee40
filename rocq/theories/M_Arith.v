(** * M_Arith: lazy arithmetic on tensors.  Model definitions only.
    Files: /repo/src/include/einsums/ArithmeticTensor.hpp and Tensor.hpp. *)
From Coq Require Import List ZArith Lia Bool.
From Verif Require Import Base Heap M_Addr.
Import ListNotations.
Open Scope Z_scope.

(** 25-46: [AdditionOp], [SubtractionOp], [MultiplicationOp], [DivisionOp]. *)
Inductive aop := AAdd | ASub | AMul | ADiv.

Section Arith.
  Context {O : Ops}.
  Notation T := (car O).

  (** A user expression.  [EVar n]: the [n]-th named expression ([auto e = ...;]). *)
  Inductive aexp := EScal (x : T) | ETen (d : desc) | EVar (n : nat) | EBin (op : aop) (l r : aexp) | ENeg (e : aexp).

  (** What an entry of the tuples holds (125-187): a scalar, a pointer to a
      tensor, or a pointer to the tuple inside another ArithmeticTensor. *)
  Inductive opnd := OScal (x : T) | OTen (d : desc) | OTup (id : nat).
  Inductive tup := TBin (op : aop) (l r : opnd) | TNeg (x : opnd).
  (** The template arguments that [compute_arithmetic] recurses over. *)
  Inductive aty := YScal | YTen | YBin (op : aop) (l r : aty) | YNeg (y : aty).
  (** Live tuples by address, and the next free address. *)
  Record amem := mkAm { am_at : nat -> option tup; am_next : nat }.
  Definition am_new (m : amem) (t : tup) : amem * nat :=
    (mkAm (fun k => if Nat.eqb k (am_next m) then Some t else am_at m k) (S (am_next m)), am_next m).

  Definition aop_fun (op : aop) (x y : T) : T :=
    match op with AAdd => oadd x y | ASub => osub x y | AMul => omul x y | ADiv => odiv x y end.

  (** 53-81 [compute_arithmetic]: following a pointer to a destroyed tuple is
      undefined. *)
  Fixpoint compute (y : aty) (m : amem) (o : opnd) (h : heap T) (idx : list Z) : res T :=
    match y, o with
    | YScal, OScal x => Ok x
    | YTen, OTen d => tget h d idx
    | YBin op yl yr, OTup id =>
        match am_at m id with
        | Some (TBin _ l r) => a <- compute yl m l h idx ;; b <- compute yr m r h idx ;; Ok (aop_fun op a b)
        | _ => UB
        end
    | YNeg yx, OTup id =>
        match am_at m id with
        | Some (TNeg x) => a <- compute yx m x h idx ;; Ok (oopp a)
        | _ => UB
        end
    | _, _ => UB
    end.

  (** 124-214: the operators; every application creates a temporary
      ArithmeticTensor whose tuple points to its operands.  [names]: tuple
      address and type of the named expressions.  The extents an ArithmeticTensor
      carries (those of its left operand) are not used by the assignment below. *)
  Fixpoint build (names : list (nat * aty)) (e : aexp) (m : amem) : res (amem * opnd * aty) :=
    match e with
    | EScal x => Ok (m, OScal x, YScal)
    | ETen d => Ok (m, OTen d, YTen)
    | EVar n => match nth_error names n with Some (id, y) => Ok (m, OTup id, y) | None => UB end
    | EBin op l r =>
        ml <- build names l m ;; let '(m1, ol, yl) := ml in
        mr <- build names r m1 ;; let '(m2, or, yr) := mr in
        let '(m3, id) := am_new m2 (TBin op ol or) in Ok (m3, OTup id, YBin op yl yr)
    | ENeg x =>
        mx <- build names x m ;; let '(m1, ox, yx) := mx in
        let '(m2, id) := am_new m1 (TNeg ox) in Ok (m2, OTup id, YNeg yx)
    end.

  (** Tensor.hpp 782-797 [Tensor::operator=(const OtherTensor&)]: the loop over
      the extents of the target; the operands' extents are not looked at. *)
  Definition arith_assign (D : desc) (y : aty) (m : amem) (o : opnd) (h : heap T) : res (heap T) :=
    forM (indices (ddims D)) (fun idx h => v <- compute y m o h idx ;; tset h D idx v) h.

  (** A statement: [auto e = expr;] or [D = expr;].  At its end all temporaries
      made in it are destroyed; a [let] keeps the outermost object. *)
  Inductive astmt := SLet (e : aexp) | SAssign (D : desc) (e : aexp).
  Record ast := mkAst { st_mem : amem; st_names : list (nat * aty); st_heap : heap T }.
  Definition end_statement (keep : option nat) (start : nat) (m : amem) : amem :=
    mkAm (fun k => if Nat.ltb k start then am_at m k
                   else match keep with Some k' => if Nat.eqb k k' then am_at m k else None | None => None end) (am_next m).
  Definition arith_step (s : astmt) (st : ast) : res ast :=
    match s with
    | SLet e =>
        b <- build (st_names st) e (st_mem st) ;; let '(m, o, y) := b in
        match o with
        | OTup id => Ok (mkAst (end_statement (Some id) (am_next (st_mem st)) m) (st_names st ++ [(id, y)]) (st_heap st))
        | _ => UB
        end
    | SAssign D e =>
        b <- build (st_names st) e (st_mem st) ;; let '(m, o, y) := b in
        h <- arith_assign D y m o (st_heap st) ;;
        Ok (mkAst (end_statement None (am_next (st_mem st)) m) (st_names st) h)
    end.
  Definition arith_run (p : list astmt) (h : heap T) : res ast :=
    forM p arith_step (mkAst (mkAm (fun _ => None) 0%nat) [] h).
End Arith.
Arguments aexp : clear implicits.
Arguments astmt : clear implicits.
