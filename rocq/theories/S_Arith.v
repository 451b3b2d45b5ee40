(** * S_Arith: specification for arithmetic expressions (C42). *)
From Coq Require Import List ZArith.
From Verif Require Import Base Heap M_Arith.
Import ListNotations.
Open Scope Z_scope.

Section S.
  Context {O : Ops}.
  Notation T := (car O).

  (** The expression with the names replaced by what they were declared as. *)
  Fixpoint expand (env : list (aexp O)) (e : aexp O) : aexp O :=
    match e with
    | EVar n => nth n env e
    | EBin op l r => EBin op (expand env l) (expand env r)
    | ENeg x => ENeg (expand env x)
    | _ => e
    end.
  (** Value of an expression at an index. *)
  Inductive value (h : heap T) (idx : list Z) : aexp O -> T -> Prop :=
  | v_scal : forall x, value h idx (EScal x) x
  | v_ten : forall d x, inb idx (ddims d) -> elem h d idx = Some x -> value h idx (ETen d) x
  | v_add : forall l r a b, value h idx l a -> value h idx r b -> value h idx (EBin AAdd l r) (oadd a b)
  | v_sub : forall l r a b, value h idx l a -> value h idx r b -> value h idx (EBin ASub l r) (osub a b)
  | v_mul : forall l r a b, value h idx l a -> value h idx r b -> value h idx (EBin AMul l r) (omul a b)
  | v_div : forall l r a b, value h idx l a -> value h idx r b -> value h idx (EBin ADiv l r) (odiv a b)
  | v_neg : forall x a, value h idx x a -> value h idx (ENeg x) (oopp a).
  (** [d] occurs in [e]. *)
  Fixpoint occurs (d : desc) (e : aexp O) : Prop :=
    match e with ETen d' => d = d' | EBin _ l r => occurs d l \/ occurs d r | ENeg x => occurs d x | _ => False end.
  (** An operand is the target itself (same elements at the same indices) or
      shares no memory with it. *)
  Definition fresh_or_same (D d : desc) : Prop :=
    disj D d \/ (forall idx, inb idx (ddims D) -> addr d idx = addr D idx).
  Definition has_names (env : list (aexp O)) (e : aexp O) : Prop :=
    let fix go e := match e with
      | EVar n => (n < length env)%nat | EBin _ l r => go l /\ go r | ENeg x => go x | _ => True end in go e.
  (** Operands that outlive the statement: tensors, scalars, names. *)
  Definition lasting (e : aexp O) : Prop := match e with EBin _ _ _ | ENeg _ => False | _ => True end.
  (** A named expression built from lasting operands only. *)
  Definition flat_exp (e : aexp O) : Prop :=
    match e with EBin _ l r => lasting l /\ lasting r | ENeg x => lasting x | _ => False end.

  (** What a program means: names stand for their expressions; an assignment
      stores at every index of the target the value of the expression before it,
      and changes nothing else. *)
  Inductive meaning : list (astmt O) -> list (aexp O) -> heap T -> heap T -> Prop :=
  | m_nil : forall env h, meaning [] env h h
  | m_let : forall e p env h h', has_names env e -> meaning p (env ++ [expand env e]) h h' -> meaning (SLet e :: p) env h h'
  | m_assign : forall D e p env h h1 h', has_names env e -> inj D ->
      (forall d, occurs d (expand env e) -> fresh_or_same D d) ->
      (forall idx, inb idx (ddims D) -> elem h D idx <> None /\ exists v, value h idx (expand env e) v /\ elem h1 D idx = Some v) ->
      (forall a, ~ cell D a -> h1 a = h a) ->
      meaning p env h1 h' -> meaning (SAssign D e :: p) env h h'.
End S.
