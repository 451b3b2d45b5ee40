(** * S_Generic: operands and iterations for C69. *)
From Coq Require Import List ZArith.
From Verif Require Import Base Heap Conc M_Addr S_Einsum M_Fun M_Generic.
Import ListNotations.
Open Scope Z_scope.

(** The operand has extents [dims] and its element at every index is [f]. *)
Definition shows {O : Ops} (h : heap (car O)) (x : operand) (dims : list Z) (f : list Z -> car O) : Prop :=
  match x with
  | ODense d => ddims d = dims /\ holds h d f
  | OFun t => fdims t = dims /\ forall idx, inb idx dims -> fget t idx = Ok (f idx)
  end.
(** The operand shares no element with the output. *)
Definition apart {O : Ops} (x : @operand O) (C : desc) : Prop :=
  match x with ODense d => disj C d | OFun _ => True end.
(** The positions of an [m] x [n] matrix. *)
Definition positions (m n : Z) : list (Z * Z) := list_prod (zrange m) (zrange n).
