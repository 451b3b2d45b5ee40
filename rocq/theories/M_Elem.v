(** * M_Elem: element-wise transforms in place.  Model definitions only.
    File: /repo/src/include/einsums/tensor_algebra_backends/ElementTransform.hpp. *)
From Coq Require Import List ZArith Lia Bool.
From Verif Require Import Base Heap Conc M_Addr M_Elt M_Einsum M_Block.
Import ListNotations.
Open Scope Z_scope.

Section Elem.
  Context {T : Type}.

  (** 34-38: body of the parallel loop of [element_transform]: the element is
      read and written through one reference. *)
  Definition transform_body (f : T -> T) (C : desc) (it : list Z) : prog T unit :=
    PRd (subscript C it) (fun v => PWr (subscript C it) (f v) (PRet tt)).

  (** 19-39, not a block tensor: the loop over the combinations of the indices,
      shared out to the threads as listed in [threads].  [get_dim_ranges]
      converts every extent to [int]. *)
  Definition transform_range (C : desc) : list (list Z) := indices (map to_int32 (ddims C)).
  Definition element_transform (f : T -> T) (C : desc) (threads : list (list (list Z))) : list (prog T unit) :=
    omp_for (transform_body f C) threads.

  (** Read a list of cells, first to last. *)
  Fixpoint preads (l : list Z) (acc : list T) (k : list T -> prog T unit) : prog T unit :=
    match l with
    | [] => k (rev acc)
    | a :: r => PRd a (fun v => preads r (v :: acc) k)
    end.

  (** 72-75: body of the parallel loop of [element].  The arguments of the
      operator are read in the order of the tensors (C++ leaves the order
      open; they are only read). *)
  Definition element_body (f : T -> list T -> T) (C : desc) (ts : list desc) (it : list Z) : prog T unit :=
    PRd (subscript C it) (fun v =>
    preads (map (fun t => subscript t it) ts) [] (fun vs => PWr (subscript C it) (f v vs) (PRet tt))).

  (** 42-76, no block tensors (the block branch, 45-60, does not compile: the
      member function [num_blocks] is used without a call): [println_abort] ends
      the process when extents differ: [Throw]. *)
  Definition element (f : T -> list T -> T) (C : desc) (ts : list desc) (threads : list (list (list Z)))
      : res (list (prog T unit)) :=
    if existsb (fun t => if list_eq_dec Z.eq_dec (ddims C) (ddims t) then false else true) ts then Throw
    else Ok (omp_for (element_body f C ts) threads).

  (** 21-26: a block tensor is transformed block by block, one parallel loop
      after the other. *)
  Definition bt_element_transform (f : T -> T) (C : bt) (threads : nat -> list (list (list Z)))
      : list (list (prog T unit)) :=
    map (fun p => element_transform f (snd p) (threads (fst p)))
        (combine (seq 0 (length (bt_blocks C))) (bt_blocks C)).
End Elem.
