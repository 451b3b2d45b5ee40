(** * M_Fun: function tensors and their views.  Model definitions only.
    File: /repo/src/include/einsums/FunctionTensor.hpp. *)
From Coq Require Import List ZArith Lia Bool.
From Verif Require Import Base Heap Conc M_Addr.
Import ListNotations.
Open Scope Z_scope.

Section Fun.
  Context {T : Type}.

  (** A function tensor: a user function ([FuncPointerTensor] 232-251, or any
      class overriding [call]) or a view of a function tensor (253-329):
      [_func_tensor], [_index_template], [_offsets], [_dims].  The function is
      total: what it does outside its extents is its own business. *)
  Inductive ftensor :=
  | FBase (dims : list Z) (f : list Z -> T)
  | FView (parent : ftensor) (tmpl offsets dims : list Z).
  (** 204 [dims] *)
  Definition fdims (t : ftensor) : list Z := match t with FBase d _ => d | FView _ _ _ d => d end.

  (** 42-58 [fix_indices], one position; the value is an [int].  The sum of an
      [int] and a [size_t] is taken modulo 2^64 and converted back to [int]; the
      comparison converts the [int] to [size_t]. *)
  Definition fix_index (d k : Z) : res Z :=
    let k1 := if k <? 0 then to_int32 (k + d) else k in
    if (d <=? k1 mod 2 ^ 64) || (k1 <? 0) then Throw else Ok k1.
  Fixpoint fix_indices (dims inds : list Z) : res (list Z) :=
    match dims, inds with
    | d :: ds, k :: ks => k1 <- fix_index d k ;; r <- fix_indices ds ks ;; Ok (k1 :: r)
    | _, _ => Ok []
    end.

  (** 262-284 [apply_view]: [l] lists the remaining (index, extent, offset) of
      the view, [tmpl] the template from [curr_rank] on; [inner] is set inside
      the [while], where running off the template is an exception of [at]. *)
  Fixpoint apply_view (inner : bool) (tmpl : list Z) (l : list (Z * (Z * Z))) : res (list Z) :=
    match l with
    | [] => Ok tmpl
    | (i, (d, o)) :: r =>
        match tmpl with
        | [] => if inner then Throw else Ok []
        | t :: ts =>
            if 0 <=? t then rest <- apply_view true ts l ;; Ok (t :: rest)
            else i1 <- fix_index d i ;; rest <- apply_view false ts r ;; Ok (to_int32 (i1 + o) :: rest)
        end
    end.
  (** 102, 248, 323-326 [call] *)
  Fixpoint fcall (t : ftensor) (inds : list Z) : res T :=
    match t with
    | FBase _ f => Ok (f inds)
    | FView p tmpl offsets dims =>
        i <- apply_view false tmpl (combine inds (combine dims offsets)) ;; fcall p i
    end.
  (** 104-115, 117-134 [operator()] with one integer per position: conversion to
      [int], [fix_indices], [call]. *)
  Definition fget (t : ftensor) (inds : list Z) : res T :=
    i <- fix_indices (fdims t) (map to_int32 inds) ;; fcall t i.

  (** 136-203 [operator()] with [All], [Range] and integers: template, offsets,
      extents.  [size_t] arithmetic on the extents. *)
  Fixpoint fslice_parts (dims : list Z) (args : list sarg) : list Z * list Z * list Z :=
    match dims, args with
    | d :: ds, a :: r =>
        let '(t, o, v) := fslice_parts ds r in
        match a with
        | SInt k => (to_int32 (if k <? 0 then d + k else k) :: t, o, v)
        | SAll => (-1 :: t, 0 :: o, d :: v)
        | SRange lo hi => (-1 :: t, (lo mod 2 ^ 64) :: o, (((if hi <? 0 then d + hi else hi) - lo) mod 2 ^ 64) :: v)
        end
    | _, _ => ([], [], [])
    end.
  Definition fslice (t : ftensor) (args : list sarg) : ftensor :=
    let '(tmpl, o, v) := fslice_parts (fdims t) args in FView t tmpl o v.

  (** 213-228 conversion to [Tensor]: the loop over all indices, shared out over
      threads ([parts]); each iteration evaluates and writes one element. *)
  Fixpoint evals (t : ftensor) (l : list (list Z)) : res (list (list Z * T)) :=
    match l with [] => Ok [] | i :: r => v <- fget t i ;; vs <- evals t r ;; Ok ((i, v) :: vs) end.
  Definition conv_body (out : desc) (iv : list Z * T) : prog T unit := pwrite (subscript out (fst iv)) (snd iv).
  Fixpoint conv_pool (t : ftensor) (out : desc) (parts : list (list (list Z))) : res (list (prog T unit)) :=
    match parts with
    | [] => Ok []
    | p :: r => iv <- evals t p ;; ps <- conv_pool t out r ;; Ok (pseq iv (conv_body out) :: ps)
    end.
End Fun.

(** 338-346 [KroneckerDelta]. *)
Definition kronecker {O : Ops} (n : Z) : @ftensor (car O) :=
  FBase [n; n] (fun inds => match inds with [i; j] => if i =? j then o1 else o0 | _ => o0 end).
