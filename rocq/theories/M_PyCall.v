(** * M_PyCall: plan.execute(C_prefactor, C, AB_prefactor, A, B) of the Python
    module on buffer objects.  Model definitions only.  "cpp" is
    /repo/src/python/PyTensorAlgebra.cpp, "hpp" is
    /repo/src/include/einsums/python/PyTensorAlgebra.hpp.

    This is the layer in front of M_PyEinsum: data types, prefactors, and the
    step from bytes to elements.  The versions for the GPU are not modelled. *)
From Coq Require Import List ZArith Lia Bool String.
From Verif Require Import Base Heap Conc M_Addr M_Einsum M_PyEinsum M_PyTensor.
Import ListNotations.
Open Scope Z_scope.

(** cpp 588-598 (also 627-637, 664-674, 734-744, 837-847, 960-970): the element
    type of a format. *)
Definition exec_type (fmt : string) : option item :=
  if String.eqb fmt "f" then Some F32
  else if String.eqb fmt "Zd" then Some C128
  else if String.eqb fmt "Zf" then Some C64
  else if String.eqb fmt "d" then Some F64
  else None.

(** Conversion to [size_t]. *)
Definition to_u64 (x : Z) : Z := x mod 2 ^ 64.

(** cpp 700-726 (also 803-829, 926-952): the strides from the last axis to the
    first against the running product of the extents, in bytes ([size_t]); the
    lists are reversed. *)
Fixpoint byte_check (check : Z) (shape strides : list Z) : bool :=
  match shape, strides with
  | d :: ds, s :: ss => (check =? to_u64 s) && byte_check (to_u64 (check * d)) ds ss
  | _, _ => true
  end.
Definition bytes_contiguous (b : pybuf) : bool := byte_check (b_isz b) (rev (b_shape b)) (rev (b_strides b)).

(** hpp 544, 582-590, 710-711, 797-799: [strides[i] / sizeof(T)], a division of
    [size_t]: a negative stride is converted first. *)
Definition step_u64 (size s : Z) : Z := to_u64 s / size.
(** hpp 571-594 and alike: the sum over the axes ([size_t]) as index of a
    [T *]: byte address of the element.  Addresses are numbers modulo 2^64. *)
Definition code_addr (size : Z) (b : pybuf) (idx : list Z) : Z :=
  to_u64 (b_ptr b + size * to_u64 (dotp idx (List.map (step_u64 size) (b_strides b)))).

(** The buffer in units of elements.  Quotients rounded down give the same
    addresses modulo 2^64 as [code_addr] (T_PyCall, C131_address). *)
Definition el_desc (te : item) (b : pybuf) : desc :=
  mkDesc (b_ptr b / item_size te) (b_shape b) (List.map (fun s => s / item_size te) (b_strides b)).

Section Call.
  Context {O : Ops}.
  Notation T := (car O).
  (** Python objects, and pybind11's [cast<T>()] of one to an element type;
      [None]: [pybind11::cast_error].  External. *)
  Context {P : Type}.
  Variable cast : item -> P -> option T.

  (** cpp 586-598 and the same chain in the other plans: same format, a known
      format, prefactors that convert; then [k].  Data at an address that is not
      a multiple of the element size is taken as undefined (for complex elements
      C++ asks only for the alignment of the parts). *)
  Definition typed (cp : P) (C : pybuf) (ab : P) (A B : pybuf) (k : item -> T -> T -> res (list (@pystep O))) : res (list (@pystep O)) :=
    if negb (String.eqb (b_fmt C) (b_fmt A)) || negb (String.eqb (b_fmt C) (b_fmt B)) then Throw
    else match exec_type (b_fmt C) with
         | None => Throw
         | Some te =>
             match cast te cp, cast te ab with
             | Some c, Some x =>
                 if forallb (fun b => b_ptr b mod item_size te =? 0) [C; A; B] then k te c x else UB
             | _, _ => Throw
             end
         end.

  (** cpp 583-599, 622-638, 659-675, 696-745, 799-848, 922-971 [execute].
      [request(true)] throws for a buffer that may not be written. *)
  Definition plan_execute (p : pybase) (alg : pyalg) (cp : P) (C : pybuf) (ab : P) (A B : pybuf) : res (list (@pystep O)) :=
    if negb (b_writable C) then Throw
    else
      let full := bytes_contiguous C && bytes_contiguous A && bytes_contiguous B in
      let run te c x := py_execute p alg (item_size te) c (el_desc te C) x (el_desc te A) (el_desc te B) in
      let loop te c x := py_generic p c (el_desc te C) x (el_desc te A) (el_desc te B) in
      match alg with
      | PyGeneric | PyDot | PyDirect => typed cp C ab A B run
      | _ => if full then typed cp C ab A B run else typed cp C ab A B loop
      end.
  (** einsum from Python: compile the plan, then execute it. *)
  Definition py_invoke (e : ein) (cp : P) (C : pybuf) (ab : P) (A B : pybuf) : res (list (@pystep O)) :=
    alg <- py_algorithm e ;; plan_execute (py_base e) alg cp C ab A B.
End Call.
