(** * S_PyCall: what Python programs expect of plan.execute on buffers. *)
From Coq Require Import List ZArith Lia Bool String.
From Verif Require Import Base Heap M_Addr S_Addr M_Runtime M_PyTensor S_PyTensor.
Import ListNotations.
Open Scope Z_scope.

(** The data types einsum works on. *)
Definition einsum_types : list item := [F32; F64; C64; C128].
(** Strides and extents are numbers the machine has: strides are signed 64 bit
    numbers, and so are the strides a contiguous array of this shape would have. *)
Definition fits (b : pybuf) : Prop :=
  Forall (fun s => - 2 ^ 63 <= s < 2 ^ 63) (b_strides b) /\
  Forall (fun r => b_isz b * r < 2 ^ 63) (row_major_strides (b_shape b)).
(** An array einsum can work on in place: a buffer of items of type [te] at an
    address that is a multiple of the item size, with strides of whole items. *)
Definition array (te : item) (b : pybuf) : Prop :=
  buf_ok b te /\ fits b /\ whole_steps b /\ (item_size te | b_ptr b).
