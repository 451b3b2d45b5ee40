(** * S_PyTensor: what Python programs expect of subscripts, buffers and
    iteration (C79-C84). *)
From Coq Require Import List ZArith Lia Bool String.
From Verif Require Import Base Heap M_Addr S_Addr M_Runtime M_PyTensor.
Import ListNotations.
Open Scope Z_scope.

(** ** Subscripts: Python's rules for integers and slices *)

(** A slice bound on an axis of extent [d]: counted from the end when negative,
    and limited to the axis. *)
Definition np_bound (d x : Z) : Z := Z.max 0 (Z.min d (if x <? 0 then x + d else x)).
Definition np_lo (d : Z) (a : option Z) : Z := match a with None => 0 | Some x => np_bound d x end.
Definition np_hi (d : Z) (b : option Z) : Z := match b with None => d | Some x => np_bound d x end.
Definition np_step1 (s : option Z) : Prop := s = None \/ s = Some 1.

(** [np_sel args dims j p]: in the result of x[args], x of extents [dims], the
    element [j] is the element [p] of x; axes without argument are whole. *)
Inductive np_sel : list pyobj -> list Z -> list Z -> list Z -> Prop :=
| np_nil : np_sel [] [] [] []
| np_rest : forall d ds x j p, 0 <= x < d -> np_sel [] ds j p -> np_sel [] (d :: ds) (x :: j) (x :: p)
| np_int : forall a k args d ds i j p, a = PInt k \/ a = PIndex k -> spells d k i -> np_sel args ds j p ->
    np_sel (a :: args) (d :: ds) j (i :: p)
| np_slice : forall a b s args d ds x j p, np_step1 s -> 0 <= x -> np_lo d a + x < np_hi d b -> np_sel args ds j p ->
    np_sel (PSlice a b s :: args) (d :: ds) (x :: j) (np_lo d a + x :: p).

(** Extents of the result. *)
Fixpoint np_dims (args : list pyobj) (dims : list Z) : list Z :=
  match args, dims with
  | [], _ => dims
  | PSlice a b _ :: r, d :: ds => Z.max 0 (np_hi d b - np_lo d a) :: np_dims r ds
  | _ :: r, _ :: ds => np_dims r ds
  | _ :: _, [] => []
  end.

(** Python accepts the subscript: integers within the axis (also counted from the
    end), slices with step 1, not more objects than axes. *)
Fixpoint np_ok (args : list pyobj) (dims : list Z) : Prop :=
  match args, dims with
  | [], _ => True
  | PInt k :: r, d :: ds | PIndex k :: r, d :: ds => - d <= k < d /\ np_ok r ds
  | PSlice _ _ s :: r, _ :: ds => np_step1 s /\ np_ok r ds
  | _, _ => False
  end.

(** As many integers as axes: the result is one element. *)
Definition one_element (args : list pyobj) (dims : list Z) : bool :=
  (Nat.eqb (List.length args) (List.length dims) && negb (existsb is_slice args))%bool.

(** The part of [np_ok] these tensors support: integers not counted from the
    end, results with at least one element, and, unless the result is one element,
    only integers of type int. *)
Fixpoint supported (one : bool) (args : list pyobj) (dims : list Z) : Prop :=
  match args, dims with
  | [], _ => Forall (fun d => 0 < d) dims
  | PInt k :: r, d :: ds => 0 <= k < d /\ supported one r ds
  | PIndex k :: r, d :: ds => one = true /\ 0 <= k < d /\ supported one r ds
  | PSlice a b s :: r, d :: ds => np_step1 s /\ np_lo d a < np_hi d b /\ supported one r ds
  | _, _ => False
  end.

(** [w] is the block of [v] selected by [args]. *)
Definition shows (v : rview) (args : list pyobj) (w : rview) : Prop :=
  ddims (rv_desc w) = np_dims args (ddims (rv_desc v)) /\
  (forall j p, np_sel args (ddims (rv_desc v)) j p -> addr (rv_desc w) j = addr (rv_desc v) p).

(** ** Buffers: formats of the struct module and of PEP 3118 *)
Inductive native : string -> Z -> item -> Prop :=
| n_b : native "b" 1 I8 | n_B : native "B" 1 U8 | n_h : native "h" 2 I16 | n_H : native "H" 2 U16
| n_i : native "i" 4 I32 | n_I : native "I" 4 U32 | n_q : native "q" 8 I64 | n_Q : native "Q" 8 U64
| n_l4 : native "l" 4 I32 | n_l8 : native "l" 8 I64 | n_L4 : native "L" 4 U32 | n_L8 : native "L" 8 U64
| n_f : native "f" 4 F32 | n_d : native "d" 8 F64 | n_g : native "g" 16 F80
| n_Zf : native "Zf" 8 C64 | n_Zd : native "Zd" 16 C128 | n_Zg : native "Zg" 32 C160.

(** Where the items of a buffer are, in bytes. *)
Definition buf_desc (b : pybuf) : desc := mkDesc (b_ptr b) (b_shape b) (b_strides b).
(** Where the elements of a tensor or view are, in bytes, for elements of [n] bytes. *)
Definition in_bytes (n : Z) (d : desc) : desc := mkDesc (n * dbase d) (ddims d) (map (Z.mul n) (dstrides d)).
(** A buffer as the protocol wants it: one stride per axis, a native format. *)
Definition buf_ok (b : pybuf) (i : item) : Prop :=
  native (b_fmt b) (b_isz b) i /\ Forall (fun d => 0 <= d) (b_shape b) /\
  List.length (b_strides b) = List.length (b_shape b).
(** Every stride is a whole number of items. *)
Definition whole_steps (b : pybuf) : Prop := Forall (fun s => (b_isz b | s)) (b_strides b).

(** New contents of a target with contents [old], from items [f] of type [i]. *)
Definition into {T} (conv : item -> T -> T) (op : option (T -> T -> T)) (old : list Z -> T) (i : item) (f : list Z -> T) (idx : list Z) : T :=
  match op with None => conv i (f idx) | Some g => g (old idx) (conv i (f idx)) end.
