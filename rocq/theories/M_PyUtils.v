(** * M_PyUtils: the Python part of the library.  Model definitions only.
    Files: /repo/einsums/utils.py (cited by line numbers alone),
    /repo/einsums/__init__.py. *)
From Coq Require Import List ZArith Lia Bool.
From Verif Require Import Base Heap Conc M_Addr M_Elt M_Runtime M_PyTensor.
Import ListNotations.
Open Scope Z_scope.

(** ** TensorIndices: 22-72.  Python integers are unbounded. *)
Record tidx := mkTidx { ti_cur : Z; ti_strides : list Z; ti_rev : bool; ti_size : Z }.

(** 37-40: the loop over the axes from the last to the first. *)
Fixpoint ti_sizes (dims : list Z) : list Z * Z :=
  match dims with
  | [] => ([], 1)
  | d :: ds => let '(strides, size) := ti_sizes ds in (size :: strides, size * d)
  end.
(** 31-41 [TensorIndices(t)], [TensorIndices(t, reverse = ...)]: [kw] is the
    keyword.  [kwargs] is a dictionary, which has no attribute [reverse] (32):
    AttributeError. *)
Definition ti_ctor (dims : list Z) (kw : option bool) : res tidx :=
  match kw with
  | Some _ => Throw
  | None => let '(strides, size) := ti_sizes dims in Ok (mkTidx 0 strides false size)
  end.
(** 42-46 [TensorIndices(i)] of an iterator. *)
Definition ti_copy (i : tidx) : tidx := mkTidx (ti_cur i) (ti_strides i) (ti_rev i) (ti_size i).
(** 51-54 [__reversed__]. *)
Definition ti_reversed (i : tidx) : tidx :=
  let out := ti_copy i in mkTidx (ti_cur out) (ti_strides out) (negb (ti_rev i)) (ti_size out).
(** 64-65: [divmod] rounds down; ZeroDivisionError for a stride zero. *)
Fixpoint ti_split (hold : Z) (strides : list Z) : res (list Z) :=
  match strides with
  | [] => Ok []
  | s :: ss => if s =? 0 then Throw else r <- ti_split (hold mod s) ss ;; Ok (hold / s :: r)
  end.
(** 56-72 [__next__]: [None] is StopIteration. *)
Definition ti_next (i : tidx) : res (option (list Z) * tidx) :=
  if (ti_cur i <? 0) || (ti_size i <=? ti_cur i) then Ok (None, i)
  else
    out <- ti_split (ti_cur i) (ti_strides i) ;;
    let cur := if ti_rev i then ti_cur i - 1 else ti_cur i + 1 in
    Ok (Some out, mkTidx cur (ti_strides i) (ti_rev i) (ti_size i)).

(** Programs using iterators; every iterator made gets the next number.
    [iter(i)] is [i] itself (48-49), so it needs no statement of its own. *)
Inductive ti_op :=
| TNew (dims : list Z)       (* TensorIndices(t), t of these extents *)
| TCopy (i : nat)            (* TensorIndices(i) *)
| TReversed (i : nat)        (* reversed(i) *)
| TNext (i : nat).           (* next(i) *)
Fixpoint set_nth {A} (n : nat) (x : A) (l : list A) : list A :=
  match l, n with
  | [], _ => []
  | _ :: r, O => x :: r
  | y :: r, S n => y :: set_nth n x r
  end.
(** The iterators after the statement, and what [next] gave. *)
Definition ti_step (st : list tidx) (o : ti_op) : res (list tidx * list (option (list Z))) :=
  match o with
  | TNew dims => i <- ti_ctor dims None ;; Ok (st ++ [i], [])
  | TCopy k => match nth_error st k with Some i => Ok (st ++ [ti_copy i], []) | None => Throw end
  | TReversed k => match nth_error st k with Some i => Ok (st ++ [ti_reversed i], []) | None => Throw end
  | TNext k => match nth_error st k with
               | Some i => r <- ti_next i ;; Ok (set_nth k (snd r) st, [fst r])
               | None => Throw
               end
  end.
Fixpoint ti_run (st : list tidx) (os : list ti_op) : res (list tidx * list (option (list Z))) :=
  match os with
  | [] => Ok (st, [])
  | o :: r => s <- ti_step st o ;; t <- ti_run (fst s) r ;; Ok (fst t, snd s ++ snd t)
  end.
(** [for x in i]: [next] until StopIteration, at most [fuel] times. *)
Fixpoint ti_collect (fuel : nat) (i : tidx) : res (list (list Z) * bool) :=
  match fuel with
  | O => Ok ([], false)
  | S n => r <- ti_next i ;;
           match fst r with
           | None => Ok ([], true)
           | Some x => l <- ti_collect n (snd r) ;; Ok (x :: fst l, snd l)
           end
  end.

(** ** Random tensors: 74-125 *)

(** The [dtype]: 74-77; anything else is refused by [create_tensor] (79-88). *)
Inductive dtype := DT (te : item) | DTother.
Definition is_complex (te : item) : bool := match te with C64 | C128 => true | _ => false end.
Definition known (te : item) : bool := match te with F32 | F64 | C64 | C128 => true | _ => false end.

Section Random.
  Context {O : Ops}.
  Notation R := (car O).
  (** What the random function gives: a Python float or complex.  NumPy numbers
      are not modelled. *)
  Inductive pyval := VReal (x : R) | VComplex (x y : R).
  Definition is_vc (v : pyval) : bool := match v with VComplex _ _ => true | _ => false end.
  Definition v_re (v : pyval) : R := match v with VReal x => x | VComplex x _ => x end.
  Definition v_im (v : pyval) : R := match v with VReal _ => o0 | VComplex _ y => y end.
  (** 97: [a + 1j * b]. *)
  Definition v_pair (a b : pyval) : pyval := VComplex (osub (v_re a) (v_im b)) (oadd (v_im a) (v_re b)).
  (** The value pybind11 hands to [__setitem__]: a complex number is refused for
      a real element type (TypeError); [rnd] rounds to the element type. *)
  Definition to_elem (te : item) (rnd : R -> R) (v : pyval) : res (R * R) :=
    if is_complex te then Ok (rnd (v_re v), rnd (v_im v))
    else if is_vc v then Throw else Ok (rnd (v_re v), o0).

  (** 96-123: [draw k] is what call number [k] of the random function gives;
      one value for the element, and how many calls have been made. *)
  Definition rand_value (te : item) (draw : nat -> pyval) (k : nat) : pyval * nat :=
    if is_complex te then
      if is_vc (draw 0%nat) then (draw k, S k) else (v_pair (draw k) (draw (S k)), S (S k))
    else
      if is_vc (draw 0%nat) then (VReal (v_re (draw k)), S k) else (draw k, S k).

  (** 119-123: the loop, at most [fuel] rounds; the flag tells whether it has
      ended. *)
  Fixpoint rand_loop (te : item) (rnd : R -> R) (draw : nat -> pyval) (v : rview) (fuel : nat) (i : tidx) (k : nat) (h : heap (R * R))
    : res (heap (R * R) * nat * bool) :=
    match fuel with
    | 0%nat => Ok (h, k, false)
    | S n =>
        r <- ti_next i ;;
        match fst r with
        | None => Ok (h, k, true)
        | Some ind =>
            let '(x, k') := rand_value te draw k in
            e <- to_elem te rnd x ;;
            ps <- py_set_value te v (KTuple (map PInt ind)) e [] ;;
            h' <- fold_left (fun hr p => g <- hr ;; r <- run p g ;; Ok (snd r)) ps (Ok h) ;;
            rand_loop te rnd draw v n (snd r) k' h'
        end
    end.
  (** 90-125 [create_random_tensor(name, dims, dtype, random_func)]: the tensor,
      the memory, the number of calls of the random function. *)
  Definition create_random (d : dtype) (dims : list Z) (rnd : R -> R) (draw : nat -> pyval) (base : Z) (fuel : nat) (h : heap (R * R))
    : res (rtensor * heap (R * R) * nat * bool) :=
    match d with
    | DTother => Throw
    | DT te =>
        if known te then
          let t := rt_ctor base dims in
          let h1 := alloc_elems te (o0, o0) base (rt_len t) h in
          i <- ti_ctor dims None ;;
          s <- rand_loop te rnd draw (rv_whole t) fuel i 1 h1 ;;
          Ok (t, fst (fst s), snd (fst s), snd s)
        else Throw
    end.
End Random.

(** ** The module: __init__.py 35-49 *)
Inductive fin_arg := FFalse | FTrue | FFile (name : nat).
(** 40-46: [__outfile] is assigned in the function, so it is a local variable
    there; the global keeps its value. *)
Definition set_finalize_arg (global out_arg : fin_arg) : fin_arg :=
  let local := out_arg in global.
(** 37, 49: [atexit.register] evaluates the argument when the module is
    imported; at exit [finalize] gets that value whatever has happened since. *)
Definition exit_arg (calls : list fin_arg) : fin_arg :=
  let outfile := FFalse in
  let registered := outfile in
  let _ := fold_left set_finalize_arg calls outfile in registered.
