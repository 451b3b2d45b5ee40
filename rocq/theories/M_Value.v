(** * M_Value: dense tensors as values: construction, copying, assignment,
    resizing and destruction.  Model definitions only.
    Lines: /repo/src/include/einsums/Tensor.hpp. *)
From Coq Require Import List ZArith Lia Bool.
From Verif Require Import Base Heap Conc M_Addr M_Elt.
Import ListNotations.
Open Scope Z_scope.

(** 930-933: extents, strides, and the vector [_data] (first element and number
    of elements).  A moved-from or default-constructed tensor has an empty
    vector next to non-zero or indeterminate extents. *)
Record tobj := mkObj { ob_desc : desc; ob_len : Z }.

(** Statements about tensor variables (numbered).  The element type of the
    source of [VAssignCast] is another one; both are represented in [T]. *)
Inductive vop (T : Type) :=
| VDefault (x : nat) (dims strides : list Z)
| VMake (x : nat) (dims : list Z)
| VCopy (x y : nat)
| VAssign (x y : nat)
| VAssignCast (cv : T -> T) (x y : nat)
| VReshape (x y : nat) (dims : list Z)
| VResize (x : nat) (dims : list Z)
| VWrite (x : nat) (inds : list Z) (v : T)
| VFill (x : nat) (v : T)
| VOpS (op : T -> T -> T) (x : nat) (v : T)
| VOpT (op : T -> T -> T) (x y : nat)
| VDrop (x : nat).
Arguments VDefault {T}. Arguments VMake {T}. Arguments VCopy {T}. Arguments VAssign {T}. Arguments VAssignCast {T}.
Arguments VReshape {T}. Arguments VResize {T}. Arguments VWrite {T}. Arguments VFill {T}. Arguments VOpS {T}.
Arguments VOpT {T}. Arguments VDrop {T}.

Section Value.
  Context {T : Type}.
  Variable zero : T.
  (** Where [std::vector::resize] puts the elements of a vector that grows:
      memory, old first element, old and new number of elements; [None]: no memory. *)
  Variable pl : heap T -> Z -> Z -> Z -> option Z.

  Definition vars := nat -> option tobj.
  Definition vstate := (vars * heap T)%type.
  Definition vset (x : nat) (o : option tobj) (vs : vars) : vars := fun y => if Nat.eqb y x then o else vs y.

  (** [_data[k]], [_data.begin() + k]: outside the vector undefined. *)
  Definition vec_rd (o : tobj) (k : Z) (h : heap T) : res T :=
    if (0 <=? k) && (k <? ob_len o) then rd h (dbase (ob_desc o) + k) else UB.
  Definition vec_wr (o : tobj) (k : Z) (v : T) (h : heap T) : res (heap T) :=
    if (0 <=? k) && (k <? ob_len o) then wr h (dbase (ob_desc o) + k) v else UB.

  (** 526-537 [operator()]: position in the vector. *)
  Definition ordinal (o : tobj) (inds : list Z) : Z :=
    dotp (wrap_negative (ddims (ob_desc o)) inds) (dstrides (ob_desc o)).
  Definition obj_get (o : tobj) (inds : list Z) (h : heap T) : res T := vec_rd o (ordinal o inds) h.

  (** [_data.resize(n)]: a vector that grows keeps its elements, moves to the
      place given by [pl] (possibly the old one) and gets zeros behind them; one
      that shrinks stays and gives back the rest (capacity is not modelled).
      [std::bad_alloc] ends the program here ([Throw]). *)
  Definition vec_grow (b len n : Z) (h : heap T) : res (Z * heap T) :=
    if n <=? len then Ok (b, fun a => if (b + n <=? a) && (a <? b + len) then None else h a)
    else match pl h b len n with
         | None => Throw
         | Some p => Ok (p, fun a => if (p <=? a) && (a <? p + n) then (if a - p <? len then h (b + (a - p)) else Some zero)
                                     else if (b <=? a) && (a <? b + len) then None else h a)
         end.

  (** 719-727, 762-770, 370-375: new extents, row-major strides, [_data.resize(size)]. *)
  Definition reshape_to (o : tobj) (dims : list Z) (h : heap T) : res (tobj * heap T) :=
    r <- vec_grow (dbase (ob_desc o)) (ob_len o) (data_size dims) h ;;
    Ok (mkObj (tensor_ctor (fst r) dims) (data_size dims), snd r).

  (** 190-210, 295-312: construction; the vector is empty before [resize]. *)
  Definition obj_make (dims : list Z) (h : heap T) : res (tobj * heap T) :=
    reshape_to (mkObj (mkDesc 0 dims []) 0) dims h.

  (** 728 [std::copy(other._data.begin(), other._data.end(), _data.begin())]. *)
  Definition vec_copy (dst src : tobj) (h : heap T) : res (heap T) :=
    forM (zrange (ob_len src)) (fun k h => v <- vec_rd src k h ;; vec_wr dst k v h) h.

  (** 167 copy constructor: members are copied, [_data] element by element into
      a vector of the same length. *)
  Definition obj_copy (src : tobj) (h : heap T) : res (tobj * heap T) :=
    r <- vec_grow 0 0 (ob_len src) h ;;
    let o := mkObj (mkDesc (fst r) (ddims (ob_desc src)) (dstrides (ob_desc src))) (ob_len src) in
    h2 <- vec_copy o src (snd r) ;; Ok (o, h2).

  (** 700-731 copy assignment. *)
  Definition needs_realloc (xd yd : list Z) : bool := existsb (fun p => (fst p =? 0) || negb (fst p =? snd p)) (combine xd yd).
  (** [self]: [other] is [*this], whose members are the new ones after line 727. *)
  Definition obj_assign (self : bool) (o src : tobj) (h : heap T) : res (tobj * heap T) :=
    r <- (if needs_realloc (ddims (ob_desc o)) (ddims (ob_desc src))
          then reshape_to o (ddims (ob_desc src)) h else Ok (o, h)) ;;
    h2 <- vec_copy (fst r) (if self then fst r else src) (snd r) ;; Ok (fst r, h2).

  (** 734-782 assignment from another element type: [None] when it throws. *)
  Definition cast_throws (rank : nat) (xd yd : list Z) : bool :=
    negb (Nat.eqb rank 1) && existsb (fun p => negb (fst p =? 0) && negb (fst p =? snd p)) (combine xd yd).
  Definition obj_assign_cast (cv : T -> T) (o src : tobj) (h : heap T) : option (res (tobj * heap T)) :=
    let xd := ddims (ob_desc o) in let yd := ddims (ob_desc src) in
    if cast_throws (length xd) xd yd then None
    else Some (
      r <- (if needs_realloc xd yd then reshape_to o yd h else Ok (o, h)) ;;
      h2 <- forM (indices (ddims (ob_desc (fst r))))
              (fun idx h => v <- obj_get src idx h ;; vec_wr (fst r) (ordinal (fst r) idx) (cv v) h) (snd r) ;;
      Ok (fst r, h2)).

  (** 353-376 [resize]. *)
  Definition obj_resize (o : tobj) (dims : list Z) (h : heap T) : res (tobj * heap T) :=
    if list_eq_dec Z.eq_dec (ddims (ob_desc o)) dims then Ok (o, h) else reshape_to o dims h.

  (** 409-419 [set_all], 847-850 [= value]: the whole vector. *)
  Definition obj_fill (o : tobj) (v : T) (h : heap T) : res (heap T) :=
    forM (zrange (ob_len o)) (fun k h => vec_wr o k v h) h.
  (** 853-864 [OP= value]; the value is held by the caller.  Sequential form of
      M_Elt.scalar_op (C08: every interleaving of the threads has this effect). *)
  Definition obj_op (op : T -> T -> T) (o : tobj) (v : T) (h : heap T) : res (heap T) :=
    forM (zrange (ob_len o)) (fun k h => x <- vec_rd o k h ;; vec_wr o k (op x v) h) h.
  (** 866-883 [OP= tensor]: [size()] of both is compared, [_data.size()] elements
      are processed (sequential form of M_Elt.tensor_op).  [None]: throws. *)
  Definition obj_op2 (op : T -> T -> T) (o src : tobj) (h : heap T) : option (res (heap T)) :=
    if negb (size_model (ddims (ob_desc o)) =? size_model (ddims (ob_desc src))) then None
    else Some (forM (zrange (ob_len o))
                 (fun k h => y <- vec_rd src k h ;; x <- vec_rd o k h ;; vec_wr o k (op x y) h) h).

  (** End of the variable's lifetime: the vector's memory is returned. *)
  Definition vec_free (o : tobj) (h : heap T) : heap T :=
    fun a => if (dbase (ob_desc o) <=? a) && (a <? dbase (ob_desc o) + ob_len o) then None else h a.

  (** One statement; [true] next to the new state: it threw an exception.
      Naming a variable that does not exist (or constructing one that does) is
      no C++ program and gives [UB]. *)
  Definition vstep (o : vop T) (s : vstate) : res (bool * vstate) :=
    let '(vs, h) := s in
    match o with
    | VDefault x dims strides =>
        match vs x with None => Ok (false, (vset x (Some (mkObj (mkDesc 0 dims strides) 0)) vs, h)) | Some _ => UB end
    | VMake x dims =>
        match vs x with None => r <- obj_make dims h ;; Ok (false, (vset x (Some (fst r)) vs, snd r)) | Some _ => UB end
    | VCopy x y =>
        match vs x, vs y with
        | None, Some b => r <- obj_copy b h ;; Ok (false, (vset x (Some (fst r)) vs, snd r))
        | _, _ => UB
        end
    | VAssign x y =>
        match vs x, vs y with
        | Some a, Some b => r <- obj_assign (Nat.eqb x y) a b h ;; Ok (false, (vset x (Some (fst r)) vs, snd r))
        | _, _ => UB
        end
    | VAssignCast cv x y =>
        match vs x, vs y with
        | Some a, Some b =>
            match obj_assign_cast cv a b h with
            | None => Ok (true, s)
            | Some m => r <- m ;; Ok (false, (vset x (Some (fst r)) vs, snd r))
            end
        | _, _ => UB
        end
    (* 237-288: the vector is moved out of [y] first; when the constructor throws
       it is destroyed with the half-built tensor. *)
    | VReshape x y dims =>
        match vs x, vs y with
        | None, Some b =>
            let hollow := mkObj (ob_desc b) 0 in
            match reshape (ob_desc b) dims with
            | Ok d => Ok (false, (vset x (Some (mkObj d (ob_len b))) (vset y (Some hollow) vs), h))
            | Throw => Ok (true, (vset y (Some hollow) vs, vec_free b h))
            | UB => UB
            end
        | _, _ => UB
        end
    | VResize x dims =>
        match vs x with Some a => r <- obj_resize a dims h ;; Ok (false, (vset x (Some (fst r)) vs, snd r)) | None => UB end
    | VWrite x inds v =>
        match vs x with Some a => h' <- vec_wr a (ordinal a inds) v h ;; Ok (false, (vs, h')) | None => UB end
    | VFill x v => match vs x with Some a => h' <- obj_fill a v h ;; Ok (false, (vs, h')) | None => UB end
    | VOpS op x v => match vs x with Some a => h' <- obj_op op a v h ;; Ok (false, (vs, h')) | None => UB end
    | VOpT op x y =>
        match vs x, vs y with
        | Some a, Some b =>
            match obj_op2 op a b h with
            | None => Ok (true, s)
            | Some m => h' <- m ;; Ok (false, (vs, h'))
            end
        | _, _ => UB
        end
    | VDrop x => match vs x with Some a => Ok (false, (vset x None vs, vec_free a h)) | None => UB end
    end.

  (** A sequence of statements, each inside its own try block; the list tells
      which of them threw. *)
  Fixpoint vruns (os : list (vop T)) (s : vstate) : res (list bool * vstate) :=
    match os with
    | [] => Ok ([], s)
    | o :: r => p <- vstep o s ;; q <- vruns r (snd p) ;; Ok (fst p :: fst q, snd q)
    end.
End Value.
