(** * S_Value: what a program with tensor variables computes when tensors are
    values: a variable holds its extents and the list of its elements in
    row-major order, and no two variables have anything in common. *)
From Coq Require Import List ZArith Lia Bool.
From Verif Require Import Base Heap M_Value.
Import ListNotations.
Open Scope Z_scope.

(** [Hollow]: default-constructed or moved-from; no elements.  The extents still
    recorded in it are kept only to state where the code goes wrong. *)
Inductive aval (T : Type) := Hollow (stale : list Z) | Val (dims : list Z) (xs : list T).
Arguments Hollow {T}. Arguments Val {T}.
Definition astore (T : Type) := nat -> option (aval T).

(** Row-major position of an element; an index [k] of an axis of extent [d] may
    be written [k - d].  [None]: outside the tensor. *)
Fixpoint position (acc : Z) (dims inds : list Z) : option Z :=
  match dims, inds with
  | [], [] => Some acc
  | d :: ds, k :: ks =>
      if (0 <=? k) && (k <? d) then position (acc * d + k) ds ks
      else if (- d <=? k) && (k <? 0) then position (acc * d + (k + d)) ds ks
      else None
  | _, _ => None
  end.

Definition put {T} (k : Z) (v : T) (xs : list T) : list T :=
  firstn (Z.to_nat k) xs ++ v :: skipn (S (Z.to_nat k)) xs.

Definition zero_list {T} (zero : T) (n : Z) : list T := repeat zero (Z.to_nat n).

(** Proper extents. *)
Definition shape (dims : list Z) : bool := negb (Nat.eqb (length dims) 0) && forallb (fun d => 0 <=? d) dims.

Definition aset {T} (x : nat) (v : option (aval T)) (s : astore T) : astore T := fun y => if Nat.eqb y x then v else s y.

Definition rank_of {T} (v : aval T) : nat := match v with Hollow d => length d | Val d _ => length d end.

(** Extents with one -1 (to be computed from the number [n] of elements). *)
Definition infer (n : Z) (dims : list Z) : list Z :=
  let p := zprod (filter (fun d => negb (d =? -1)) dims) in map (fun d => if d =? -1 then n / p else d) dims.
Definition minus_ones (dims : list Z) : nat := length (filter (fun d => d =? -1) dims).

(** One statement: [None] when the program makes no sense (unknown variable,
    element outside the tensor, use of a tensor that has no elements yet, ranks
    that differ); otherwise whether an exception is thrown, and the new store. *)
Definition astep {T} (zero : T) (o : vop T) (s : astore T) : option (bool * astore T) :=
  match o with
  | VDefault x dims _ => match s x with None => Some (false, aset x (Some (Hollow dims)) s) | _ => None end
  | VMake x dims =>
      match s x with None => if shape dims then Some (false, aset x (Some (Val dims (zero_list zero (zprod dims)))) s) else None | _ => None end
  | VCopy x y => match s x, s y with None, Some (Val d xs) => Some (false, aset x (Some (Val d xs)) s) | _, _ => None end
  | VAssign x y =>
      match s x, s y with
      | Some v, Some (Val d xs) => if Nat.eqb (rank_of v) (length d) then Some (false, aset x (Some (Val d xs)) s) else None
      | _, _ => None
      end
  (* other element type: a tensor of rank 2 or more is only resized along empty axes *)
  | VAssignCast cv x y =>
      match s x, s y with
      | Some v, Some (Val d xs) =>
          if Nat.eqb x y || negb (Nat.eqb (rank_of v) (length d)) then None
          else match v with
               | Hollow _ => Some (false, aset x (Some (Val d (map cv xs))) s)
               | Val e _ =>
                   if Nat.eqb (length d) 1 || forallb (fun p => (fst p =? 0) || (fst p =? snd p)) (combine e d)
                   then Some (false, aset x (Some (Val d (map cv xs))) s) else Some (true, s)
               end
      | _, _ => None
      end
  | VReshape x y dims =>
      match s x, s y with
      | None, Some (Val d xs) =>
          let n := zprod d in
          if Nat.eqb (length dims) 0 || negb (forallb (fun k => -1 <=? k) dims) || (Nat.eqb (minus_ones dims) 1 && existsb (fun k => k =? 0) dims) then None
          else let dims' := infer n dims in
               if (Nat.leb (minus_ones dims) 1) && (zprod dims' =? n) && ((Nat.eqb (minus_ones dims) 0) || (zprod dims' >? 0))
               then Some (false, aset x (Some (Val dims' xs)) (aset y (Some (Hollow d)) s))
               else Some (true, aset y (Some (Hollow d)) s)
      | _, _ => None
      end
  | VResize x dims =>
      match s x with
      | Some v => if negb (shape dims) || negb (Nat.eqb (rank_of v) (length dims)) then None else
          match v with
          | Hollow _ => Some (false, aset x (Some (Val dims (zero_list zero (zprod dims)))) s)
          | Val d xs => Some (false, aset x (Some (Val dims (firstn (Z.to_nat (zprod dims)) (xs ++ zero_list zero (zprod dims))))) s)
          end
      | None => None
      end
  | VWrite x inds v =>
      match s x with
      | Some (Val d xs) => match position 0 d inds with Some k => Some (false, aset x (Some (Val d (put k v xs))) s) | None => None end
      | _ => None
      end
  | VFill x v => match s x with Some (Val d xs) => Some (false, aset x (Some (Val d (map (fun _ => v) xs))) s) | _ => None end
  | VOpS op x v => match s x with Some (Val d xs) => Some (false, aset x (Some (Val d (map (fun e => op e v) xs))) s) | _ => None end
  | VOpT op x y =>
      match s x, s y with
      | Some (Val d xs), Some (Val e ys) =>
          if negb (Nat.eqb (length d) (length e)) then None
          else if Nat.eqb (length xs) (length ys) then Some (false, aset x (Some (Val d (map (fun p => op (fst p) (snd p)) (combine xs ys)))) s)
          else Some (true, s)
      | _, _ => None
      end
  | VDrop x => match s x with Some _ => Some (false, aset x None s) | None => None end
  end.

Fixpoint aruns {T} (zero : T) (os : list (vop T)) (s : astore T) : option (list bool * astore T) :=
  match os with
  | [] => Some ([], s)
  | o :: r =>
      match astep zero o s with
      | None => None
      | Some (b, s') => match aruns zero r s' with None => None | Some (bs, s'') => Some (b :: bs, s'') end
      end
  end.

(** ** Where the code is followed.  Three cases are excluded: assigning to or
    resizing a hollow variable whose recorded extents happen to be the new ones
    (or, for a cast of rank 2 or more, contain no zero or differ elsewhere), and operands of 2^31 or more
    elements in an arithmetic assignment. *)
Definition op_ok {T} (o : vop T) (s : astore T) : Prop :=
  match o with
  | VAssign x y =>
      match s x, s y with Some (Hollow st), Some (Val d _) => In 0 st \/ st <> d | _, _ => True end
  | VAssignCast _ x y =>
      match s x, s y with Some (Hollow st), Some (Val d _) =>
        (In 0 st /\ Forall (fun p => fst p = 0 \/ fst p = snd p) (combine st d)) \/ (length d = 1%nat /\ st <> d)
      | _, _ => True end
  | VResize x dims => match s x with Some (Hollow st) => st <> dims | _ => True end
  | VOpT _ x y =>
      match s x, s y with Some (Val d _), Some (Val e _) => zprod d < 2 ^ 31 /\ zprod e < 2 ^ 31 | _, _ => True end
  | _ => True
  end.
Fixpoint ops_ok {T} (zero : T) (os : list (vop T)) (s : astore T) : Prop :=
  match os with
  | [] => True
  | o :: r => op_ok o s /\ (match astep zero o s with Some (_, s') => ops_ok zero r s' | None => True end)
  end.

(** ** The allocator: a vector that grows is put into unallocated memory, or
    stays where it is and is extended by unallocated memory. *)
Definition place_ok {T} (pl : heap T -> Z -> Z -> Z -> option Z) : Prop :=
  forall h b len n p k, len < n -> pl h b len n = Some p -> 0 <= k < n -> h (p + k) = None \/ (p = b /\ k < len).

(** A cell of the vector of a variable. *)
Definition owns (vs : vars) (x : nat) (a : Z) : Prop :=
  exists o, vs x = Some o /\ dbase (ob_desc o) <= a < dbase (ob_desc o) + ob_len o.

(** The allocator refused a request. *)
Definition exhausted {T} (pl : heap T -> Z -> Z -> Z -> option Z) : Prop := exists h b len n, len < n /\ pl h b len n = None.
