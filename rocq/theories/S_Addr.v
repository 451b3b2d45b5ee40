(** * S_Addr: specifications for the addressing properties (C01-C10).
    Independent of the model's helper functions. *)
From Coq Require Import List ZArith Lia Bool.
From Verif Require Import Base Heap M_Addr.
Import ListNotations.
Open Scope Z_scope.

(** Lexicographic (row-major) order on multi-indices of the same length. *)
Inductive lexlt : list Z -> list Z -> Prop :=
| lex_head : forall i j is js, i < j -> length is = length js -> lexlt (i :: is) (j :: js)
| lex_tail : forall i is js, lexlt is js -> lexlt (i :: is) (i :: js).

(** Two spellings of an index position in an axis of extent [d]: [k] itself or
    [k - d] counted from the end. *)
Definition spells (d k i : Z) : Prop := 0 <= i < d /\ (k = i \/ k = i - d).

(** [spell dims ks idx]: the user-level index [ks] (entries in [-d, d)) denotes [idx]. *)
Inductive spell : list Z -> list Z -> list Z -> Prop :=
| spell_nil : spell [] [] []
| spell_cons : forall d ds k ks i is, spells d k i -> spell ds ks is -> spell (d :: ds) (k :: ks) (i :: is).

(** [selects args dims j p]: in a slice with arguments [args] of a tensor with
    extents [dims], the view element [j] is the parent element [p]. *)
Inductive selects : list sarg -> list Z -> list Z -> list Z -> Prop :=
| sel_nil : selects [] [] [] []
| sel_int : forall k d i args ds j p, spells d k i -> selects args ds j p ->
    selects (SInt k :: args) (d :: ds) j (i :: p)
| sel_all : forall d x args ds j p, 0 <= x < d -> selects args ds j p ->
    selects (SAll :: args) (d :: ds) (x :: j) (x :: p)
| sel_range : forall lo hi e d x args ds j p,
    (0 <= hi /\ e = hi \/ hi < 0 /\ e = d + hi) -> e <= d -> 0 <= lo ->
    0 <= x -> lo + x < e -> selects args ds j p ->
    selects (SRange lo hi :: args) (d :: ds) (x :: j) (lo + x :: p).

(** Arguments within range of the extents. *)
Inductive arg_ok : sarg -> Z -> Prop :=
| ok_int : forall k d, - d <= k < d -> arg_ok (SInt k) d
| ok_all : forall d, 0 <= d -> arg_ok SAll d
| ok_range : forall lo hi d, 0 <= lo -> lo <= hi <= d -> arg_ok (SRange lo hi) d
| ok_range_neg : forall lo hi d, 0 <= lo -> hi < 0 -> lo <= d + hi -> arg_ok (SRange lo hi) d.

(** Extents of the view: one per non-integer argument. *)
Fixpoint slice_dims (args : list sarg) (dims : list Z) : list Z :=
  match args, dims with
  | SInt _ :: r, _ :: ds => slice_dims r ds
  | SAll :: r, d :: ds => d :: slice_dims r ds
  | SRange lo hi :: r, d :: ds => (if hi <? 0 then d + hi - lo else hi - lo) :: slice_dims r ds
  | _, _ => []
  end.

(** No integer argument stands before a Range argument. *)
Fixpoint no_range (args : list sarg) : Prop :=
  match args with [] => True | SRange _ _ :: _ => False | _ :: r => no_range r end.
Fixpoint int_after_range (args : list sarg) : Prop :=
  match args with
  | [] => True
  | SInt _ :: r => no_range r
  | _ :: r => int_after_range r
  end.

(** An offset box inside a shape: [0 <= o] and [o + n <= d] in every axis. *)
Inductive fits : list Z -> list Z -> list Z -> Prop :=
| fits_nil : fits [] [] []
| fits_cons : forall o n d os ns ds, 0 <= o -> 0 <= n -> o + n <= d -> fits os ns ds ->
    fits (o :: os) (n :: ns) (d :: ds).

Fixpoint vadd (a b : list Z) : list Z :=
  match a, b with x :: r, y :: s => x + y :: vadd r s | _, _ => [] end.

(** [fills spec dims]: [dims] is [spec] with every -1 replaced by a non-negative extent. *)
Definition fills (spec dims : list Z) : Prop :=
  Forall2 (fun s d => (s = -1 /\ 0 <= d) \/ (0 <= s /\ d = s)) spec dims.

(** Number of -1 entries. *)
Fixpoint wildcards (spec : list Z) : nat :=
  match spec with [] => 0 | s :: r => ((if (s =? -1)%Z then 1 else 0) + wildcards r)%nat end.

(** Product of the entries that are not -1. *)
Fixpoint known_product (spec : list Z) : Z :=
  match spec with [] => 1 | s :: r => (if s =? -1 then 1 else s) * known_product r end.
