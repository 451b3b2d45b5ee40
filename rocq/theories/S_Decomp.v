(** * S_Decomp: specification for C70 and C71. *)
From Coq Require Import List ZArith.
From Verif Require Import Base Heap M_Addr S_Einsum.
Import ListNotations.
Open Scope Z_scope.

(** The allocator hands out only free memory. *)
Definition alloc_ok {T} (pl : heap T -> Z -> option Z) : Prop :=
  forall h n p k, pl h n = Some p -> 0 <= k < n -> h (p + k) = None.
(** It refused a request. *)
Definition refuses {T} (pl : heap T -> Z -> option Z) : Prop := exists h n, pl h n = None.

(** Product over [n] of the elements (i_n, j_n) of the matrices. *)
Fixpoint elems_prod {O : Ops} (fs : list (list Z -> car O)) (i j : list Z) : car O :=
  match fs, i, j with
  | f :: fs, a :: i, b :: j => omul (f [a; b]) (elems_prod fs i j)
  | _, _, _ => o1
  end.
(** CP: the sum over [r] of the products of column [r] of the factors. *)
Definition cp_value {O : Ops} (R : Z) (fs : list (list Z -> car O)) (idx : list Z) : car O :=
  zsum R (fun r => elems_prod fs idx (repeat r (length idx))).
(** Tucker: the core contracted with the columns of all factors. *)
Definition tucker_value {O : Ops} (ranks : list Z) (g : list Z -> car O) (fs : list (list Z -> car O)) (idx : list Z) : car O :=
  lsum (indices ranks) (fun r => omul (g r) (elems_prod fs idx r)).
(** The tensor contracted with the rows of all factors. *)
Definition core_value {O : Ops} (dims : list Z) (t : list Z -> car O) (fs : list (list Z -> car O)) (r : list Z) : car O :=
  lsum (indices dims) (fun i => omul (t i) (elems_prod fs i r)).

(** The factors are matrices with these extents and elements, in memory. *)
Inductive matrices {T} (h : heap T) : list desc -> list Z -> list Z -> list (list Z -> T) -> Prop :=
| matrices_nil : matrices h [] [] [] []
| matrices_cons : forall F r c f Fs rs cs fs, ddims F = [r; c] -> holds h F f ->
    matrices h Fs rs cs fs -> matrices h (F :: Fs) (r :: rs) (c :: cs) (f :: fs).
(** The rows of each [d] x [k] matrix are orthonormal. *)
Inductive orthonormal {O : Ops} : list Z -> list Z -> list (list Z -> car O) -> Prop :=
| orthonormal_nil : orthonormal [] [] []
| orthonormal_cons : forall d k f ds ks fs,
    (forall i j, 0 <= i < d -> 0 <= j < d -> zsum k (fun r => omul (f [i; r]) (f [j; r])) = if i =? j then o1 else o0) ->
    orthonormal ds ks fs -> orthonormal (d :: ds) (k :: ks) (f :: fs).

(** A new tensor: its memory was free, everything else is as before. *)
Definition created {T} (h h' : heap T) (d : desc) : Prop :=
  (forall a, cell d a -> h a = None) /\ (forall a, ~ cell d a -> h' a = h a).
