(** * S_HipBlas: memories, blocks of device memory, and libraries that depend
    only on the numbers they are given. *)
From Coq Require Import Ascii List ZArith Lia Bool.
From Verif Require Import Base Heap.
Import ListNotations.
Open Scope Z_scope.

(** Two memories with the same contents. *)
Definition same {T} (g h : heap T) : Prop := forall z, g z = h z.

(** The [n] cells from [a] on are allocated. *)
Definition covers {T} (h : heap T) (a n : Z) : Prop := forall z, a <= z < a + n -> exists v, h z = Some v.

(** Cell [z] belongs to block [b] (address, size). *)
Definition in_block (b : Z * Z) (z : Z) : Prop := fst b <= z < fst b + snd b.
Definition apart (b c : Z * Z) : Prop := fst b <> fst c /\ forall z, in_block b z -> ~ in_block c z.

(** Where an allocator may put the blocks [bs]: apart from each other, in
    memory that is not in use. *)
Definition placed {T} (dev : heap T) (live bs : list (Z * Z)) : Prop :=
  ForallOrdPairs apart bs /\
  (forall b z, In b bs -> in_block b z -> dev z = None) /\
  (forall b, In b bs -> ~ In (fst b) (map fst live)).

(** The characters that ask BLAS for the transposed matrix. *)
Definition asks_transpose (c : ascii) : bool := existsb (Ascii.eqb c) ["t"; "T"; "c"; "C"]%char.
