(** * S_Hash: what is said about hashes, without reference to the code. *)
From Coq Require Import List ZArith.
Import ListNotations.
Open Scope Z_scope.

Definition is_byte (b : Z) : Prop := 0 <= b < 256.

(** The number written by the bytes, the first being the most significant. *)
Fixpoint number_of (bytes : list Z) : Z :=
  match bytes with
  | [] => 0
  | b :: r => b * 256 ^ Z.of_nat (length r) + number_of r
  end.

(** Bytes of a 32-bit integer on a little-endian machine. *)
Definition int_bytes (i : Z) : list Z :=
  [i mod 256; i / 256 mod 256; i / 65536 mod 256; i / 16777216 mod 256].

(** A [double] that is a zero, with its sign, and its IEEE representation. *)
Inductive zero_double := PosZero | NegZero.
Definition zero_bytes (z : zero_double) : list Z :=
  [0; 0; 0; 0; 0; 0; 0; match z with PosZero => 0 | NegZero => 128 end].
(** C++ [==] on them. *)
Definition double_equal (x y : zero_double) : Prop := True.
