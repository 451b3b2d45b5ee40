(** * M_Hash: the hash of a container.  Model definitions only.

    /repo/src/include/einsums/utility/HashFuncs.hpp 20-54 [container_hash],
    used for the map of tiles of a [TiledTensor] (TiledTensor.hpp 6, 43).  [size_t] is
    64 bits: [sizeof(size_t)] is 8.  A container is the list of its elements;
    an element enters through its object representation, a list of bytes. *)
From Coq Require Import List ZArith Bool.
Import ListNotations.
Open Scope Z_scope.

(** Conversion of a result to [size_t]. *)
Definition size_t_of (x : Z) : Z := x mod 2 ^ 64.

(** 37: [(((size_t)2 << sizeof(size_t)) - 1) << (7 * sizeof(size_t))]. *)
Definition hash_mask : Z := size_t_of (Z.shiftl (size_t_of (Z.shiftl 2 8) - 1) (7 * 8)).

(** 43-49: one byte. *)
Definition hash_byte (hash b : Z) : Z :=
  let shifted := size_t_of (Z.shiftl hash 8) in                                    (* 43 *)
  let added := size_t_of (shifted + b) in                                          (* 44 *)
  if negb (Z.land added hash_mask =? 0)                                            (* 46 *)
  then Z.ldiff (Z.lxor added (Z.shiftr hash_mask (6 * 8))) hash_mask               (* 47-48 *)
  else added.

(** 40-50: the bytes of one element. *)
Definition hash_element (hash : Z) (bytes : list Z) : Z := fold_left hash_byte bytes hash.

(** 32-53: [repr] is the object representation of an element. *)
Definition container_hash {E} (repr : E -> list Z) (cont : list E) : Z :=
  fold_left (fun hash v => hash_element hash (repr v)) cont 0.
