(** * S_Infer: elements of a flat sequence at regular distances; eigenvalues. *)
From Coq Require Import List ZArith.
From Verif Require Import Base Heap S_Laguerre.
Import ListNotations.
Open Scope Z_scope.

(** The rank-1 view [v] is the elements number o, o+s, o+2s, ... (all those below [n])
    of a sequence whose element number [q] has address [at q]. *)
Definition every (v : desc) (n o s : Z) (at_ : Z -> Z) : Prop :=
  exists k, ddims v = [k] /\ (forall p, 0 <= p -> (p < k <-> o + p * s < n)) /\
    forall p, 0 <= p < k -> addr v [p] = at_ (o + p * s).

(** [x] is an eigenvalue of the n x n matrix [m]. *)
Definition eigenvalue {O : Ops} (n : nat) (m : Z -> Z -> car O) (x : car O) : Prop :=
  exists v : nat -> car O, (exists i, (i < n)%nat /\ v i <> o0) /\
    forall i, (i < n)%nat -> psum (fun j => omul (m (Z.of_nat i) (Z.of_nat j)) (v j)) n = omul x (v i).
