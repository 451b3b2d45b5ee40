(** * S_GpuLife: what sessions on the GPU should do. *)
From Coq Require Import List Bool Arith.
From Verif Require Import M_GpuLife.
Import ListNotations.

(** A session with [n] threads and what is called in it. *)
Definition program (s : nat * list gop) : list gop := GInit (fst s) :: snd s ++ [GFinal].
(** What is called: waits and requests to skip one, by threads that exist. *)
Definition uses (n : nat) (os : list gop) : Prop :=
  Forall (fun o => match o with GSkip t | GWait t _ => t < n | _ => False end) os.
(** Which waits are skipped: [pend t] tells whether thread [t] has asked for it. *)
Fixpoint skipped (pend : nat -> bool) (os : list gop) : list bool :=
  match os with
  | [] => []
  | GSkip t :: r => skipped (fun u => Nat.eqb u t || pend u) r
  | GWait t m :: r => if m && pend t then true :: skipped (fun u => negb (Nat.eqb u t) && pend u) r else false :: skipped pend r
  | _ :: r => skipped pend r
  end.
(** The requests left at the end. *)
Fixpoint pending (pend : nat -> bool) (os : list gop) : nat -> bool :=
  match os with
  | [] => pend
  | GSkip t :: r => pending (fun u => Nat.eqb u t || pend u) r
  | GWait t m :: r => if m && pend t then pending (fun u => negb (Nat.eqb u t) && pend u) r else pending pend r
  | _ :: r => pending pend r
  end.
Definition nobody (t : nat) : bool := false.
(** Nothing of a session is left. *)
Definition nothing_left (s : gs) : Prop :=
  live s = [] /\ streams s = None /\ blas s = None /\ solver s = None /\ locked s = false.
(** All [n] threads have a stream, a BLAS handle and a solver handle of their
    own, the handles use the stream, and there is nothing else but the pool. *)
Definition equipped (n : nat) (s : gs) : Prop :=
  exists p ss bs vs, pool s = Some p /\ streams s = Some (map Some ss) /\ blas s = Some (map Some bs) /\ solver s = Some (map Some vs) /\
    length ss = n /\ length bs = n /\ length vs = n /\ NoDup (p :: ss ++ bs ++ vs) /\
    (forall i, In i (live s) <-> In i (p :: ss ++ bs ++ vs)) /\ locked s = false /\
    (forall t x y z, nth_error ss t = Some x -> nth_error bs t = Some y -> nth_error vs t = Some z ->
       find (fun q => Nat.eqb (fst q) y) (bound s) = Some (y, Some x) /\ find (fun q => Nat.eqb (fst q) z) (bound s) = Some (z, Some x)).
