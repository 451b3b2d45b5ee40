(** * S_Stream: what waiting for a stream should mean, from the calls alone. *)
From Coq Require Import List Arith Bool.
From Verif Require Import M_Stream.
Import ListNotations.

(** Operations thread t has queued since its stream was last changed, in order.
    The history is in the order the steps were made. *)
Definition queues (t : nat) (e : gev) : list nat :=
  match e with
  | Launch t' x | Blas t' x | Solver t' x => if Nat.eqb t' t then [x] else []
  | _ => []
  end.
Definition changes (t : nat) (e : gev) : bool :=
  match e with SetStream _ _ k => Nat.eqb k t | _ => false end.
Definition queued_since (t : nat) (es : list gev) : list nat :=
  fold_left (fun l e => if changes t e then [] else l ++ queues t e) es [].
(** skip_next_wait was called and no wait that may be skipped came after. *)
Definition skip_due (t : nat) (es : list gev) : bool :=
  fold_left (fun b e => match e with
    | Skip t' => if Nat.eqb t' t then true else b
    | Wait t' true => if Nat.eqb t' t then false else b
    | _ => b
    end) es false.
(** Threads change only their own stream. *)
Definition own_streams (es : list gev) : Prop := forall t s k, In (SetStream t s k) es -> k = t.

(** Operation x is finished (operations are numbered differently). *)
Definition finished (g : gstate) (x : nat) : Prop := exists s, In x (firstn (q_done (g_queue g s)) (q_all (g_queue g s))).
(** Number of times x was queued. *)
Definition all_queued (es : list gev) : list nat :=
  flat_map (fun e => match e with Launch _ x | Blas _ x | Solver _ x => [x] | _ => [] end) es.
