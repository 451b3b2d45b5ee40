(** * S_Util: specifications for C34-C38, independent of the model. *)
From Coq Require Import List ZArith.
Import ListNotations.
Open Scope Z_scope.

(** ** C36: a bounded queue that drops its oldest entry when it is full. *)
Inductive cop (T : Type) := CPut (x : T) | CReset.
Arguments CPut {T}. Arguments CReset {T}.

(** The last [c] entries of a list. *)
Definition last_of {T} (c : nat) (l : list T) : list T := skipn (length l - c) l.

(** [history] is given newest first.  [live]: what the buffer should contain,
    oldest first: the last [c] of the entries put since the last reset.
    [dropped]: how many entries were pushed out by a newer one. *)
Fixpoint live {T} (c : nat) (history : list (cop T)) : list T :=
  match history with
  | [] => []
  | CPut x :: older => last_of c (live c older ++ [x])
  | CReset :: _ => []
  end.
Fixpoint dropped {T} (c : nat) (history : list (cop T)) : nat :=
  match history with
  | [] => 0
  | CPut x :: older => dropped c older + (if Nat.eqb (length (live c older)) c then 1 else 0)
  | CReset :: older => dropped c older
  end.

(** ** C38: order of first occurrence *)

(** [subseq a b]: [a] is [b] with some entries left out, order kept. *)
Inductive subseq {T} : list T -> list T -> Prop :=
| sub_nil : subseq [] []
| sub_skip : forall x a b, subseq a b -> subseq a (x :: b)
| sub_keep : forall x a b, subseq a b -> subseq (x :: a) (x :: b).
