(** * M_Print: printing of lines, indentation, number of digits.  Model
      definitions only.
    Files: P = /repo/src/Print.cpp, L = /repo/src/include/einsums/STL.hpp. *)
From Coq Require Import String Ascii List ZArith Lia Bool.
From Verif Require Import Base.
Import ListNotations.
Open Scope Z_scope.

(** ** L 519-529 [ndigits]; integer division truncates.  [None]: still running
    after [fuel] turns. *)
Fixpoint ndigits_loop (fuel : nat) (number digits : Z) : option Z :=
  match fuel with
  | 0%nat => None
  | S f => if number =? 0 then Some digits else ndigits_loop f (Z.quot number 10) (digits + 1)
  end.
Definition ndigits (fuel : nat) (number : Z) : option Z := ndigits_loop fuel number (if number <? 0 then 1 else 0).

(** ** Lines *)
Definition newline : ascii := ascii_of_nat 10.
Definition nul : ascii := ascii_of_nat 0.

(** [std::getline] until it fails (P 163-191): characters up
    to the next newline, which is dropped; it fails when nothing is left.
    [cur]: the characters of the current line, latest first; [any]: whether
    anything was extracted. *)
Fixpoint getlines_from (s : list ascii) (cur : list ascii) (any : bool) : list (list ascii) :=
  match s with
  | [] => if any then [rev cur] else []
  | c :: r => if Ascii.eqb c newline then rev cur :: getlines_from r [] false else getlines_from r (c :: cur) true
  end.
Definition getlines (s : list ascii) : list (list ascii) := getlines_from s [] false.

(** What [%s] prints of a C string. *)
Fixpoint c_str (s : list ascii) : list ascii :=
  match s with
  | [] => []
  | c :: r => if Ascii.eqb c nul then [] else c :: c_str r
  end.

(** ** The shared state of the printing functions: the mutex (its owner), the
    number of blanks in [indent_string] (P 32-34, 48-52; [indent_level] and the
    string change together), everything printed so far. *)
Record pstate := mkPs { ps_lock : option nat; ps_indent : Z; ps_out : list ascii }.

(** What a thread does: print one line (P 86-109, 111-134, 136-158; [to_file]:
    with printf rather than a stream), indent, deindent (P 54-68), and the
    steps of printing a line once its header is made. *)
Inductive pcmd :=
| PLine (to_file : bool) (line : list ascii)
| PIndent | PDeindent
| PLock | POut (s : list ascii) | PUnlock.

Definition blanks (n : Z) : list ascii := repeat (ascii_of_nat 32) (Z.to_nat n).

(** One step of thread [t]: its next command, the commands after it, the state
    to those after the step.  [None]: the mutex is not free.
    [header t]: the text before the indentation in a parallel region, empty
    outside (P 92-102).  The header is made before the mutex is taken
    (P 103); the reads of [indent_string] are not synchronised with [indent] and
    [deindent] (a data race if thread 0 calls those while others print; here
    every access is one step). *)
Definition pstep (header : nat -> list ascii) (t : nat) (c : pcmd) (k : list pcmd) (s : pstate) : option (list pcmd * pstate) :=
  match c with
  | PLine to_file line =>
      let text := if to_file then c_str line else line in
      Some (PLock :: POut (header t ++ blanks (ps_indent s)) :: POut (text ++ [newline]) :: PUnlock :: k, s)
  | PIndent => Some (k, if Nat.eqb t 0 then mkPs (ps_lock s) (ps_indent s + 4) (ps_out s) else s)
  | PDeindent => Some (k, if Nat.eqb t 0 then mkPs (ps_lock s) (Z.max 0 (ps_indent s - 4)) (ps_out s) else s)
  | PLock => match ps_lock s with None => Some (k, mkPs (Some t) (ps_indent s) (ps_out s)) | Some _ => None end
  | POut x => Some (k, mkPs (ps_lock s) (ps_indent s) (ps_out s ++ x))
  | PUnlock => Some (k, mkPs None (ps_indent s) (ps_out s))
  end.

Definition pool := list (list pcmd).
Definition pool_set (t : nat) (k : list pcmd) (p : pool) : pool := firstn t p ++ k :: skipn (S t) p.

(** Steps of any thread in any order. *)
Inductive pruns (header : nat -> list ascii) : pool * pstate -> pool * pstate -> Prop :=
| pr_refl : forall x, pruns header x x
| pr_step : forall p s t c k k' s' y, nth_error p t = Some (c :: k) -> pstep header t c k s = Some (k', s') ->
    pruns header (pool_set t k' p, s') y -> pruns header (p, s) y.

(** P 163-191: println of a text; nothing if output is suppressed. *)
Definition println (suppress to_file : bool) (text : list ascii) : list pcmd :=
  if suppress then [] else map (PLine to_file) (getlines text).
