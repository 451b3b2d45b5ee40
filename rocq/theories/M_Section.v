(** * M_Section: trimming of strings, timed sections.  Model definitions only.
    Files: L = /repo/src/include/einsums/STL.hpp, C = /repo/src/Section.cpp,
    H = /repo/src/include/einsums/Section.hpp. *)
From Coq Require Import List ZArith Lia Bool String Ascii.
From Verif Require Import Base Heap M_Timer S_Timer.
Import ListNotations.
Open Scope Z_scope.

(** ** Strings *)

(** [std::isspace] in the "C" locale: tab, newline, vertical tab, form feed,
    carriage return, blank. *)
Definition isspace (c : ascii) : bool :=
  let n := nat_of_ascii c in Nat.eqb n 32 || (Nat.leb 9 n && Nat.leb n 13).

(** L 532-534 [ltrim]: erases up to the first character that is no space. *)
Fixpoint ltrim (s : list ascii) : list ascii :=
  match s with
  | c :: r => if isspace c then ltrim r else s
  | [] => []
  end.
(** L 537-539 [rtrim]: the same with reverse iterators. *)
Definition rtrim (s : list ascii) : list ascii := rev (ltrim (rev s)).
(** L 542-545, 560-563 [trim], [trim_copy]. *)
Definition trim (s : list ascii) : list ascii := ltrim (rtrim s).
Definition trim_string (s : string) : string := string_of_list_ascii (trim (list_ascii_of_string s)).

(** ** Sections *)

(** A program as far as sections are concerned.  [SScope name timed body]: a
    block that starts with the definition of a [Section] object; [SEnd k]: a
    call of [end()] of the section of the [k]-th enclosing scope (0: the
    innermost); [STry body]: a block whose exceptions are caught. *)
Inductive stmt :=
| SScope (name : string) (timed : bool) (body : list stmt)
| SEnd (k : nat)
| SThrow
| STry (body : list stmt).

(** The member [_impl] of a section: [None] is the null pointer, [Some timed]
    points to an Impl with that [push_timer].  The VTune calls are not
    modelled.  [clock i] is the time read by the [i]-th call of the timer. *)
Section Exec.
  Variable thread : nat.
  Variable par : bool.
  Variable clock : nat -> Z.

  (** C 66-76 [end]. *)
  Definition sec_end (sec : option bool) (hist : list tev) : option bool * list tev :=
    match sec with
    | Some true => (None, EPop thread (clock (List.length hist)) :: hist)
    | Some false => (None, hist)
    | None => (None, hist)
    end.

  (** Execution of a statement: whether an exception leaves it, the sections of
      the enclosing scopes, the timer calls so far (newest first).
      The scope: C 29-51 and 57-64 (constructor, [begin]), then the body, then
      C 53-55 (destructor), which also runs when an exception leaves the body. *)
  Fixpoint exec (s : stmt) (secs : list (option bool)) (hist : list tev) {struct s} : bool * list (option bool) * list tev :=
    let fix block (b : list stmt) (secs : list (option bool)) (hist : list tev) : bool * list (option bool) * list tev :=
      match b with
      | [] => (false, secs, hist)
      | s :: r => let '(thrown, secs', hist') := exec s secs hist in
                  if thrown then (true, secs', hist') else block r secs' hist'
      end in
    match s with
    | SScope name timed body =>
        let hist1 := if timed then EPush thread par (trim_string name) (clock (List.length hist)) :: hist else hist in
        let '(thrown, secs', hist2) := block body (Some timed :: secs) hist1 in
        match secs' with
        | sec :: rest => (thrown, rest, snd (sec_end sec hist2))
        | [] => (thrown, [], hist2)
        end
    | SEnd k =>
        match nth_error secs k with
        | Some sec => let '(sec', hist') := sec_end sec hist in (false, set_nth k sec' secs, hist')
        | None => (false, secs, hist)
        end
    | SThrow => (true, secs, hist)
    | STry body => let '(_, secs', hist') := block body secs hist in (false, secs', hist')
    end.
  Fixpoint exec_block (b : list stmt) (secs : list (option bool)) (hist : list tev) : bool * list (option bool) * list tev :=
    match b with
    | [] => (false, secs, hist)
    | s :: r => let '(thrown, secs', hist') := exec s secs hist in
                if thrown then (true, secs', hist') else exec_block r secs' hist'
    end.
End Exec.
