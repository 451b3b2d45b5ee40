(** * M_Timer: the timer tree.  Model definitions only.
    Files under /repo/src: Timer.cpp, include/einsums/Timer.hpp, Section.cpp. *)
From Coq Require Import List ZArith Lia Bool String.
From Verif Require Import Base Heap.
Import ListNotations.
Open Scope Z_scope.

(** Timer.cpp 28-43 [TimerDetail].  Pointers are positions in the list of all
    nodes made so far ([std::map] nodes do not move); [parent = nullptr] is
    [None].  [children] maps a name to the node stored in the map.
    Times are integers (ticks of the clock). *)
Record tnode := mkTn {
  tn_name : string; tn_time : Z; tn_calls : Z; tn_parent : option nat;
  tn_children : list (string * nat); tn_order : list string; tn_start : Z }.
(** 45-46 [current_timer]; [root] is node 0. *)
Record tstate := mkTs { ts_nodes : list tnode; ts_cur : option nat }.

(** 50-56, first part of [initialize]; a default [time_point] is the epoch. *)
Definition t_root : tnode := mkTn "Total Run Time" 0 1 None [] [] 0.
Definition t_init : tstate := mkTs [t_root] (Some 0%nat).

Definition set_nth {A} (i : nat) (x : A) (l : list A) : list A := firstn i l ++ x :: skipn (S i) l.
Definition child (name : string) (n : tnode) : option nat :=
  option_map snd (find (fun e => String.eqb (fst e) name) (tn_children n)).

(** 146-149: [fmt::format("{} (master thread only)", name)] in a parallel region. *)
Definition region_name (in_parallel : bool) (name : string) : string :=
  if in_parallel then String.append name " (master thread only)" else name.

(** 140-169 [push]; the whole body runs under the mutex.  [thread] =
    omp_get_thread_num(), [in_parallel] = omp_in_parallel(), [now] = clock::now().
    The one-time warning is not modelled.  A dangling pointer is [UB]. *)
Definition t_push (thread : nat) (in_parallel : bool) (name : string) (now : Z) (s : tstate) : res tstate :=
  if Nat.eqb thread 0 then
    let name := region_name in_parallel name in
    match ts_cur s with
    | None => Ok s
    | Some c =>
        match nth_error (ts_nodes s) c with
        | None => UB
        | Some nd =>
            (* 160-164 *)
            let '(nodes, ch) :=
              match child name nd with
              | Some i => (ts_nodes s, i)
              | None =>
                  let i := List.length (ts_nodes s) in
                  let nd' := mkTn (tn_name nd) (tn_time nd) (tn_calls nd) (tn_parent nd)
                                  ((name, i) :: tn_children nd) (tn_order nd ++ [name]) (tn_start nd) in
                  (set_nth c nd' (ts_nodes s) ++ [mkTn name 0 0 (Some c) [] [] 0], i)
              end in
            (* 166-167 *)
            match nth_error nodes ch with
            | None => UB
            | Some n => Ok (mkTs (set_nth ch (mkTn (tn_name n) (tn_time n) (tn_calls n) (tn_parent n)
                                                  (tn_children n) (tn_order n) now) nodes) (Some ch))
            end
        end
    end
  else Ok s.

(** 171-191 [pop()] and 193-213 [pop(elapsed)]: [spent start] is what is added
    to the total time. *)
Definition t_pop_with (thread : nat) (spent : Z -> Z) (s : tstate) : res tstate :=
  if Nat.eqb thread 0 then
    match ts_cur s with
    | None => Ok s
    | Some c =>
        match nth_error (ts_nodes s) c with
        | None => UB
        | Some n =>
            Ok (mkTs (set_nth c (mkTn (tn_name n) (tn_time n + spent (tn_start n)) (tn_calls n + 1) (tn_parent n)
                                      (tn_children n) (tn_order n) (tn_start n)) (ts_nodes s)) (tn_parent n))
        end
    end
  else Ok s.
Definition t_pop (thread : nat) (now : Z) : tstate -> res tstate := t_pop_with thread (fun start => now - start).
Definition t_pop_elapsed (thread : nat) (elapsed : Z) : tstate -> res tstate := t_pop_with thread (fun _ => elapsed).

(** 77-105 [print_timer_info], 119-139 [report]: one line per node (indentation
    level, name, calls, total time); the root prints a heading instead.  The
    textual formatting is not modelled.  [fuel] bounds the depth: [None] if
    deeper.  The range-for over [order] looks the name up with
    [children[child]] (which exists: otherwise a new node would be made; the
    model gives [None]). *)
Fixpoint t_print (fuel : nat) (nodes : list tnode) (depth : nat) (c : nat) : option (list (nat * string * Z * Z)) :=
  match fuel with
  | 0%nat => None
  | S fuel =>
      match nth_error nodes c with
      | None => None
      | Some n =>
          let line := if Nat.eqb c 0 then [] else [(depth, tn_name n, tn_calls n, tn_time n)] in
          fold_left (fun acc name =>
            match acc, child name n with
            | Some a, Some i => match t_print fuel nodes (S depth) i with Some b => Some (a ++ b) | None => None end
            | _, _ => None
            end) (tn_order n) (Some line)
      end
  end.
Definition t_report (fuel : nat) (s : tstate) := t_print fuel (ts_nodes s) 0 0.
