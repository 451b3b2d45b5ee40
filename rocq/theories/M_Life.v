(** * M_Life: initialize and finalize of the library.  Model definitions only.
    Files under /repo/src: InitializeFinalize.cpp (I), Timer.cpp (T),
    include/einsums/_Common.hpp. *)
From Coq Require Import List ZArith Lia Bool String.
From Verif Require Import Base Heap M_Timer S_Timer T_Timer.
Import ListNotations.
Open Scope Z_scope.

(** A printed report; the argument bounds the depth of the tree ([t_report]). *)
Definition printed := nat -> option (list (nat * string * Z * Z)).

(** T 45-46 [current_timer] and [root]: [None] when both are null.  [lf_lost]
    counts the trees that are no longer reachable but were not deleted;
    [lf_out] holds the reports written so far, the oldest first. *)
Record life := mkLife { lf_tree : option tstate; lf_lost : nat; lf_out : list printed }.
Definition life0 : life := mkLife None 0 [].

(** Where the report goes.  [ToStream]: finalize of an ostream, finalize of a FILE pointer
    and finalize(true); [ToString ok], [ToChar ok]: finalize(std::string) and
    finalize of a C string, [ok] telling whether the file could be opened;
    [Quiet]: finalize(false), also finalize() (_Common.hpp 109). *)
Inductive dest := ToStream | ToString (ok : bool) | ToChar (ok : bool) | Quiet.
(** Calls of the program, in the order they are made.  [clock i] is the i-th
    reading of the clock during initialize. *)
Inductive lev := LInit (clock : Z -> Z) | LTimer (e : tev) | LFinal (d : dest).

(** T 58-62: the thousand push/pop pairs, newest first. *)
Definition overhead (clock : Z -> Z) : list tev :=
  flat_map (fun i => [EPop 0 (clock (2 * i + 1)); EPush 0 false "Timer Overhead" (clock (2 * i))])
    (rev (zrange 1000)).
(** T 50-63: [new TimerDetail] replaces [root] without looking at the old one. *)
Definition l_init (clock : Z -> Z) (s : life) : res life :=
  t <- t_run (overhead clock) ;;
  Ok (mkLife (Some t) (match lf_tree s with Some _ => S (lf_lost s) | None => lf_lost s end) (lf_out s)).
(** T 140-213: without a tree [current_timer] is null and the calls only warn. *)
Definition l_timer (e : tev) (s : life) : res life :=
  match lf_tree s with
  | None => Ok s
  | Some t => t' <- t_step e t ;; Ok (mkLife (Some t') (lf_lost s) (lf_out s))
  end.
(** T 119-139: [print_timer_info(root)] dereferences a null [root]. *)
Definition l_report (s : life) : res life :=
  match lf_tree s with
  | None => UB
  | Some t => Ok (mkLife (lf_tree s) (lf_lost s) (lf_out s ++ [fun fuel => t_report fuel t]))
  end.
(** T 65-70 ([assert] inactive). *)
Definition l_drop (s : life) : life := mkLife None (lf_lost s) (lf_out s).
(** I 37-86.  A file opened by name that cannot be opened: a failed [ofstream]
    swallows the report; [fprintf] to a null FILE pointer is [UB].  blas::finalize
    and the GPU part have no effect here. *)
Definition l_final (d : dest) (s : life) : res life :=
  match d with
  | Quiet => Ok s
  | ToStream | ToString true | ToChar true => s' <- l_report s ;; Ok (l_drop s')
  | ToString false => match lf_tree s with None => UB | Some _ => Ok (l_drop s) end
  | ToChar false => UB
  end.
Definition l_step (e : lev) (s : life) : res life :=
  match e with LInit c => l_init c s | LTimer e => l_timer e s | LFinal d => l_final d s end.
Definition l_run (es : list lev) (s : life) : res life := forM es l_step s.
