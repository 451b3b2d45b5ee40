(** * M_Stream: the streams of the GPU and waiting for them.  Model definitions only.
    File: /repo/src/_GPUUtils.hip. *)
From Coq Require Import List Arith Lia Bool.
Import ListNotations.

(** A stream: all operations ever queued, in order, and how many of them are
    finished (the device works each stream off in order). *)
Record queue := mkQ { q_all : list nat; q_done : nat }.

(** What a blocked thread waits for: streams with the number of operations
    queued when the event was recorded (hipEventRecord). *)
Definition tickets := list (nat * nat).

(** State after initialize with [n] threads (465-511).  [g_stream], [g_blas],
    [g_solver]: default_streams and the streams of the hipBLAS and hipSOLVER
    handles, by thread; [g_skip]: skip_waits.  [g_wait]: the thread is inside a
    wait.  An index beyond the number of threads is an out_of_range exception:
    the call is then no step. *)
Record gstate := mkG {
  g_n : nat; g_stream : nat -> nat; g_blas : nat -> nat; g_solver : nat -> nat;
  g_skip : nat -> bool; g_wait : nat -> option tickets; g_queue : nat -> queue }.
Definition fset {A} (f : nat -> A) (i : nat) (x : A) : nat -> A := fun j => if Nat.eqb j i then x else f j.
(** 478-502: one stream per thread (numbered by thread), its handles set to it;
    504-510. *)
Definition g_start (n : nat) : gstate :=
  mkG n (fun t => t) (fun t => t) (fun t => t) (fun _ => false) (fun _ => None) (fun _ => mkQ [] 0).

(** Steps.  [Launch t x]: thread t starts kernel x on get_stream(); [Blas],
    [Solver]: a library call with its handle; [SetStream t s k]: thread t calls
    set_stream(s, k); [Skip]: skip_next_wait; [Wait t m]: the first part of
    stream_wait(m) (events recorded); [WaitAll t]: the first part of
    all_stream_wait; [Waited t]: thread t returns from either; [Device s]: the
    device finishes the oldest unfinished operation of stream s. *)
Inductive gev :=
| Launch (t x : nat) | Blas (t x : nat) | Solver (t x : nat) | SetStream (t s k : nat) | Skip (t : nat)
| Wait (t : nat) (may_skip : bool) | WaitAll (t : nat) | Waited (t : nat) | Device (s : nat).

Definition enqueue (s x : nat) (g : gstate) : gstate :=
  let q := g_queue g s in
  mkG (g_n g) (g_stream g) (g_blas g) (g_solver g) (g_skip g) (g_wait g) (fset (g_queue g) s (mkQ (q_all q ++ [x]) (q_done q))).
Definition ticket (g : gstate) (s : nat) : nat * nat := (s, List.length (q_all (g_queue g s))).
Definition block (t : nat) (w : option tickets) (g : gstate) : gstate :=
  mkG (g_n g) (g_stream g) (g_blas g) (g_solver g) (g_skip g) (fset (g_wait g) t w) (g_queue g).
Definition set_skip (t : nat) (b : bool) (g : gstate) : gstate :=
  mkG (g_n g) (g_stream g) (g_blas g) (g_solver g) (fset (g_skip g) t b) (g_wait g) (g_queue g).
(** hipEventSynchronize returns when the recorded operations are finished. *)
Definition arrived (g : gstate) (w : tickets) : bool := forallb (fun p => snd p <=? q_done (g_queue g (fst p))) w.
(** The thread can run: it exists and is not inside a wait. *)
Definition free (t : nat) (g : gstate) : bool := (t <? g_n g) && match g_wait g t with None => true | Some _ => false end.

Definition g_step (e : gev) (g : gstate) : option gstate :=
  match e with
  (* 593-602 get_stream *)
  | Launch t x => if free t g then Some (enqueue (g_stream g t) x g) else None
  (* 327-336 get_blas_handle *)
  | Blas t x => if free t g then Some (enqueue (g_blas g t) x g) else None
  (* 442-451 get_solver_handle *)
  | Solver t x => if free t g then Some (enqueue (g_solver g t) x g) else None
  (* 607-617: the stream of thread k is changed, the handles are those of the caller *)
  | SetStream t s k =>
      if free t g && (k <? g_n g) then
        Some (mkG (g_n g) (fset (g_stream g) k s) (fset (g_blas g) t s) (fset (g_solver g) t s) (g_skip g) (g_wait g) (g_queue g))
      else None
  (* 544-546 *)
  | Skip t => if free t g then Some (set_skip t true g) else None
  (* 548-569 *)
  | Wait t may_skip =>
      if free t g then
        if may_skip && g_skip g t then Some (set_skip t false g)
        else Some (block t (Some [ticket g (g_stream g t)]) g)
      else None
  (* 571-588 *)
  | WaitAll t => if free t g then Some (block t (Some (map (fun i => ticket g (g_stream g i)) (seq 0 (g_n g)))) g) else None
  | Waited t =>
      match g_wait g t with
      | Some w => if arrived g w then Some (block t None g) else None
      | None => None
      end
  | Device s =>
      let q := g_queue g s in
      if q_done q <? List.length (q_all q) then
        Some (mkG (g_n g) (g_stream g) (g_blas g) (g_solver g) (g_skip g) (g_wait g)
                (fset (g_queue g) s (mkQ (q_all q) (S (q_done q)))))
      else None
  end.
Fixpoint g_run (es : list gev) (g : gstate) : option gstate :=
  match es with [] => Some g | e :: r => match g_step e g with Some g' => g_run r g' | None => None end end.
