(** * M_GpuLife: sessions of the GPU part of the library, with calls of the HIP
    libraries that may fail.  Model definitions only.
    Lines refer to /repo/src/_GPUUtils.hip. *)
From Coq Require Import List Bool Arith.
Import ListNotations.

(** What a call does: it returns, throws, is undefined, or never returns
    (waits for a mutex that nobody releases). *)
Inductive out (A : Type) := Ret (x : A) | Exn | Und | Stuck.
Arguments Ret {A} x. Arguments Exn {A}. Arguments Und {A}. Arguments Stuck {A}.

(** [live]: streams, handles and pools that exist on the device; [next]: the
    next one to be created; [calls]: HIP calls made; [bound]: the stream of each
    handle (the latest first).  [pool], [streams], [blas], [solver], [skip],
    [locked]: the variables pool (462), detail::default_streams, blas_handles,
    solver_handles, skip_waits (null: [None]) and wait_mutex. *)
Record gs := mkGs { live : list nat; next : nat; calls : nat; bound : list (nat * option nat);
  pool : option nat; streams : option (list (option nat)); blas : option (list (option nat));
  solver : option (list (option nat)); skip : option (list bool); locked : bool }.
Definition start : gs := mkGs [] 0 0 [] None None None None None false.

Definition M (A : Type) := gs -> out A * gs.
Definition ret {A} (x : A) : M A := fun s => (Ret x, s).
Definition andthen {A B} (m : M A) (f : A -> M B) : M B := fun s =>
  match m s with (Ret x, s') => f x s' | (Exn, s') => (Exn, s') | (Und, s') => (Und, s') | (Stuck, s') => (Stuck, s') end.
Notation "x <- m ;; k" := (andthen m (fun x => k)) (at level 100, m at next level, right associativity).
Notation "m ;;; k" := (andthen m (fun _ => k)) (at level 100, right associativity).
Definition get {A} (f : gs -> A) : M A := fun s => (Ret (f s), s).
Definition throw {A} : M A := fun s => (Exn, s).
Fixpoint each {A} (f : A -> M unit) (l : list A) : M unit :=
  match l with [] => ret tt | x :: r => f x ;;; each f r end.

Definition set_pool (p : option nat) : M unit := fun s =>
  (Ret tt, mkGs (live s) (next s) (calls s) (bound s) p (streams s) (blas s) (solver s) (skip s) (locked s)).
Definition set_streams v : M unit := fun s =>
  (Ret tt, mkGs (live s) (next s) (calls s) (bound s) (pool s) v (blas s) (solver s) (skip s) (locked s)).
Definition set_blas v : M unit := fun s =>
  (Ret tt, mkGs (live s) (next s) (calls s) (bound s) (pool s) (streams s) v (solver s) (skip s) (locked s)).
Definition set_solver v : M unit := fun s =>
  (Ret tt, mkGs (live s) (next s) (calls s) (bound s) (pool s) (streams s) (blas s) v (skip s) (locked s)).
Definition set_skip v : M unit := fun s =>
  (Ret tt, mkGs (live s) (next s) (calls s) (bound s) (pool s) (streams s) (blas s) (solver s) v (locked s)).
Definition set_locked b : M unit := fun s =>
  (Ret tt, mkGs (live s) (next s) (calls s) (bound s) (pool s) (streams s) (blas s) (solver s) (skip s) b).
Fixpoint put {A} (i : nat) (x : A) (l : list A) : list A :=
  match l, i with [], _ => [] | _ :: r, 0 => x :: r | y :: r, S i => y :: put i x r end.
(** [vector::at] of a vector behind a pointer: undefined for null, an exception
    outside. *)
Definition at_ {A} (v : option (list A)) (i : nat) : M A := fun s =>
  match v with
  | None => (Und, s)
  | Some l => match nth_error l i with Some x => (Ret x, s) | None => (Exn, s) end
  end.

Section Device.
  (** [fail k]: call number [k] of the HIP libraries reports an error, which
      hip_catch and the like turn into an exception (19-345). *)
  Variable fail : nat -> bool.

  Definition hip : M unit := fun s =>
    let s' := mkGs (live s) (next s) (S (calls s)) (bound s) (pool s) (streams s) (blas s) (solver s) (skip s) (locked s) in
    if fail (calls s) then (Exn, s') else (Ret tt, s').
  Definition create : M nat :=
    hip ;;; fun s => (Ret (next s), mkGs (next s :: live s) (S (next s)) (calls s) (bound s) (pool s) (streams s) (blas s) (solver s) (skip s) (locked s)).
  (** Destroying what does not exist any more is undefined; for a null handle
      the library reports an error. *)
  Definition destroy (x : option nat) : M unit :=
    match x with
    | None => throw
    | Some i => fun s =>
        if existsb (Nat.eqb i) (live s)
        then (hip ;;; fun s => (Ret tt, mkGs (filter (fun j => negb (Nat.eqb i j)) (live s)) (next s) (calls s) (bound s) (pool s) (streams s) (blas s) (solver s) (skip s) (locked s))) s
        else (Und, s)
    end.
  (** hipblasSetStream, hipsolverSetStream *)
  Definition bind_stream (i : nat) (st : option nat) : M unit :=
    hip ;;; fun s => (Ret tt, mkGs (live s) (next s) (calls s) ((i, st) :: bound s) (pool s) (streams s) (blas s) (solver s) (skip s) (locked s)).

  (** 464-511 [initialize]; [n] is omp_get_max_threads(). *)
  Definition initialize (n : nat) : M unit :=
    hip ;;; hip ;;;                                                     (* 466, 468 *)
    p <- create ;; set_pool (Some p) ;;;                                (* 476 *)
    v <- get streams ;;                                                 (* 478-484 *)
    match v with
    | Some _ => ret tt
    | None => set_streams (Some (repeat None n)) ;;;
        each (fun i => c <- create ;; v <- get streams ;; set_streams (option_map (put i (Some c)) v)) (seq 0 n)
    end ;;;
    v <- get blas ;;                                                    (* 486-493 *)
    match v with
    | Some _ => ret tt
    | None => set_blas (Some (repeat None n)) ;;;
        each (fun i => c <- create ;; v <- get blas ;; set_blas (option_map (put i (Some c)) v) ;;;
                       ss <- get streams ;; st <- at_ ss i ;; bind_stream c st) (seq 0 n)
    end ;;;
    v <- get solver ;;                                                  (* 495-502 *)
    match v with
    | Some _ => ret tt
    | None => set_solver (Some (repeat None n)) ;;;
        each (fun i => c <- create ;; v <- get solver ;; set_solver (option_map (put i (Some c)) v) ;;;
                       ss <- get streams ;; st <- at_ ss i ;; bind_stream c st) (seq 0 n)
    end ;;;
    v <- get skip ;;                                                    (* 504-510 *)
    match v with Some _ => ret tt | None => set_skip (Some (repeat false n)) end.

  (** 513-538 [finalize] *)
  Definition finalize : M unit :=
    v <- get blas ;; match v with None => ret tt | Some l => each destroy l ;;; set_blas None end ;;;
    v <- get solver ;; match v with None => ret tt | Some l => each destroy l ;;; set_solver None end ;;;
    v <- get streams ;; match v with None => ret tt | Some l => each destroy l ;;; set_streams None end ;;;
    p <- get pool ;; destroy p.

  (** 544-546 [skip_next_wait] of thread [t] *)
  Definition skip_next_wait (t : nat) : M unit :=
    v <- get skip ;; b <- at_ v t ;; set_skip (option_map (put t true) v).
  Definition lock : M unit := b <- get locked ;; if b then fun s => (Stuck, s) else set_locked true.
  (** 600-610 [get_stream]: the guard releases the mutex also when [at] throws;
      [None] is the null stream. *)
  Definition get_stream (t : nat) : M (option nat) :=
    lock ;;;
    v <- get streams ;;
    match v with
    | None => set_locked false ;;; ret None
    | Some l => set_locked false ;;; at_ v t
    end.
  (** 557-570 [stream_wait(stream)]: event created, recorded under the mutex,
      waited for, destroyed.  The event itself is not kept in [live]. *)
  Definition wait_for (st : option nat) : M unit :=
    hip ;;; lock ;;; hip ;;; set_locked false ;;; hip ;;; hip.
  (** 548-554 [stream_wait(may_skip)] of thread [t]; the result tells whether it
      was skipped. *)
  Definition stream_wait (t : nat) (may_skip : bool) : M bool :=
    v <- get skip ;;
    b <- (if may_skip then at_ v t else ret false) ;;
    if b then set_skip (option_map (put t false) v) ;;; ret true
    else st <- get_stream t ;; wait_for st ;;; ret false.

  (** Programs; a statement that throws ends the program. *)
  Inductive gop := GInit (n : nat) | GFinal | GSkip (t : nat) | GWait (t : nat) (may_skip : bool).
  Definition g_op (o : gop) : M (list bool) :=
    match o with
    | GInit n => initialize n ;;; ret []
    | GFinal => finalize ;;; ret []
    | GSkip t => skip_next_wait t ;;; ret []
    | GWait t m => b <- stream_wait t m ;; ret [b]
    end.
  Fixpoint g_run (os : list gop) : M (list bool) :=
    match os with [] => ret [] | o :: r => x <- g_op o ;; y <- g_run r ;; ret (x ++ y) end.
End Device.
