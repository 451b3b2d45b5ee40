(** * S_Timer: what timers should report, from the history of calls alone. *)
From Coq Require Import List ZArith String.
Import ListNotations.
Open Scope Z_scope.

(** A call of push(name), pop() or pop(elapsed) by thread [thread]; [now] is the
    clock reading. *)
Inductive tev :=
| EPush (thread : nat) (in_parallel : bool) (name : string) (now : Z)
| EPop (thread : nat) (now : Z)
| EPopFor (thread : nat) (elapsed : Z).

(** The region a push opens. *)
Definition opens (in_parallel : bool) (name : string) : string :=
  if in_parallel then String.append name " (master thread only)" else name.

(** Histories are newest first; paths are innermost region first; only thread 0 counts.
    [opened]: the path of regions open now; [None] once the outermost was popped. *)
Fixpoint opened (hist : list tev) : option (list string) :=
  match hist with
  | [] => Some []
  | EPush 0 par name _ :: older =>
      match opened older with Some p => Some (opens par name :: p) | None => None end
  | EPop 0 _ :: older | EPopFor 0 _ :: older =>
      match opened older with Some (_ :: p) => Some p | _ => None end
  | _ :: older => opened older
  end.

Definition path_eqb (p q : list string) : bool := if list_eq_dec string_dec p q then true else false.
Definition is_open (hist : list tev) (p : list string) : bool :=
  match opened hist with Some q => path_eqb q p | None => false end.

(** Number of pops made while exactly [p] was open (the root counts one from the start). *)
Fixpoint calls (hist : list tev) (p : list string) : Z :=
  match hist with
  | [] => match p with [] => 1 | _ => 0 end
  | EPop 0 _ :: older | EPopFor 0 _ :: older => calls older p + (if is_open older p then 1 else 0)
  | _ :: older => calls older p
  end.
(** Clock reading of the latest push that opened [p]. *)
Fixpoint since (hist : list tev) (p : list string) : Z :=
  match hist with
  | [] => 0
  | EPush 0 par name now :: older =>
      match opened older with
      | Some q => if path_eqb (opens par name :: q) p then now else since older p
      | None => since older p
      end
  | _ :: older => since older p
  end.
(** Time spent in [p]. *)
Fixpoint spent (hist : list tev) (p : list string) : Z :=
  match hist with
  | [] => 0
  | EPop 0 now :: older => spent older p + (if is_open older p then now - since older p else 0)
  | EPopFor 0 elapsed :: older => spent older p + (if is_open older p then elapsed else 0)
  | _ :: older => spent older p
  end.
(** Regions opened directly inside [p], in order of first use. *)
Fixpoint kids (hist : list tev) (p : list string) : list string :=
  match hist with
  | [] => []
  | EPush 0 par name _ :: older =>
      if is_open older p then
        if in_dec string_dec (opens par name) (kids older p) then kids older p
        else kids older p ++ [opens par name]
      else kids older p
  | _ :: older => kids older p
  end.

(** The report: every region below [p], parents before children, siblings in
    order of first use, with depth, calls and time.  [n] bounds the depth. *)
Fixpoint listing (n : nat) (hist : list tev) (p : list string) : list (nat * string * Z * Z) :=
  match n with
  | 0%nat => []
  | S n => flat_map (fun k => (S (List.length p), k, calls hist (k :: p), spent hist (k :: p)) :: listing n hist (k :: p)) (kids hist p)
  end.

(** Words in which every push is matched by a later pop (newest first). *)
Inductive balanced : list tev -> Prop :=
| bal_nil : balanced []
| bal_app : forall a b, balanced a -> balanced b -> balanced (a ++ b)
| bal_other : forall e, match e with EPush 0 _ _ _ | EPop 0 _ | EPopFor 0 _ => False | _ => True end -> balanced [e]
| bal_pop : forall par name t0 t1 w, balanced w -> balanced (EPop 0 t1 :: w ++ [EPush 0 par name t0])
| bal_popfor : forall par name t0 d w, balanced w -> balanced (EPopFor 0 d :: w ++ [EPush 0 par name t0]).
