(** * S_GpuView: vocabulary for the statements about GPU views. *)
From Coq Require Import List ZArith Lia Bool.
From Verif Require Import Base Heap M_Addr M_GpuView.
Import ListNotations.
Open Scope Z_scope.

(** The states a Python program can reach from host memory [h]. *)
Definition reach (s : gstate) : Prop := exists h os, grun os (g_init h) = Ok s.
(** [v] is the live view number [id]. *)
Definition live (s : gstate) (id : nat) (v : gview) : Prop := assoc id (g_views s) = Some v.
(** All [n] bytes of host memory from [a] are there. *)
Definition present (h : heap Z) (a n : Z) : Prop := forall i, 0 <= i < n -> h (a + i) <> None.
(** The operations that use the device copy or the mapping properly: memory of
    the arrays has not been freed, kernels stay inside the view. *)
Definition proper (o : gop) (s : gstate) : Prop :=
  match o with
  | GNew b m => pb_shape b <> [] /\ pb_strides b <> [] /\
                (m = VCopy -> present (g_host s) (pb_ptr b) (nth 0 (pb_strides b) 0 * nth 0 (pb_shape b) 0))
  | GDel _ | GMem _ _ _ => True
  | GH2D id | GD2H id => forall v, live s id v -> v_mode v = VCopy -> present (g_host s) (v_host v) (v_alloc v)
  | GKernel id off _ => forall v, live s id v -> 0 <= off < v_alloc v /\ (v_mode v = VMap -> g_host s (v_host v + off) <> None)
  | GPoke a _ => g_host s a <> None
  end.
