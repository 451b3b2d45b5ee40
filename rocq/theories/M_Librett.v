(** * M_Librett: sorting device tensors through LibreTT.  Model definitions only.
    "DS" is /repo/src/include/einsums/DeviceSort.hpp, "hip" is
    /repo/src/DeviceSort.hip; both built with EINSUMS_USE_HPTT. *)
From Coq Require Import List ZArith Bool.
From Verif Require Import Base Heap Conc GpuConc M_Addr M_Elt M_Einsum M_Blas M_Dispatch M_Sort M_Gpu M_GpuLin.
Import ListNotations.
Open Scope Z_scope.

Section Librett.
  Context {O : Ops}.
  Notation T := (car O).

  (** Column-major strides: the first axis is the fastest. *)
  Fixpoint col_strides (s : Z) (dims : list Z) : list Z :=
    match dims with [] => [] | d :: ds => s :: col_strides (s * d) ds end.
  Definition col_major (base : Z) (dims : list Z) : desc := mkDesc base dims (col_strides 1 dims).

  (** LibreTT by its documentation: column-major arrays, axis [i] of the result
      is axis [perm[i]] of the argument; an element-wise copy.  The library
      itself is not modelled. *)
  Definition librett_execute (sizes : list Z) (perm : list nat) (a b : Z) (h : heap T) : res (heap T) :=
    let pick (ix : list Z) := map (fun p => nth p ix 0) perm in
    exec (pseq (indices sizes) (fun idx =>
      PRd (addr (col_major a sizes) idx) (fun av => PWr (addr (col_major b (pick sizes)) (pick idx)) av (PRet tt)))) h.

  (** Which plans the library accepts: any function here. *)
  Variable accepts : list Z -> list nat -> bool.
  (** hip 23-63 [gpu_sort], the same for all element types: the prefactors are
      not used.  The result of librettPlan is not looked at: if the plan is
      refused, the handle is not initialised when librettExecute gets it.
      Not modelled: the plan is never destroyed. *)
  Definition librett_sort (perm : list nat) (a : Z) (sizes : list Z) (b : Z) (h : heap T) : res (heap T) :=
    if accepts sizes perm then librett_execute sizes perm a b h else UB.

  (** DS 75-80 [reverse_inds] and 109: positions of the indices of C in those of
      A, both reversed. *)
  Definition librett_perm (Ci Ai : list label) : list nat := map snd (sort_positions (rev Ci) (rev Ai)).

  (** DS 85-178 [sort] of device tensors (not views) that are not scalars:
      112-134 when C's prefactor is zero; otherwise 136-137 for equal index
      lists and the kernel (138-178).  The prefactor of A is applied afterwards
      on the same stream (128-130), and everything is waited for (132). *)
  Definition dev_sort (cp : T) (Ci : list label) (C : desc) (ap : T) (Ai : list label) (A : desc) : list (@dstep O) :=
    if oeqb cp o0 then
      DHost (librett_sort (librett_perm Ci Ai) (dbase A) (map to_int32 (rev (ddims A))) (dbase C))
      :: (if oeqb ap o1 then [] else [DLaunch (dev_scalar_op (fun x => omul x ap) C)])
    else if same_indices Ai Ci then [DLaunch (d_axpby ap A cp C)]
    else [DLaunch (gpu_sort Ci Ai cp C ap A)].
End Librett.
