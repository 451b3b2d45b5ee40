(** * S_Store: what files of tensors should do. *)
From Coq Require Import String List ZArith Bool.
From Verif Require Import Base Heap M_Disk S_Einsum S_Disk.
From Verif Require Import M_Store.
Import ListNotations.
Open Scope Z_scope.

(** A stored tensor is its extents and elements; no extents: a scalar. *)
Definition tval (T : Type) : Type := list Z * (list Z -> T).
(** Every file is a dictionary from names to tensors. *)
Definition afiles (T : Type) : Type := Z -> string -> option (tval T).

(** [fs'] is [fs] with the entry [n] of file [k] replaced. *)
Definition replaced {T} (fs fs' : afiles T) (k : Z) (n : string) (v : tval T) : Prop :=
  fs' k n = Some v /\ forall k' n', (k', n') <> (k, n) -> fs' k' n' = fs k' n'.
(** Same tensor. *)
Definition teq {T} (a b : tval T) : Prop := fst a = fst b /\ forall idx, inb idx (fst a) -> snd a idx = snd b idx.

(** What the user is told. *)
Inductive aseen (T : Type) := ANothing | ATensor (v : tval T) | AScalar (x : T) | AExisted (b : bool).
Arguments ANothing {T}. Arguments ATensor {T}. Arguments AScalar {T}. Arguments AExisted {T}.

Definition all_pos (dims : list Z) : Prop := dims <> [] /\ Forall (fun d => 0 < d < 2 ^ 64) dims.

(** One step.  Writing stores the tensor under its name, in place of what was
    there (of the same extents); reading gives what is there; a disk tensor of a
    new name starts as zeros, one of an old name as what is there, and the file
    holds afterwards what the views left. *)
Inductive fstep {T} (zero : T) : sop T -> afiles T -> aseen T -> afiles T -> Prop :=
| f_write : forall fs fs' k n d h g, all_pos (ddims d) -> (exists p, d = M_Addr.tensor_ctor p (ddims d)) -> holds h d g ->
    (forall v, fs k n = Some v -> fst v = ddims d) -> replaced fs fs' k n (ddims d, g) ->
    fstep zero (SWrite k n d h) fs ANothing fs'
| f_write0 : forall fs fs' k n p h x, h p = Some x ->
    (forall v, fs k n = Some v -> fst v = []) -> replaced fs fs' k n ([], fun _ => x) ->
    fstep zero (SWrite0 k n p h) fs ANothing fs'
| f_read : forall fs k n v, fs k n = Some v -> fst v <> [] ->
    fstep zero (SRead k n (length (fst v))) fs (ATensor v) fs
| f_read0 : forall fs k n g, fs k n = Some ([], g) ->
    fstep zero (SRead0 k n) fs (AScalar (g [])) fs
| f_disk_new : forall fs fs' k n dims ops a', all_pos dims -> fs k n = None ->
    asteps dims ops (mkAs (fun _ => zero) []) a' -> replaced fs fs' k n (dims, as_file a') ->
    fstep zero (SDisk k n dims ops) fs (AExisted false) fs'
| f_disk_old : forall fs fs' k n dims g ops a', all_pos dims -> fs k n = Some (dims, g) ->
    asteps dims ops (mkAs g []) a' -> replaced fs fs' k n (dims, as_file a') ->
    fstep zero (SDisk k n dims ops) fs (AExisted true) fs'.
Inductive fsteps {T} (zero : T) : list (sop T) -> afiles T -> list (aseen T) -> afiles T -> Prop :=
| fs_nil : forall fs, fsteps zero [] fs [] fs
| fs_cons : forall o l fs x fs1 xs fs2, fstep zero o fs x fs1 -> fsteps zero l fs1 xs fs2 ->
    fsteps zero (o :: l) fs (x :: xs) fs2.

(** The program was told the same. *)
Definition told {T} (s : seen T) (a : aseen T) : Prop :=
  match s, a with
  | SawNothing, ANothing => True
  | SawTensor d h, ATensor v => ddims d = fst v /\ holds h d (snd v)
  | SawScalar x, AScalar y => x = y
  | SawDisk b, AExisted c => b = c
  | _, _ => False
  end.
(** A data set holds a tensor; scalars are kept as one-element vectors. *)
Definition ds_holds {T} (d : option (dset T)) (v : option (tval T)) : Prop :=
  match d, v with
  | None, None => True
  | Some ds, Some ([], g) => dset_dims ds = [1] /\ dset_val ds [0] = g []
  | Some ds, Some (dims, g) => dset_dims ds = dims /\ forall idx, inb idx dims -> dset_val ds idx = g idx
  | _, _ => False
  end.
