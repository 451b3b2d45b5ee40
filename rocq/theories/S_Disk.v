(** * S_Disk: what disk views should do. *)
From Coq Require Import List ZArith Lia Bool.
From Verif Require Import Base Heap M_Disk S_Einsum.
Import ListNotations.
Open Scope Z_scope.

(** Extents of the block selected by [sels] in a data set of extents [fdims]. *)
Fixpoint extents (fdims : list Z) (sels : list dsel) : list Z :=
  match fdims, sels with
  | d :: ds, DAll :: r => d :: extents ds r
  | _ :: ds, DRange lo hi :: r => hi - lo :: extents ds r
  | _ :: ds, DIdx _ :: r => extents ds r
  | _, _ => []
  end.
(** Element of the data set shown as element [idx] of the view. *)
Fixpoint embed (sels : list dsel) (idx : list Z) : list Z :=
  match sels, idx with
  | DAll :: r, i :: is => i :: embed r is
  | DRange lo _ :: r, i :: is => lo + i :: embed r is
  | DIdx k :: r, _ => k :: embed r idx
  | _, _ => []
  end.
(** A selection inside the data set: ranges are not empty, one per extent, at
    least one of them not a plain index. *)
Definition sel_ok (d : Z) (s : dsel) : Prop :=
  match s with
  | DAll => 0 < d
  | DRange lo hi => 0 <= lo < hi /\ hi <= d
  | DIdx k => 0 <= k < d
  end.
Definition slice_ok (fdims : list Z) (sels : list dsel) : Prop :=
  Forall2 sel_ok fdims sels /\ extents fdims sels <> [].

(** View: selection, read-only flag, contents. *)
Definition aview (T : Type) : Type := list dsel * bool * (list Z -> T).
Record astate (T : Type) := mkAs { as_file : list Z -> T; as_views : list (option (aview T)) }.
Arguments mkAs {T}. Arguments as_file {T}. Arguments as_views {T}.

Definition aset {A} (i : nat) (x : A) (l : list A) : list A := firstn i l ++ x :: skipn (S i) l.

(** [f'] is [f] with the block of the view replaced by the view's contents. *)
Definition stored {T} (fdims : list Z) (sels : list dsel) (c : list Z -> T) (f f' : list Z -> T) : Prop :=
  (forall idx, inb idx (extents fdims sels) -> f' (embed sels idx) = c idx) /\
  (forall j, inb j fdims -> (forall idx, inb idx (extents fdims sels) -> j <> embed sels idx) -> f' j = f j).

(** One step, as the user understands it. *)
Inductive astep {T} (fdims : list Z) : dop T -> astate T -> astate T -> Prop :=
| a_open : forall sels ro f vs, slice_ok fdims sels ->
    astep fdims (OOpen sels ro) (mkAs f vs) (mkAs f (vs ++ [Some (sels, ro, fun idx => f (embed sels idx))]))
| a_set : forall i idx x f vs sels ro c c', nth_error vs i = Some (Some (sels, ro, c)) ->
    inb idx (extents fdims sels) -> c' idx = x -> (forall j, j <> idx -> c' j = c j) ->
    astep fdims (OSet i idx x) (mkAs f vs) (mkAs f (aset i (Some (sels, ro, c')) vs))
| a_fill : forall i x f vs sels ro c, nth_error vs i = Some (Some (sels, ro, c)) ->
    astep fdims (OFill i x) (mkAs f vs) (mkAs f (aset i (Some (sels, ro, fun _ => x)) vs))
| a_assign : forall i other ho g f vs sels c, nth_error vs i = Some (Some (sels, false, c)) ->
    ddims other = extents fdims sels -> holds ho other g ->
    astep fdims (OAssign i other ho) (mkAs f vs) (mkAs f (aset i (Some (sels, false, g)) vs))
| a_close_ro : forall i f vs sels c, nth_error vs i = Some (Some (sels, true, c)) ->
    astep fdims (OClose i) (mkAs f vs) (mkAs f (aset i None vs))
| a_close_rw : forall i f f' vs sels c, nth_error vs i = Some (Some (sels, false, c)) -> stored fdims sels c f f' ->
    astep fdims (OClose i) (mkAs f vs) (mkAs f' (aset i None vs)).
Inductive asteps {T} (fdims : list Z) : list (dop T) -> astate T -> astate T -> Prop :=
| as_nil : forall s, asteps fdims [] s s
| as_cons : forall o l s t u, astep fdims o s t -> asteps fdims l t u -> asteps fdims (o :: l) s u.
