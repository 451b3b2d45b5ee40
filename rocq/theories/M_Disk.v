(** * M_Disk: disk tensors and disk views.  Model definitions only.
    File: /repo/src/include/einsums/Tensor.hpp.

    The data set in the HDF5 file is a function from multi-indices (inside the
    extents [fdims]) to elements.  Each view owns its tensor [_tensor]; its
    buffer is a memory of its own with addresses from 0.  The HDF5 calls are
    modelled by their documented meaning: a hyperslab of [count] elements from
    [offset] in row-major order; a selection outside the extents is an error
    ([Throw]).  Opening, creating and chunking of data sets (1600-1736) are not
    modelled: the tensor's extents are those of the data set. *)
From Coq Require Import List ZArith Lia Bool.
From Verif Require Import Base Heap M_Addr M_Elt.
Import ListNotations.
Open Scope Z_scope.

(** An argument of [operator()]: [All], [Range{lo, hi}] or an index. *)
Inductive dsel := DAll | DRange (lo hi : Z) | DIdx (k : Z).

(** Conversion to [size_t]. *)
Definition sz (x : Z) : Z := x mod 2 ^ 64.

Section Disk.
  Context {T : Type}.
  Notation file := (list Z -> T).

  (** 1778-1806: [offsets], [counts] (position by position; [strides] is never used). *)
  Fixpoint slice_offsets (sels : list dsel) : list Z :=
    match sels with
    | [] => []
    | DAll :: r => 0 :: slice_offsets r
    | DRange lo _ :: r => sz lo :: slice_offsets r
    | DIdx k :: r => sz k :: slice_offsets r
    end.
  Fixpoint slice_counts (fdims : list Z) (sels : list dsel) : list Z :=
    match fdims, sels with
    | d :: ds, DAll :: r => d :: slice_counts ds r
    | _ :: ds, DRange lo hi :: r => sz (hi - lo) :: slice_counts ds r
    | _ :: ds, DIdx _ :: r => 1 :: slice_counts ds r
    | _, _ => []
    end.
  Definition is_slice (s : dsel) : bool := match s with DIdx _ => false | _ => true end.
  (** 1766, 1785: the rank of the view. *)
  Definition view_rank (sels : list dsel) : nat := length (filter is_slice sels).
  (** 1785, 1807-1813: [dims_all] starts as zeros and receives the counts above 1 in order. *)
  Definition slice_dims (sels : list dsel) (counts : list Z) : list Z :=
    let big := filter (fun c => 1 <? c) counts in
    big ++ repeat 0 (view_rank sels - length big).

  (** HDF5: the selection lies inside the data set. *)
  Fixpoint slab_ok (fdims offsets counts : list Z) : bool :=
    match fdims, offsets, counts with
    | [], [], [] => true
    | d :: ds, o :: os, c :: cs => (o + c <=? d) && slab_ok ds os cs
    | _, _, _ => false
    end.
  Fixpoint vplus (a b : list Z) : list Z :=
    match a, b with x :: r, y :: s => x + y :: vplus r s | _, _ => [] end.
  (** Elements of the selection with their position in the buffer. *)
  Definition slab (counts : list Z) : list (Z * list Z) :=
    combine (zrange (Z.of_nat (length (indices counts)))) (indices counts).
  Definition fupd (f : file) (i : list Z) (v : T) : file :=
    fun j => if list_eq_dec Z.eq_dec j i then v else f j.
  (** [h5::read<T>(ds, ptr, count, offset)] *)
  Definition h5_read (fdims : list Z) (f : file) (offsets counts : list Z) (ptr : Z) (h : heap T) : res (heap T) :=
    if slab_ok fdims offsets counts then
      forM (slab counts) (fun kc h => wr h (ptr + fst kc) (f (vplus offsets (snd kc)))) h
    else Throw.
  (** [h5::write<T>(ds, ptr, count, offset)] *)
  Definition h5_write (fdims : list Z) (f : file) (offsets counts : list Z) (ptr : Z) (h : heap T) : res file :=
    if slab_ok fdims offsets counts then
      forM (slab counts) (fun kc f => v <- rd h (ptr + fst kc) ;; Ok (fupd f (vplus offsets (snd kc)) v)) f
    else Throw.

  (** 1974-1985: fields of a DiskView; [dv_buf] is the buffer of [_tensor]. *)
  Record dview := mkDv { dv_dims : list Z; dv_counts : list Z; dv_offsets : list Z; dv_buf : heap T; dv_ro : bool }.
  Definition dv_tensor (v : dview) : desc := tensor_ctor 0 (dv_dims v).
  Definition with_buf (v : dview) (b : heap T) : dview := mkDv (dv_dims v) (dv_counts v) (dv_offsets v) b (dv_ro v).

  (** 1762-1860 [DiskTensor::operator()] and 1877-1893: the constructors of
      DiskView; [ro]: called on a const DiskTensor. *)
  Definition disk_open (zero : T) (fdims : list Z) (f : file) (sels : list dsel) (ro : bool) : res dview :=
    let counts := slice_counts fdims sels in
    let offsets := slice_offsets sels in
    let dims := slice_dims sels counts in
    b <- h5_read fdims f offsets counts 0 (alloc_buffer zero 0 (data_size dims) (fun _ => None)) ;;
    Ok (mkDv dims counts offsets b ro).

  (** 1940-1943 [put], 1897 destructor. *)
  Definition disk_put (fdims : list Z) (v : dview) (f : file) : res file :=
    if dv_ro v then Ok f else h5_write fdims f (dv_offsets v) (dv_counts v) 0 (dv_buf v).

  (** 1950-1953: element access; here: assignment to an element. *)
  Definition disk_set (v : dview) (idx : list Z) (x : T) : res dview :=
    b <- tset (dv_buf v) (dv_tensor v) idx x ;; Ok (with_buf v b).
  Definition disk_get (v : dview) (idx : list Z) : res T := tget (dv_buf v) (dv_tensor v) idx.
  (** 1962-1963 [zero], [set_all]. *)
  Definition disk_fill (v : dview) (x : T) : res dview :=
    b <- set_all 0 (data_size (dv_dims v)) x (dv_buf v) ;; Ok (with_buf v b).
  (** 1913-1934 [operator=(const TType&)]: [other] with its elements in memory
      [ho]; the copy is the loop of Tensor's assignment (799-809). *)
  Definition disk_assign (v : dview) (other : desc) (ho : heap T) : res dview :=
    if dv_ro v then Throw
    else if list_eq_dec Z.eq_dec (dv_dims v) (ddims other) then
      b <- forM (indices (dv_dims v)) (fun idx b => x <- tget ho other idx ;; tset b (dv_tensor v) idx x) (dv_buf v) ;;
      Ok (with_buf v b)
    else Throw.
  (** 1901-1909 [operator=(const T* )]: written to the file at once. *)
  Definition disk_assign_ptr (fdims : list Z) (v : dview) (ptr : Z) (ho : heap T) (f : file) : res file :=
    h5_write fdims f (dv_offsets v) (dv_counts v) ptr ho.

  (** ** Histories: several views of one data set, opened, changed and destroyed. *)
  Inductive dop :=
  | OOpen (sels : list dsel) (ro : bool)
  | OSet (i : nat) (idx : list Z) (x : T)
  | OFill (i : nat) (x : T)
  | OAssign (i : nat) (other : desc) (ho : heap T)
  | OClose (i : nat).
  (** The file and the views in the order they were opened ([None]: destroyed). *)
  Record dstate := mkDs { ds_file : file; ds_views : list (option dview) }.
  Definition set_view (i : nat) (v : option dview) (l : list (option dview)) : list (option dview) :=
    firstn i l ++ v :: skipn (S i) l.
  (** Using a view that does not exist (any more) is undefined. *)
  Definition on_view (i : nat) (s : dstate) (k : dview -> res dview) : res dstate :=
    match nth_error (ds_views s) i with
    | Some (Some v) => v' <- k v ;; Ok (mkDs (ds_file s) (set_view i (Some v') (ds_views s)))
    | _ => UB
    end.
  Definition disk_step (zero : T) (fdims : list Z) (o : dop) (s : dstate) : res dstate :=
    match o with
    | OOpen sels ro => v <- disk_open zero fdims (ds_file s) sels ro ;; Ok (mkDs (ds_file s) (ds_views s ++ [Some v]))
    | OSet i idx x => on_view i s (fun v => disk_set v idx x)
    | OFill i x => on_view i s (fun v => disk_fill v x)
    | OAssign i other ho => on_view i s (fun v => disk_assign v other ho)
    | OClose i =>
        match nth_error (ds_views s) i with
        | Some (Some v) => f <- disk_put fdims v (ds_file s) ;; Ok (mkDs f (set_view i None (ds_views s)))
        | _ => UB
        end
    end.
  Definition disk_run (zero : T) (fdims : list Z) (l : list dop) (s : dstate) : res dstate :=
    forM l (disk_step zero fdims) s.
End Disk.
Arguments dview : clear implicits.
Arguments dop : clear implicits.
Arguments dstate : clear implicits.
