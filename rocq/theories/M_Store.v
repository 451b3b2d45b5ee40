(** * M_Store: tensors in HDF5 files.  Model definitions only.
    Files: /repo/src/include/einsums/Tensor.hpp (1456-1504, 1559-1585 [write] and
    [read]; 1600-1740 constructors of DiskTensor), /repo/src/include/einsums/H5.hpp
    (16-83 how h5cpp sees a tensor), /repo/src/State.cpp (9-20 the global files).

    A file holds named data sets: extents and a function from multi-indices to
    elements.  HDF5 and h5cpp are modelled by their documented meaning: a new
    data set holds the fill value 0; a selection outside the extents, or of
    another rank, is an error and changes nothing; a data set that is not
    chunked cannot be created with maximal extents other than its extents.
    One element type; element conversions of HDF5 are not modelled.  [write] of
    a TensorView (1506-1556) is not modelled: it passes the function
    [state::data] where a file handle is expected and does not compile. *)
From Coq Require Import String List ZArith Bool.
From Verif Require Import Base Heap M_Addr M_Elt M_Disk.
Import ListNotations.
Open Scope Z_scope.

(** How a call ends: value, C++ exception, [std::abort], or undefined. *)
Inductive oc (A : Type) : Type := Done (x : A) | Threw | Aborted | Undef.
Arguments Done {A}. Arguments Threw {A}. Arguments Aborted {A}. Arguments Undef {A}.

(** Optional named arguments of [write] (1455, 1479-1484); each a list of [Rank] numbers. *)
Record wargs := mkArgs { wa_cur : option (list Z); wa_max : option (list Z); wa_count : option (list Z);
                         wa_offset : option (list Z); wa_stride : option (list Z); wa_block : option (list Z) }.
Definition no_args : wargs := mkArgs None None None None None None.
(** [h5::arg::get] *)
Definition arg (dflt : list Z) (o : option (list Z)) : list Z := match o with Some x => x | None => dflt end.

Section Store.
  Context {T : Type}.

  Record dset := mkDset { dset_dims : list Z; dset_val : list Z -> T }.
  Definition store := string -> option dset.
  Definition sput (st : store) (n : string) (d : dset) : store := fun m => if string_dec m n then Some d else st m.

  (** Place in the data set of element [idx] of a strided selection. *)
  Fixpoint spos (offs strides idx : list Z) : list Z :=
    match offs, strides, idx with o :: os, s :: ss, i :: is => o + s * i :: spos os ss is | _, _, _ => [] end.
  (** The selection lies inside the extents. *)
  Fixpoint sel_in (dims offs strides counts : list Z) : bool :=
    match dims, offs, strides, counts with
    | [], [], [], [] => true
    | d :: ds, o :: os, s :: ss, c :: cs => (0 <? s) && (o + s * (c - 1) <? d) && sel_in ds os ss cs
    | _, _, _, _ => false
    end.
  (** [h5::write(ds, ptr, count, offset, stride)]: the elements from [ptr] on, in
      row-major order of the counts. *)
  Definition ds_write (ds : dset) (offs strides counts : list Z) (ptr : Z) (h : heap T) : res dset :=
    if sel_in (dset_dims ds) offs strides counts then
      f <- forM (slab counts) (fun kc f => v <- rd h (ptr + fst kc) ;; Ok (fupd f (spos offs strides (snd kc)) v)) (dset_val ds) ;;
      Ok (mkDset (dset_dims ds) f)
    else Throw.

  (** [h5::create<T>(fd, name, current_dims, max_dims)] without chunks. *)
  Definition h5_create (zero : T) (cur mx : list Z) : res dset :=
    if list_eq_dec Z.eq_dec cur mx then Ok (mkDset cur (fun _ => zero)) else Throw.
  (** [h5::create<T>(fd, name, current_dims, chunk)]: chunks not above the extents. *)
  Fixpoint chunk_ok (dims chunk : list Z) : bool :=
    match dims, chunk with
    | [], [] => true
    | d :: ds, c :: cs => (0 <? c) && (c <=? d) && chunk_ok ds cs
    | _, _ => false
    end.
  Definition h5_create_chunked (zero : T) (cur chunk : list Z) : res dset :=
    if chunk_ok cur chunk then Ok (mkDset cur (fun _ => zero)) else Throw.

  Definition finish_write (st : store) (n : string) (r : res dset) : store * oc unit :=
    match r with Ok ds => (sput st n ds, Done tt) | Throw => (st, Threw) | UB => (st, Undef) end.

  (** 1456-1493 [write(fd, Tensor<T, Rank>, args...)]; tensor [d] named [n] with its
      elements in memory [h].  [block] is looked up and never passed on. *)
  Definition write_tensor (zero : T) (st : store) (n : string) (d : desc) (h : heap T) (a : wargs) : store * oc unit :=
    let dims := ddims d in
    let cur := arg dims (wa_cur a) in
    let mx := arg dims (wa_max a) in
    let count := arg dims (wa_count a) in
    let offset := arg (repeat 0 (length dims)) (wa_offset a) in
    let stride := arg (repeat 1 (length dims)) (wa_stride a) in
    match st n with
    | None =>
        match h5_create zero cur mx with
        | Ok ds => let st' := sput st n ds in finish_write st' n (ds_write ds offset stride count (dbase d) h)
        | _ => (st, Threw)
        end
    | Some ds => finish_write st n (ds_write ds offset stride count (dbase d) h)
    end.

  (** 1495-1504 [write(fd, Tensor<T, 0>)]; the element is at [ptr]. *)
  Definition write_scalar (zero : T) (st : store) (n : string) (ptr : Z) (h : heap T) : store * oc unit :=
    match st n with
    | None => let ds := mkDset [1] (fun _ => zero) in finish_write (sput st n ds) n (ds_write ds [0] [1] [1] ptr h)
    | Some ds => finish_write st n (ds_write ds [0] [1] [1] ptr h)
    end.

  (** 1559-1571 [read<T, Rank>(fd, name)]: a tensor of its own, built by
      [get<...>::ctor] (H5.hpp 58-83) from the extents of the data set; any exception
      ends the process.  What h5cpp does for a data set of another rank is not
      modelled ([Undef]). *)
  Definition read_tensor (zero : T) (st : store) (n : string) (rank : nat) : oc (desc * heap T) :=
    match st n with
    | None => Aborted
    | Some ds =>
        let dims := dset_dims ds in
        if Nat.eqb (length dims) rank then
          match h5_read dims (dset_val ds) (repeat 0 rank) dims 0 (alloc_buffer zero 0 (data_size dims) (fun _ => None)) with
          | Ok h => Done (tensor_ctor 0 dims, h)
          | Throw => Aborted
          | UB => Undef
          end
        else Undef
    end.
  (** 1573-1585 [read<T>(fd, name)] of a Tensor<T, 0>: one element, read with count {1}. *)
  Definition read_scalar (zero : T) (st : store) (n : string) : oc T :=
    match st n with
    | None => Aborted
    | Some ds => if slab_ok (dset_dims ds) [0] [1] then Done (dset_val ds [0]) else Aborted
    end.

  (** ** Disk tensors.  Several files, by number. *)
  Definition files := Z -> store.
  Definition fput (fs : files) (k : Z) (st : store) : files := fun j => if j =? k then st else fs j.
  (** 1864-1870: fields; [dt_file]: the file whose data set is open. *)
  Record dtens := mkDt { dt_file : Z; dt_name : string; dt_dims : list Z; dt_existed : bool }.

  (** 1657-1665, 1711-1719: default chunks. *)
  Definition default_chunk (dims : list Z) : list Z :=
    match dims with [] => [] | _ :: r => 1 :: map (fun d => if d <? 64 then d else 64) r end.

  (** 1600-1636, 1638-1686: [DiskTensor(file, name, [chunk,] dims...)]. *)
  Definition disk_ctor (zero : T) (fs : files) (file : Z) (n : string) (chunk : option (list Z)) (dims : list Z) : files * oc dtens :=
    match fs file n with
    | Some _ => (fs, Done (mkDt file n dims true))
    | None =>
        match h5_create_chunked zero dims (arg (default_chunk dims) chunk) with
        | Ok ds => (fput fs file (sput (fs file) n ds), Done (mkDt file n dims false))
        | _ => (fs, Aborted)
        end
    end.
  (** 1690-1740: [DiskTensor(file, tensor)]; [gfile]: the file [state::data()].  The rank of
      [cdims] is taken to be recorded by h5cpp as the extents are set. *)
  Definition disk_ctor_like (zero : T) (fs : files) (file gfile : Z) (n : string) (dims : list Z) : files * oc dtens :=
    match fs file n with
    | Some _ => match fs gfile n with Some _ => (fs, Done (mkDt gfile n dims true)) | None => (fs, Aborted) end
    | None =>
        match h5_create_chunked zero dims (default_chunk dims) with
        | Ok ds => (fput fs file (sput (fs file) n ds), Done (mkDt file n dims false))
        | _ => (fs, Aborted)
        end
    end.
  (** 1762-1860 [operator()]: the counts come from the tensor's extents, the
      bounds are those of the data set. *)
  Definition dt_view (zero : T) (fs : files) (t : dtens) (sels : list dsel) (ro : bool) : res (dview T) :=
    match fs (dt_file t) (dt_name t) with
    | None => UB
    | Some ds =>
        let counts := slice_counts (dt_dims t) sels in
        let offsets := slice_offsets sels in
        let dims := slice_dims sels counts in
        b <- h5_read (dset_dims ds) (dset_val ds) offsets counts 0 (alloc_buffer zero 0 (data_size dims) (fun _ => None)) ;;
        Ok (mkDv dims counts offsets b ro)
    end.

  (** ** Histories over several files. *)
  Inductive sop :=
  | SWrite (file : Z) (n : string) (d : desc) (h : heap T)
  | SWrite0 (file : Z) (n : string) (ptr : Z) (h : heap T)
  | SRead (file : Z) (n : string) (rank : nat)
  | SRead0 (file : Z) (n : string)
  (* a disk tensor is made and views of it are opened, changed and destroyed *)
  | SDisk (file : Z) (n : string) (dims : list Z) (ops : list (dop T)).
  (** What the program sees: the tensors read, and whether a disk tensor existed. *)
  Inductive seen := SawNothing | SawTensor (d : desc) (h : heap T) | SawScalar (x : T) | SawDisk (existed : bool).

  Definition sstep (zero : T) (o : sop) (fs : files) : files * oc seen :=
    match o with
    | SWrite k n d h => let (st, r) := write_tensor zero (fs k) n d h no_args in
        (fput fs k st, match r with Done _ => Done SawNothing | Threw => Threw | Aborted => Aborted | Undef => Undef end)
    | SWrite0 k n p h => let (st, r) := write_scalar zero (fs k) n p h in
        (fput fs k st, match r with Done _ => Done SawNothing | Threw => Threw | Aborted => Aborted | Undef => Undef end)
    | SRead k n rank => (fs, match read_tensor zero (fs k) n rank with
        | Done (d, h) => Done (SawTensor d h) | Threw => Threw | Aborted => Aborted | Undef => Undef end)
    | SRead0 k n => (fs, match read_scalar zero (fs k) n with
        | Done x => Done (SawScalar x) | Threw => Threw | Aborted => Aborted | Undef => Undef end)
    | SDisk k n dims ops =>
        let (fs1, r) := disk_ctor zero fs k n None dims in
        match r with
        | Done t =>
            match fs1 k n with
            | Some ds =>
                (* views of a disk tensor with other extents than its data set: see [dt_view] *)
                if list_eq_dec Z.eq_dec dims (dset_dims ds) then
                  match disk_run zero dims ops (mkDs (dset_val ds) []) with
                  | Ok s => (fput fs1 k (sput (fs1 k) n (mkDset dims (ds_file s))), Done (SawDisk (dt_existed t)))
                  | Throw => (fs1, Threw)
                  | UB => (fs1, Undef)
                  end
                else (fs1, Undef)
            | None => (fs1, Undef)
            end
        | Threw => (fs1, Threw) | Aborted => (fs1, Aborted) | Undef => (fs1, Undef)
        end
    end.
  Fixpoint srun (zero : T) (l : list sop) (fs : files) : files * oc (list seen) :=
    match l with
    | [] => (fs, Done [])
    | o :: r =>
        let (fs1, x) := sstep zero o fs in
        match x with
        | Done s => let (fs2, y) := srun zero r fs1 in
            (fs2, match y with Done l => Done (s :: l) | Threw => Threw | Aborted => Aborted | Undef => Undef end)
        | Threw => (fs1, Threw) | Aborted => (fs1, Aborted) | Undef => (fs1, Undef)
        end
    end.
End Store.
Arguments dset : clear implicits.
Arguments store : clear implicits.
Arguments files : clear implicits.
Arguments sop : clear implicits.
Arguments seen : clear implicits.
