(** * M_DevMem: where device tensors keep their elements.

    Models the constructors, the destructor, resize, the assignments and the
    transfers of /repo/src/include/einsums/gpu/DeviceTensor.hpp (DT), declared
    in /repo/src/include/einsums/DeviceTensor.hpp (DH), for ranks above 0, and
    the copy constructor and destructor of
    /repo/src/include/einsums/gpu/DeviceTensorView.hpp (DW).  Constructors from
    views, assignments from views and from other element types, and rank 0 are
    not modelled here.

    Memory is a set of numbered blocks.  In the modes MAPPED and PINNED the
    host pointer and the device pointer of a tensor reach the same block, in the
    mode DEV_ONLY the device pointer alone; so one field stands for both.
    [None] as an element is one that was never written.  The HIP calls follow
    their documentation: [hipHostRegister] of nothing and [hipHostUnregister],
    [hipHostGetDevicePointer] and [hipMemcpy] with null fail, [hipFree] and
    [hipHostFree] accept null.  Kernels run one element after the other (the
    kernels are modelled under every schedule in M_Gpu, see C107).
    Simplifications: elements are integers (they are only moved); allocations
    do not run out of memory; extents fit in an int. *)
From Coq Require Import List ZArith Lia Bool.
From Verif Require Import Base Heap M_Addr M_Gpu M_GpuView.
Import ListNotations.
Open Scope Z_scope.

(** _GPUUtils.hpp [HostToDeviceMode] *)
Inductive hmode := MUnknown | MMapped | MPinned | MDev.
(** How a block was obtained: [new] (and registered with HIP or not),
    [hipHostMalloc], [hipMalloc]. *)
Inductive bkind := KNew (registered : bool) | KPinned | KDev.
(** Elements, or the device's copy of extents and strides. *)
Inductive block := BData (k : bkind) (l : list (option Z)) | BDims (dims strides : list Z).
(** DH 333-375 *)
Record dten := mkTen { t_mode : hmode; t_dims : list Z; t_strides : list Z; t_data : option nat; t_gpu : option nat }.
Record dstate := mkD { s_blk : list (nat * block); s_ten : list (nat * dten); s_next : nat }.
(** Exceptions keep what was done before. *)
Inductive dres (A : Type) := ROk (a : A) (s : dstate) | RThrow (s : dstate) | RUB.
Arguments ROk {A}. Arguments RThrow {A}. Arguments RUB {A}.
Definition rbind {A B} (r : dres A) (f : A -> dstate -> dres B) : dres B :=
  match r with ROk a s => f a s | RThrow s => RThrow s | RUB => RUB end.

Definition new_block (b : block) (s : dstate) : nat * dstate := (s_next s, mkD (s_blk s ++ [(s_next s, b)]) (s_ten s) (S (s_next s))).
Definition set_block (k : nat) (b : block) (s : dstate) : dstate := mkD (setassoc k b (s_blk s)) (s_ten s) (s_next s).
Definition drop_block (k : nat) (s : dstate) : dstate := mkD (without k (s_blk s)) (s_ten s) (s_next s).
Definition put_ten (id : nat) (t : dten) (s : dstate) : dstate :=
  mkD (s_blk s) (if has (assoc id (s_ten s)) then setassoc id t (s_ten s) else s_ten s ++ [(id, t)]) (s_next s).

Definition fresh (n : Z) : list (option Z) := repeat None (Z.to_nat n).
(** DT 74-91 and its copies: the [switch] that allocates [n] elements: the
    pointer, the state, and whether no exception was thrown. *)
Definition alloc_data (m : hmode) (n : Z) (s : dstate) : option nat * dstate * bool :=
  let made k := let '(b, s1) := new_block (BData k (fresh n)) s in (Some b, s1, true) in
  match m with
  | MMapped => if n <=? 0 then let '(b, s1) := new_block (BData (KNew false) []) s in (Some b, s1, false) else made (KNew true)
  | MPinned => if n <=? 0 then (None, s, false) else made KPinned
  | MDev => if n <=? 0 then (None, s, true) else made KDev
  | MUnknown => (None, s, false)
  end.
(** DT 554-583, 945-965, 27-43: the calls that give the elements back. *)
Definition free_data (m : hmode) (p : option nat) (s : dstate) : dres unit :=
  match m, p with
  | MMapped, None => RThrow s
  | MMapped, Some k => match assoc k (s_blk s) with Some (BData (KNew true) _) => ROk tt (drop_block k s) | _ => RUB end
  | MPinned, None => ROk tt s
  | MPinned, Some k => match assoc k (s_blk s) with Some (BData KPinned _) => ROk tt (drop_block k s) | _ => RUB end
  | MDev, None => ROk tt s
  | MDev, Some k => match assoc k (s_blk s) with Some (BData KDev _) => ROk tt (drop_block k s) | _ => RUB end
  | MUnknown, _ => RThrow s
  end.
(** The device's copy of extents and strides, allocated if it is not there
    (DT 587-595, 970-979). *)
Definition gpu_dims_copy (g : option nat) (dims strides : list Z) (s : dstate) : nat * dstate :=
  match g with
  | None => new_block (BDims dims strides) s
  | Some k => (k, set_block k (BDims dims strides) s)
  end.
(** [memcpy]/[hipMemcpy] of the list [l] to the start of a block. *)
Definition store_list (l : list (option Z)) (p : option nat) (s : dstate) : dres unit :=
  match p with
  | None => RThrow s
  | Some k => match assoc k (s_blk s) with
      | Some (BData kd old) =>
          if Nat.ltb (length old) (length l) then RUB else ROk tt (set_block k (BData kd (l ++ skipn (length l) old)) s)
      | _ => RUB
      end
  end.
(** ... and of [n] elements from the start of a block. *)
Definition load_list (n : Z) (p : option nat) (s : dstate) : dres (list (option Z)) :=
  match p with
  | None => RThrow s
  | Some k => match assoc k (s_blk s) with
      | Some (BData kd l) => if Z.of_nat (length l) <? n then RUB else ROk (firstn (Z.to_nat n) l) s
      | _ => RUB
      end
  end.
Fixpoint set_nth {A} (i : nat) (v : A) (l : list A) : list A :=
  match l, i with [], _ => [] | _ :: r, O => v :: r | x :: r, S j => x :: set_nth j v r end.
Definition put_elt (i : Z) (v : option Z) (l : list (option Z)) : option (list (option Z)) :=
  if (0 <=? i) && (i <? Z.of_nat (length l)) then Some (set_nth (Z.to_nat i) v l) else None.
Definition get_elt (i : Z) (l : list (option Z)) : option (option Z) := if (0 <=? i) && (i <? Z.of_nat (length l)) then nth_error l (Z.to_nat i) else None.
(** DT 347-389 [copy_to_tensor]: [n] elements, indices over the extents of the target. *)
Definition kcopy (tdims tstr : list Z) (to : list (option Z)) (fstr : list Z) (from : list (option Z)) (n : Z) : option (list (option Z)) :=
  fold_left (fun acc e =>
    match acc with
    | None => None
    | Some l => let ix := rm_index tdims e in
                match get_elt (dotp ix fstr) from with Some v => put_elt (dotp ix tstr) v l | None => None end
    end) (zrange n) (Some to).
(** DT 481-521 [set_all] *)
Definition kfill (dims str : list Z) (to : list (option Z)) (v : Z) : option (list (option Z)) :=
  fold_left (fun acc e =>
    match acc with None => None | Some l => put_elt (dotp (rm_index dims e) str) (Some v) l end)
    (zrange (nth 0 str 0 * nth 0 dims 0)) (Some to).

(** ** Constructors *)
Definition size_of (dims : list Z) : Z := zprod dims.
(** [_strides[0] * _dims[0]] *)
Definition span (dims strides : list Z) : Z := nth 0 strides 0 * nth 0 dims 0.
Definition unmade : dten := mkTen MUnknown [] [] None None.
Definition assoc_ten (id : nat) (s : dstate) : option dten := assoc id (s_ten s).
Definition ten (id : nat) (s : dstate) : dten := match assoc_ten id s with Some t => t | None => unmade end.
(** DT 56-102, 110-156, 234-274: from a mode and extents.  An exception leaves no
    object behind, so the destructor does not run. *)
Definition ctor_new (id : nat) (m : hmode) (dims : list Z) (s : dstate) : dres unit :=
  let strides := row_major_strides dims in
  match alloc_data m (span dims strides) s with
  | (_, s1, false) => RThrow s1
  | (p, s1, true) =>
      let '(g, s2) := gpu_dims_copy None dims strides s1 in
      ROk tt (put_ten id (mkTen m dims strides p (Some g)) s2)
  end.
(** DT 1698-1729: from a host tensor with extents [dims] and elements [l]. *)
Definition ctor_host (id : nat) (m : hmode) (dims : list Z) (l : list Z) (s : dstate) : dres unit :=
  let strides := row_major_strides dims in
  match alloc_data m (size_of dims) s with
  | (_, s1, false) => RThrow s1
  | (p, s1, true) =>
      rbind (store_list (map Some l) p s1) (fun _ s2 =>
      let '(g, s3) := gpu_dims_copy None dims strides s2 in
      ROk tt (put_ten id (mkTen m dims strides p (Some g)) s3))
  end.
(** DT 1166-1225 [init], called for a target of mode UNKNOWN.  [keep]: the
    target exists already (operator=), so it is left half initialised by an
    exception; in the copy constructor (DT 17-19, which ignores its mode) it
    is not. *)
Definition do_init (keep : bool) (id : nat) (src : dten) (s : dstate) : dres unit :=
  let put t s' := if keep then put_ten id t s' else s' in
  let m := t_mode src in
  match alloc_data m (span (t_dims src) (t_strides src)) s with
  | (p, s1, false) => RThrow (put (mkTen m (t_dims src) (t_strides src) p None) s1)
  | (p, s1, true) =>
      let t1 := mkTen m (t_dims src) (t_strides src) p None in
      match rbind (load_list (size_of (t_dims src)) (t_data src) s1) (fun l s2 => store_list l p s2) with
      | RUB => RUB
      | RThrow s2 => RThrow (put t1 s2)
      | ROk _ s2 =>
          let '(g, s3) := gpu_dims_copy None (t_dims src) (t_strides src) s2 in
          ROk tt (put_ten id (mkTen m (t_dims src) (t_strides src) p (Some g)) s3)
      end
  end.
(** DT 160-231: takes the elements of a tensor of another rank; [dims] after
    replacing a -1 (modelled by [reshape] in M_Addr, C08). *)
Definition ctor_move (id src : nat) (dims : list Z) (s : dstate) : dres unit :=
  let t := ten src s in
  match t_mode t with
  | MUnknown => RThrow s
  | m =>
      let s1 := put_ten src (mkTen m (t_dims t) (t_strides t) None None) s in
      let strides := row_major_strides dims in
      if negb (size_of (t_dims t) =? span dims strides) then RThrow s1
      else let '(g, s2) := gpu_dims_copy None dims strides s1 in
           ROk tt (put_ten id (mkTen m dims strides (t_data t) (Some g)) s2)
  end.

(** ** Members *)
(** DT 22-48: the destructor; exceptions from it end the program. *)
Definition dtor (id : nat) (s : dstate) : dres unit :=
  let t := ten id s in
  let gone s' := mkD (s_blk s') (without id (s_ten s')) (s_next s') in
  let dims s' := match t_gpu t with
    | None => ROk tt (gone s')
    | Some g => match assoc g (s_blk s') with Some (BDims _ _) => ROk tt (gone (drop_block g s')) | _ => RUB end end in
  match t_mode t, t_data t with
  | MMapped, None => ROk tt (gone s)
  | MUnknown, _ => dims s
  | m, p => match free_data m p s with ROk _ s1 => dims s1 | _ => RUB end
  end.
(** DT 527-597 *)
Definition resize (id : nat) (dims : list Z) (s : dstate) : dres unit :=
  let t := ten id s in
  if list_eq_dec Z.eq_dec dims (t_dims t) then ROk tt s
  else
    let strides := row_major_strides dims in
    let t1 := mkTen (t_mode t) dims strides (t_data t) (t_gpu t) in
    if span dims strides =? size_of (t_dims t) then ROk tt (put_ten id t1 s)
    else match free_data (t_mode t) (t_data t) s with
         | RUB => RUB
         | RThrow s1 => RThrow (put_ten id t1 s1)
         | ROk _ s1 =>
             match alloc_data (t_mode t) (span dims strides) s1 with
             | (p, s2, false) => RThrow (put_ten id (mkTen (t_mode t) dims strides p (t_gpu t)) s2)
             | (p, s2, true) => let '(g, s3) := gpu_dims_copy (t_gpu t) dims strides s2 in
                           ROk tt (put_ten id (mkTen (t_mode t) dims strides p (Some g)) s3)
             end
         end.
(** The extents differ or one is 0 (DT 921-924, 1084-1087). *)
Definition differs (dims other : list Z) : bool := existsb (fun p => (fst p =? 0) || negb (fst p =? snd p)) (combine dims other).
(** The launch of the copy kernel (DT 984-989): a null pointer is
    dereferenced on the device. *)
Definition launch_copy (t src : dten) (n : Z) (s : dstate) : dres unit :=
  match t_data t, t_gpu t, t_data src, t_gpu src with
  | Some p, Some g, Some q, Some g' =>
      match assoc p (s_blk s), assoc g (s_blk s), assoc q (s_blk s), assoc g' (s_blk s) with
      | Some (BData kd l), Some (BDims d st), Some (BData _ l'), Some (BDims _ st') =>
          match kcopy d st l st' l' n with Some r => ROk tt (set_block p (BData kd r) s) | None => RUB end
      | _, _, _, _ => RUB
      end
  | _, _, _, _ => RUB
  end.
(** DT 918-994 *)
Definition assign_dev (id src : nat) (s : dstate) : dres unit :=
  let t := ten id s in let o := ten src s in
  if negb (has (t_data t)) || differs (t_dims t) (t_dims o) then
    let dims := t_dims o in let strides := row_major_strides dims in
    match free_data (t_mode t) (t_data t) s with
    | RUB => RUB
    | RThrow s1 => RThrow (put_ten id (mkTen (t_mode t) dims strides (t_data t) (t_gpu t)) s1)
    | ROk _ s1 =>
        match alloc_data (t_mode t) (span dims strides) s1 with
        | (p, s2, false) => RThrow (put_ten id (mkTen (t_mode t) dims strides p (t_gpu t)) s2)
        | (p, s2, true) =>
            let '(g, s3) := gpu_dims_copy (t_gpu t) dims strides s2 in
            let t' := mkTen (t_mode t) dims strides p (Some g) in
            launch_copy t' o (span dims strides) (put_ten id t' s3)
        end
    end
  else launch_copy t o (span (t_dims t) (t_strides t)) s.
(** DT 1228-1234 *)
Definition op_assign (id src : nat) (s : dstate) : dres unit :=
  match t_mode (ten id s) with MUnknown => do_init true id (ten src s) s | _ => assign_dev id src s end.
(** DT 1081-1149: from a host tensor.  A missing copy of the extents is not
    allocated here. *)
Definition assign_host (id : nat) (dims : list Z) (l : list Z) (s : dstate) : dres unit :=
  let t := ten id s in
  if differs (t_dims t) dims then
    let strides := row_major_strides dims in
    match free_data (t_mode t) (t_data t) s with
    | RUB => RUB
    | RThrow s1 => RThrow (put_ten id (mkTen (t_mode t) dims strides (t_data t) (t_gpu t)) s1)
    | ROk _ s1 =>
        match alloc_data (t_mode t) (span dims strides) s1 with
        | (p, s2, false) => RThrow (put_ten id (mkTen (t_mode t) dims strides p (t_gpu t)) s2)
        | (p, s2, true) =>
            let t' := mkTen (t_mode t) dims strides p (t_gpu t) in
            match t_gpu t with
            | None => RThrow (put_ten id t' s2)
            | Some g => store_list (map Some l) p (put_ten id t' (snd (gpu_dims_copy (Some g) dims strides s2)))
            end
        end
    end
  else match t_mode t with
       | MUnknown => RThrow s
       | MDev => store_list (map Some l) (t_data t) s
       | _ => match t_data t with None => RUB | Some _ => store_list (map Some l) (t_data t) s end
       end.
(** DT 608-613 [set_all] *)
Definition fill (id : nat) (v : Z) (s : dstate) : dres unit :=
  let t := ten id s in
  match t_data t, t_gpu t with
  | Some p, Some g =>
      match assoc p (s_blk s), assoc g (s_blk s) with
      | Some (BData kd l), Some (BDims d st) => match kfill d st l v with Some r => ROk tt (set_block p (BData kd r) s) | None => RUB end
      | _, _ => RUB
      end
  | _, _ => RUB
  end.
(** DT 704-720, 744-759 [read] *)
Definition read_list (id : nat) (l : list Z) (s : dstate) : dres unit :=
  let t := ten id s in
  match t_mode t with
  | MUnknown => RThrow s
  | MDev => store_list (map Some l) (t_data t) s
  | _ => match t_data t with None => RUB | Some _ => store_list (map Some l) (t_data t) s end
  end.
(** DT 723-741, 762-777 [write], and the conversion to a host tensor (DT
    1732-1742, where null in any mode is an error). *)
Definition write_list (id : nat) (s : dstate) : dres (list (option Z)) :=
  let t := ten id s in
  match t_mode t with
  | MUnknown => RThrow s
  | MDev => load_list (size_of (t_dims t)) (t_data t) s
  | _ => match t_data t with None => RUB | Some _ => load_list (size_of (t_dims t)) (t_data t) s end
  end.
(** DT 785-811: reading an element; negative indices count from the end. *)
Definition get (id : nat) (ix : list Z) (s : dstate) : dres (option Z) :=
  let t := ten id s in
  match t_mode t with
  | MUnknown => RThrow s
  | _ => match t_data t with
         | None => RUB
         | Some p => match assoc p (s_blk s) with
             | Some (BData _ l) => match get_elt (dotp (wrap_negative (t_dims t) ix) (t_strides t)) l with Some v => ROk v s | None => RUB end
             | _ => RUB end
         end
  end.
(** DT 819-844 and DH 144-156: [A(ix...) = v]; the test is [ordinal > size()], on
    unsigned numbers. *)
Definition set (id : nat) (ix : list Z) (v : Z) (s : dstate) : dres unit :=
  let t := ten id s in
  let o := dotp (wrap_negative (t_dims t) ix) (t_strides t) in
  if (o <? 0) || (size_of (t_dims t) <? o) then RThrow s
  else match t_mode t with
       | MUnknown => RThrow s
       | _ => match t_data t with
              | None => RUB
              | Some p => match assoc p (s_blk s) with
                  | Some (BData kd l) => match put_elt o (Some v) l with Some r => ROk tt (set_block p (BData kd r) s) | None => RUB end
                  | _ => RUB end
              end
       end.

(** ** Programs *)
(** Names of new tensors must be new, names of used ones must exist; a
    default constructed tensor has whatever was in its memory as extents. *)
Inductive dop :=
  | DNew (id : nat) (m : hmode) (dims : list Z) | DDefault (id : nat) (junk : list Z) | DCopy (id src : nat)
  | DHost (id : nat) (m : hmode) (dims l : list Z) | DMove (id src : nat) (dims : list Z)
  | DResize (id : nat) (dims : list Z) | DAssign (id src : nat) | DAssignHost (id : nat) (dims l : list Z)
  | DFill (id : nat) (v : Z) | DRead (id : nat) (l : list Z) | DSet (id : nat) (ix : list Z) (v : Z) | DDel (id : nat).
Definition dstep (o : dop) (s : dstate) : dres unit :=
  let known id := has (assoc id (s_ten s)) in
  let need (b : bool) r := if b then r else RThrow s in
  match o with
  | DNew id m dims => need (negb (known id)) (ctor_new id m dims s)
  | DDefault id junk => need (negb (known id)) (ROk tt (put_ten id (mkTen MUnknown junk junk None None) s))
  | DCopy id src => need (negb (known id) && known src) (do_init false id (ten src s) s)
  | DHost id m dims l => need (negb (known id)) (ctor_host id m dims l s)
  | DMove id src dims => need (negb (known id) && known src) (ctor_move id src dims s)
  | DResize id dims => need (known id) (resize id dims s)
  | DAssign id src => need (known id && known src) (op_assign id src s)
  | DAssignHost id dims l => need (known id) (assign_host id dims l s)
  | DFill id v => need (known id) (fill id v s)
  | DRead id l => need (known id) (read_list id l s)
  | DSet id ix v => need (known id) (set id ix v s)
  | DDel id => need (known id) (dtor id s)
  end.
Fixpoint drun (os : list dop) (s : dstate) : dres unit :=
  match os with
  | [] => ROk tt s
  | o :: r => rbind (dstep o s) (fun _ s1 => drun r s1)
  end.
Definition d_init : dstate := mkD [] [] 0.

(** ** Views *)
(** A view: block, offset of its first element, extents, strides, its copy of these. *)
Record dview := mkDV { w_blk : nat; w_off : Z; w_dims : list Z; w_strides : list Z; w_gpu : nat }.
(** DW 262-355 and DH 1261-1300: a view of a whole tensor with the given offset. *)
Definition make_view (id : nat) (off : Z) (dims strides : list Z) (s : dstate) : dres dview :=
  match t_data (ten id s) with
  | None => RUB
  | Some p => let '(g, s1) := gpu_dims_copy None dims strides s in ROk (mkDV p off dims strides g) s1
  end.
(** DW 12-28: the copy constructor allocates its own elements. *)
Definition copy_view (v : dview) (s : dstate) : dres dview :=
  let n := span (w_dims v) (w_strides v) in
  match assoc (w_blk v) (s_blk s) with
  | Some (BData _ l) =>
      if Z.of_nat (length l) <? w_off v + n then RUB
      else let '(k, s1) := new_block (BData KDev (firstn (Z.to_nat n) (skipn (Z.to_nat (w_off v)) l))) s in
           let '(g, s2) := gpu_dims_copy None (w_dims v) (w_strides v) s1 in
           ROk (mkDV k 0 (w_dims v) (w_strides v) g) s2
  | _ => RUB
  end.
(** DW 31-40: the destructor gives back the extents only ([_free_dev_data] is
    set for views of host memory only). *)
Definition drop_view (v : dview) (s : dstate) : dres unit :=
  match assoc (w_gpu v) (s_blk s) with Some (BDims _ _) => ROk tt (drop_block (w_gpu v) s) | _ => RUB end.
(** Storing to an element through a view. *)
Definition view_set (v : dview) (ix : list Z) (x : Z) (s : dstate) : dres unit :=
  match assoc (w_blk v) (s_blk s) with
  | Some (BData kd l) => match put_elt (w_off v + dotp ix (w_strides v)) (Some x) l with
      | Some r => ROk tt (set_block (w_blk v) (BData kd r) s) | None => RUB end
  | _ => RUB
  end.
