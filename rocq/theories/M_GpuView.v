(** * M_GpuView: GPU views of Python buffers.

    Models /repo/src/python/PyGPUView.hip (GVI) and
    /repo/src/include/einsums/python/PyGPUView.hpp (GVH).

    Memory is modelled byte by byte; the host and the device have separate
    memories.  The HIP runtime is modelled by its documentation: registering a
    range of host memory that is empty or meets a registered range fails, a
    kernel can use a mapped pointer as long as its byte is registered,
    unregistering needs the base of a registered range, [hipFree] needs a live
    allocation or null.  Simplifications: allocations do not run out of memory;
    registration is byte by byte, not page by page; every method is one step
    (all of them hold the lock of the list); a size_t computed from a negative
    number makes the allocation fail. *)
From Coq Require Import List ZArith Lia Bool.
From Verif Require Import Base Heap M_Addr.
Import ListNotations.
Open Scope Z_scope.

(** What [pybind11::buffer::request] returns: address, item size, shape and
    strides in bytes. *)
Record pybuf := mkBuf { pb_ptr : Z; pb_item : Z; pb_shape : list Z; pb_strides : list Z }.
(** GVH 35-52 [PyViewMode], for buffers *)
Inductive vmode := VCopy | VMap.
(** Device pointers: null, an allocation, the image of a host address. *)
Inductive dptr := DNull | DBlk (id : nat) | DHostPtr (a : Z).
(** Contents of a device allocation: bytes, or the words of dims/strides. *)
Inductive dblock := DBytes (n : Z) (c : Z -> option Z) | DWords (w : list Z).
(** GVI 24-72 [MappingData] *)
Record mapping := mkMap { m_base : Z; m_size : Z; m_obs : list nat }.
(** GVH 60-71 *)
Record gview := mkView { v_mode : vmode; v_host : Z; v_dev : dptr; v_dims : list Z; v_strides : list Z; v_item : Z;
                         v_alloc : Z; v_items : Z; v_gdims : nat; v_gstrides : nat }.
(** Host memory, ranges registered with HIP, the singleton's [_pointers],
    device allocations, live views, number of the next allocation or view. *)
Record gstate := mkG { g_host : heap Z; g_reg : list (Z * Z); g_maps : list mapping; g_dev : list (nat * dblock);
                       g_views : list (nat * gview); g_next : nat }.

Definition has {A} (h : option A) : bool := match h with Some _ => true | None => false end.
Fixpoint assoc {A} (k : nat) (l : list (nat * A)) : option A :=
  match l with [] => None | (k', v) :: r => if Nat.eqb k k' then Some v else assoc k r end.
Definition without {A} (k : nat) (l : list (nat * A)) : list (nat * A) := filter (fun e => negb (Nat.eqb k (fst e))) l.
Definition setassoc {A} (k : nat) (v : A) (l : list (nat * A)) : list (nat * A) :=
  map (fun e => if Nat.eqb k (fst e) then (k, v) else e) l.

(** ** The HIP runtime *)
Definition meets (p n q m : Z) : bool := (p <? q + m) && (q <? p + n).
Definition hip_register (p n : Z) (reg : list (Z * Z)) : res (list (Z * Z)) :=
  if (n <=? 0) || existsb (fun r => meets p n (fst r) (snd r)) reg then Throw else Ok (reg ++ [(p, n)]).
(** Called from destructors: a failure ends the program. *)
Definition hip_unregister (p : Z) (reg : list (Z * Z)) : res (list (Z * Z)) :=
  if existsb (fun r => fst r =? p) reg then Ok (filter (fun r => negb (fst r =? p)) reg) else UB.
Definition hip_malloc (b : dblock) (s : gstate) : nat * gstate :=
  (g_next s, mkG (g_host s) (g_reg s) (g_maps s) (g_dev s ++ [(g_next s, b)]) (g_views s) (S (g_next s))).
Definition hip_free (p : dptr) (s : gstate) : res gstate :=
  match p with
  | DNull => Ok s
  | DBlk id => if has (assoc id (g_dev s)) then Ok (mkG (g_host s) (g_reg s) (g_maps s) (without id (g_dev s)) (g_views s) (g_next s)) else UB
  | DHostPtr _ => UB
  end.
(** The bytes of host memory from [a], if all [n] are there. *)
Definition host_bytes (h : heap Z) (a n : Z) : res (Z -> option Z) :=
  if forallb (fun i => has (h (a + i))) (zrange n) then Ok (fun i => if (0 <=? i) && (i <? n) then h (a + i) else None) else UB.

(** ** MappingList *)
(** GVI 69-71, 101-110: the first mapping that contains the range. *)
Fixpoint find_attach (id : nat) (p n : Z) (ms : list mapping) : option (list mapping) :=
  match ms with
  | [] => None
  | m :: r =>
      let diff := p - m_base m in
      if (0 <=? diff) && (diff <? m_size m) && (diff + n <=? m_size m)
      then Some (mkMap (m_base m) (m_size m) (m_obs m ++ [id]) :: r)
      else match find_attach id p n r with Some r' => Some (m :: r') | None => None end
  end.
(** GVI 138-142 [notify], 37-41: the destructors of the removed entries. *)
Definition has_refs (m : mapping) : bool := negb (Nat.eqb (length (m_obs m)) 0).
Fixpoint notify (ms : list mapping) (reg : list (Z * Z)) : res (list mapping * list (Z * Z)) :=
  match ms with
  | [] => Ok ([], reg)
  | m :: r =>
      if has_refs m then x <- notify r reg ;; Ok (m :: fst x, snd x)
      else reg' <- hip_unregister (m_base m) reg ;; notify r reg'
  end.
(** GVI 98-118 [attach], 43-53 [get_gpu_pointer] *)
Definition ml_attach (id : nat) (p n : Z) (ms : list mapping) (reg : list (Z * Z)) : res (list mapping * list (Z * Z) * dptr) :=
  match find_attach id p n ms with
  | Some ms' => x <- notify ms' reg ;; Ok (x, DHostPtr p)
  | None => reg' <- hip_register p n reg ;;
            x <- notify (ms ++ [mkMap p n [id]]) reg' ;; Ok (x, DHostPtr p)
  end.
(** GVI 123-132 [detach] *)
Definition ml_detach (id : nat) (ms : list mapping) (reg : list (Z * Z)) : res (list mapping * list (Z * Z)) :=
  notify (map (fun m => mkMap (m_base m) (m_size m) (filter (fun o => negb (Nat.eqb id o)) (m_obs m))) ms) reg.

(** ** PyGPUView *)
(** GVI 145-185: the constructor; [strides[0]] of an empty vector is undefined. *)
Definition new_view (b : pybuf) (mode : vmode) (s : gstate) : res (nat * gstate) :=
  match pb_strides b, pb_shape b with
  | st0 :: _, sh0 :: _ =>
      let n := st0 * sh0 in
      let id := g_next s in
      let s0 := mkG (g_host s) (g_reg s) (g_maps s) (g_dev s) (g_views s) (S id) in
      r <- (match mode with
            | VCopy =>
                if n <? 0 then Throw
                else if n =? 0 then Ok (s0, DNull)
                else c <- host_bytes (g_host s) (pb_ptr b) n ;;
                     let '(k, s1) := hip_malloc (DBytes n c) s0 in Ok (s1, DBlk k)
            | VMap =>
                if n <? 0 then Throw
                else x <- ml_attach id (pb_ptr b) n (g_maps s) (g_reg s) ;;
                     let '(ms, reg, p) := x in Ok (mkG (g_host s0) reg ms (g_dev s0) (g_views s0) (g_next s0), p)
            end) ;;
      let '(s1, dev) := r in
      let '(gd, s2) := hip_malloc (DWords (pb_shape b)) s1 in
      let '(gs, s3) := hip_malloc (DWords (pb_strides b)) s2 in
      let v := mkView mode (pb_ptr b) dev (pb_shape b) (pb_strides b) (pb_item b) n (zprod (pb_shape b)) gd gs in
      Ok (id, mkG (g_host s3) (g_reg s3) (g_maps s3) (g_dev s3) (g_views s3 ++ [(id, v)]) (g_next s3))
  | _, _ => UB
  end.
(** GVI 187-202: the destructor. *)
Definition del_view (id : nat) (v : gview) (s : gstate) : res gstate :=
  s1 <- (match v_mode v with
         | VCopy => hip_free (v_dev v) s
         | VMap => x <- ml_detach id (g_maps s) (g_reg s) ;; Ok (mkG (g_host s) (snd x) (fst x) (g_dev s) (g_views s) (g_next s))
         end) ;;
  s2 <- hip_free (DBlk (v_gdims v)) s1 ;;
  s3 <- hip_free (DBlk (v_gstrides v)) s2 ;;
  Ok (mkG (g_host s3) (g_reg s3) (g_maps s3) (g_dev s3) (without id (g_views s3)) (g_next s3)).
(** GVI 275-279 [update_H2D] *)
Definition view_h2d (v : gview) (s : gstate) : res gstate :=
  match v_mode v, v_dev v with
  | VCopy, DBlk k =>
      match assoc k (g_dev s) with
      | Some (DBytes n _) =>
          if n <? v_alloc v then UB
          else c <- host_bytes (g_host s) (v_host v) (v_alloc v) ;;
               Ok (mkG (g_host s) (g_reg s) (g_maps s) (setassoc k (DBytes n c) (g_dev s)) (g_views s) (g_next s))
      | _ => UB
      end
  | VCopy, _ => if v_alloc v =? 0 then Ok s else UB
  | VMap, _ => Ok s
  end.
(** GVI 281-285 [update_D2H] *)
Definition view_d2h (v : gview) (s : gstate) : res gstate :=
  match v_mode v, v_dev v with
  | VCopy, DBlk k =>
      match assoc k (g_dev s) with
      | Some (DBytes n c) =>
          if n <? v_alloc v then UB
          else _ <- host_bytes (g_host s) (v_host v) (v_alloc v) ;;
               Ok (mkG (fun z => if (v_host v <=? z) && (z <? v_host v + v_alloc v) then c (z - v_host v) else g_host s z)
                       (g_reg s) (g_maps s) (g_dev s) (g_views s) (g_next s))
      | _ => UB
      end
  | VCopy, _ => if v_alloc v =? 0 then Ok s else UB
  | VMap, _ => Ok s
  end.

(** ** What kernels and Python do with them *)
(** The byte at distance [off] of the view's device pointer. *)
Definition dev_byte (v : gview) (off : Z) (s : gstate) : option Z :=
  match v_dev v with
  | DBlk k => match assoc k (g_dev s) with Some (DBytes n c) => c off | _ => None end
  | DHostPtr a => if existsb (fun r => (fst r <=? a + off) && (a + off <? fst r + snd r)) (g_reg s) then g_host s (a + off) else None
  | DNull => None
  end.
Definition dev_store (v : gview) (off x : Z) (s : gstate) : res gstate :=
  if has (dev_byte v off s) then
    match v_dev v with
    | DBlk k => match assoc k (g_dev s) with
        | Some (DBytes n c) => Ok (mkG (g_host s) (g_reg s) (g_maps s)
            (setassoc k (DBytes n (fun i => if i =? off then Some x else c i)) (g_dev s)) (g_views s) (g_next s))
        | _ => UB end
    | DHostPtr a => Ok (mkG (upd (g_host s) (a + off) x) (g_reg s) (g_maps s) (g_dev s) (g_views s) (g_next s))
    | DNull => UB
    end
  else UB.
(** A step of a Python program: making and dropping views, the two updates, a
    kernel storing a byte, Python storing a byte, Python allocating or freeing
    memory.  A name without a view raises. *)
Inductive gop :=
  | GNew (b : pybuf) (m : vmode) | GDel (id : nat) | GH2D (id : nat) | GD2H (id : nat)
  | GKernel (id : nat) (off x : Z) | GPoke (a x : Z) | GMem (a n : Z) (x : option Z).
Definition gstep (o : gop) (s : gstate) : res gstate :=
  let on id f := match assoc id (g_views s) with Some v => f v | None => Throw end in
  let host h := mkG h (g_reg s) (g_maps s) (g_dev s) (g_views s) (g_next s) in
  match o with
  | GNew b m => r <- new_view b m s ;; Ok (snd r)
  | GDel id => on id (fun v => del_view id v s)
  | GH2D id => on id (fun v => view_h2d v s)
  | GD2H id => on id (fun v => view_d2h v s)
  | GKernel id off x => on id (fun v => dev_store v off x s)
  | GPoke a x => h <- wr (g_host s) a x ;; Ok (host h)
  | GMem a n x => Ok (host (fun z => if (a <=? z) && (z <? a + n) then x else g_host s z))
  end.
(** A program goes on after an exception, with the state it found. *)
Fixpoint grun (os : list gop) (s : gstate) : res gstate :=
  match os with
  | [] => Ok s
  | o :: r => match gstep o s with Ok s' => grun r s' | Throw => grun r s | UB => UB end
  end.
Definition g_init (h : heap Z) : gstate := mkG h [] [] [] [] 0.

(** GVH 101-116: a view of a DeviceTensor copies [sizeof(T) * Rank] bytes of
    the array of [Rank] strides (8 bytes each) to the [8 * Rank] bytes
    allocated for them: the strides a kernel then finds ([None]: not written). *)
Definition dt_gpu_strides (item : Z) (strides : list Z) : res (list (option Z)) :=
  let rank := Z.of_nat (length strides) in
  if 8 * rank <? item * rank then UB
  else Ok (map (fun i => if 8 * (i + 1) <=? item * rank then Some (nth (Z.to_nat i) strides 0 * item) else None) (zrange rank)).
