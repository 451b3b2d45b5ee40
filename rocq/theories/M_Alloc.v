(** * M_Alloc: the allocator of tensor buffers.  Model definitions only.
    Files: M = /repo/src/Memory.cpp, S = /repo/src/include/einsums/STL.hpp. *)
From Coq Require Import List ZArith Lia Bool.
From Verif Require Import Base Heap.
Import ListNotations.
Open Scope Z_scope.

(** Arithmetic of [size_t] (64 bits). *)
Definition size_wrap (x : Z) : Z := x mod 2 ^ 64.

(** The C library's heap: the live blocks, address and number of bytes. *)
Definition cheap := list (Z * Z).

(** [posix_memalign] (external): a block of [size] bytes aligned at [align], or
    no block.  [free] (external): the block that begins at the address is no
    longer live; anything else but a null pointer is undefined. *)
Definition memalign := cheap -> Z -> Z -> option Z.
Definition c_free (p : Z) (h : cheap) : res cheap :=
  if p =? 0 then Ok h
  else if existsb (fun b => fst b =? p) h then Ok (filter (fun b => negb (fst b =? p)) h) else UB.

(** [detail::allocate_aligned_memory] (M 14-38): a null pointer (0) for no
    bytes; otherwise the size is increased by [align - size % align] (M 23-24)
    and passed to posix_memalign (M 30).  The message on failure is left out. *)
Definition allocate_aligned_memory (pm : memalign) (align size : Z) (h : cheap) : Z * cheap :=
  if size =? 0 then (0, h)
  else
    let extra := size_wrap (align - size mod align) in
    let size := size_wrap (size + extra) in
    match pm h align size with
    | Some p => (p, (p, size) :: h)
    | None => (0, h)
    end.

(** [AlignedAllocator::max_size] (S 431, 483). *)
Definition max_size (align sizeof : Z) : Z := (2 ^ 64 - 1 - align) / sizeof.

(** [AlignedAllocator::allocate] (S 437-445, 487-495): [n * sizeof(T)] bytes;
    std::bad_alloc ([Throw]) for a null pointer. *)
Definition allocate (pm : memalign) (align sizeof n : Z) (h : cheap) : res (Z * cheap) :=
  let (p, h') := allocate_aligned_memory pm align (size_wrap (n * sizeof)) h in
  if p =? 0 then Throw else Ok (p, h').

(** [AlignedAllocator::deallocate] (S 447, 497; M 40-42). *)
Definition deallocate (p : Z) (h : cheap) : res cheap := c_free p h.

(** The buffer of a tensor: [std::vector<T, AlignedAllocator>(n)] asks for
    memory only if n is not 0 and throws for n above max_size() (libstdc++; its
    other bound, PTRDIFF_MAX / sizeof(T), is left out: it only makes it throw
    earlier). *)
Definition vector_buffer (pm : memalign) (align sizeof n : Z) (h : cheap) : res (Z * cheap) :=
  if max_size align sizeof <? n then Throw
  else if n =? 0 then Ok (0, h)
  else allocate pm align sizeof n h.

(** Histories: the tensors alive, each with the address of its buffer, its
    number of elements and their size; a new one, or the end of the [i]-th.  A
    construction that throws leaves everything as it was. *)
Inductive aop := ANew (sizeof n : Z) | AEnd (i : nat).
Definition owner := (Z * Z * Z)%type.
Definition astep (pm : memalign) (align : Z) (st : list owner * cheap) (o : aop) : res (list owner * cheap) :=
  let (own, h) := st in
  match o with
  | ANew sizeof n =>
      match vector_buffer pm align sizeof n h with
      | Ok (p, h') => Ok ((p, n, sizeof) :: own, h')
      | Throw => Ok (own, h)
      | UB => UB
      end
  | AEnd i =>
      match nth_error own i with
      | Some (p, n, sizeof) =>
          bind (if n =? 0 then Ok h else deallocate p h) (fun h' => Ok (firstn i own ++ skipn (S i) own, h'))
      | None => Ok (own, h)
      end
  end.
Definition aruns (pm : memalign) (align : Z) (ops : list aop) (st : list owner * cheap) : res (list owner * cheap) :=
  fold_left (fun r o => bind r (fun st => astep pm align st o)) ops (Ok st).
