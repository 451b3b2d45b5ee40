(** * M_BlockEinsum: einsum with block-diagonal operands.  Model definitions only.
    Lines refer to
    /repo/src/include/einsums/tensor_algebra_backends/BlockAlgebra.hpp; other
    files are named.

    Modelled: the overloads with a block or scalar result on the CPU, for
    operands of one element type.  Not modelled: the overloads with a dense
    result of rank >= 1 (44-76, 202-227, 329-356), which take the address of a
    temporary view ([&(std::apply( *C, view_index))]) and do not compile, and
    the HIP branches. *)
From Coq Require Import List ZArith Lia Bool.
From Verif Require Import Base Heap Conc M_Addr M_Elt M_Einsum M_Blas M_Dispatch M_Block.
Import ListNotations.
Open Scope Z_scope.

Section BlockEinsum.
  Context {O : Ops}.
  Notation T := (car O).

  (** A dense call made from inside a parallel loop: its own parallel loop runs
      on the calling thread (OpenMP's default of one active level). *)
  Definition plan_run (p : res (@plan O)) : res (heap T) :=
    q <- p ;;
    let '(h1, body, iters) := q in
    r <- run (pseq iters body) h1 ;; Ok (snd r).

  (** [einsum] on three dense tensors that are not views (the blocks). *)
  Definition dense_einsum (e : ein) (cp : T) (C : desc) (ab : T) (A B : desc) (h : heap T) : res (heap T) :=
    plan_run (einsum e false true true true false false cp C ab A B h).

  (** 27-35: number of blocks and block sizes ([block_dim(i)] is extent 0 of
      block [i]: BlockTensor.hpp 757). *)
  Definition block_dims (t : bt) : list Z := map (fun d => tdim d 0) (bt_blocks t).
  Definition same_blocks (t u : bt) : bool :=
    Nat.eqb (length (bt_blocks t)) (length (bt_blocks u)) &&
    (if list_eq_dec Z.eq_dec (block_dims t) (block_dims u) then true else false).

  (** linear_algebra_imp/BlockLinearAlgebra.hpp 312-322; the loop over the blocks
      runs in an arbitrary order [order].  [block(i)] throws outside the vector. *)
  Definition bt_direct_product (alpha : T) (A B : bt) (beta : T) (C : bt) (order : list nat) (h : heap T)
      : res (heap T) :=
    forM order (fun i h =>
      match nth_error (bt_blocks A) i, nth_error (bt_blocks B) i, nth_error (bt_blocks C) i with
      | Some a, Some b, Some c =>
          if tdim a 0 =? 0 then Ok h
          else plan_run (r <- la_direct_product alpha a b beta c h ;;
                         Ok (fst r, snd r, indices (map to_int32 (ddims c))))
      | _, _, _ => Throw
      end) h.

  (** 16-42: block x block -> block. *)
  Definition block_special (e : ein) (cp : T) (C : bt) (ab : T) (A B : bt) (order : list nat) (h : heap T)
      : res (heap T) :=
    if negb (same_blocks A B && same_blocks A C) then Throw
    else forM order (fun i h =>
      match nth_error (bt_blocks A) i, nth_error (bt_blocks B) i, nth_error (bt_blocks C) i with
      | Some a, Some b, Some c => dense_einsum e cp c ab a b h
      | _, _, _ => Throw
      end) h.
  (** Dispatch.hpp 221-229, 492-501: the whole call. *)
  Definition block_einsum (e : ein) (cp : T) (C : bt) (ab : T) (A B : bt) (order : list nat) (h : heap T)
      : res (heap T) :=
    if element_wise_multiplication e then bt_direct_product ab A B cp C order h
    else block_special e cp C ab A B order h.

  (** [std::apply(X, view_index)] with every range equal to [block_range(i)]
      for a rank-1 tensor X: Tensor.hpp 630-650. *)
  Definition vec_slice (X : desc) (r : Z * Z) : desc := slice_ranges X [r].

  (** 171-200: vector x block -> block, and 294-327: block x vector -> block.
      A slice is never a full view, so [full_view_of_underlying()] is false. *)
  Definition vec_block (e : ein) (cp : T) (C : bt) (ab : T) (X : desc) (B : bt) (order : list nat) (h : heap T)
      : res (heap T) :=
    if negb (same_blocks B C) then Throw
    else forM order (fun i h =>
      match nth_error (bt_blocks B) i, nth_error (bt_blocks C) i, nth_error (bt_ranges B) i with
      | Some b, Some c, Some r =>
          if tdim b 0 =? 0 then Ok h
          else plan_run (einsum e false false true true true false cp c ab (vec_slice X r) b h)
      | _, _, _ => Throw
      end) h.
  Definition block_vec (e : ein) (cp : T) (C : bt) (ab : T) (A : bt) (X : desc) (order : list nat) (h : heap T)
      : res (heap T) :=
    if negb (same_blocks A C) then Throw
    else forM order (fun i h =>
      match nth_error (bt_blocks A) i, nth_error (bt_blocks C) i, nth_error (bt_ranges A) i with
      | Some a, Some c, Some r =>
          if tdim a 0 =? 0 then Ok h
          else plan_run (einsum e false true false true false true cp c ab a (vec_slice X r) h)
      | _, _, _ => Throw
      end) h.

  (** ** Scalar results.  [C] is the address of the result; [temp_c] (158) lives
      at the address [tmp], unallocated outside the iteration.  [threads]: the
      blocks each thread gets; every thread adds into a copy of [temp] that
      starts at zero, and the copies are added to [temp] in the end. *)
  Definition scalar_block (call : nat -> desc -> heap T -> res (option (heap T))) (c1 : T) (tmp : Z) (i : nat)
      (s : T * heap T) : res (T * heap T) :=
    r <- call i (mkDesc tmp [] []) (upd (snd s) tmp c1) ;;
    match r with
    | None => Ok s
    | Some h2 => v <- rd h2 tmp ;; Ok (oadd (fst s) v, fun z => if z =? tmp then None else h2 z)
    end.
  Definition scalar_loop (call : nat -> desc -> heap T -> res (option (heap T))) (C : Z) (cp : T) (tmp : Z)
      (threads : list (list nat)) (h : heap T) : res (heap T) :=
    c0 <- rd h C ;;
    let c1 := if oeqb cp o0 then o0 else omul c0 cp in
    h1 <- wr h C c1 ;;
    r <- forM threads (fun share s =>
           p <- forM share (scalar_block call c1 tmp) (o0, snd s) ;;
           Ok (oadd (fst s) (fst p), snd p)) (c1, h1) ;;
    c2 <- rd (snd r) C ;;
    wr (snd r) C (oadd c2 (fst r)).

  (** 95-169, CPU part 147-165.  [None]: the block is empty and skipped. *)
  Definition block_scalar_special (e : ein) (cp : T) (C : Z) (ab : T) (A B : bt) (tmp : Z) (threads : list (list nat))
      (h : heap T) : res (heap T) :=
    if negb (same_blocks A B) then Throw
    else scalar_loop (fun i c h =>
      match nth_error (bt_blocks A) i, nth_error (bt_blocks B) i with
      | Some a, Some b =>
          if tdim a 0 =? 0 then Ok None
          else h2 <- plan_run (einsum e true true true true false false o0 c ab a b h) ;; Ok (Some h2)
      | _, _ => Throw
      end) C cp tmp threads h.
  (** Dispatch.hpp 215-220, 492-501: the whole call; [None]: the fall-back of
      [dot] for operands of different block structure (M_Block). *)
  Definition block_scalar (e : ein) (cp : T) (C : Z) (ab : T) (A B : bt) (tmp : Z) (threads : list (list nat))
      (h : heap T) : option (res (heap T)) :=
    if dot_product e then
      match bt_dot A B (concat threads) h with
      | None => None
      | Some r => Some (
          temp <- r ;;
          v <- rd h C ;; h1 <- wr h C (omul v cp) ;;
          w <- rd h1 C ;; wr h1 C (oadd w (omul ab temp)))
      end
    else Some (block_scalar_special e cp C ab A B tmp threads h).

  (** 229-292: vector x block -> scalar, and 358-419: block x vector -> scalar. *)
  Definition vec_block_scalar (e : ein) (cp : T) (C : Z) (ab : T) (X : desc) (B : bt) (tmp : Z)
      (threads : list (list nat)) (h : heap T) : res (heap T) :=
    scalar_loop (fun i c h =>
      match nth_error (bt_blocks B) i, nth_error (bt_ranges B) i with
      | Some b, Some r =>
          if tdim b 0 =? 0 then Ok None
          else h2 <- plan_run (einsum e true false true true true false o0 c ab (vec_slice X r) b h) ;; Ok (Some h2)
      | _, _ => Throw
      end) C cp tmp threads h.
  Definition block_vec_scalar (e : ein) (cp : T) (C : Z) (ab : T) (A : bt) (X : desc) (tmp : Z)
      (threads : list (list nat)) (h : heap T) : res (heap T) :=
    scalar_loop (fun i c h =>
      match nth_error (bt_blocks A) i, nth_error (bt_ranges A) i with
      | Some a, Some r =>
          if tdim a 0 =? 0 then Ok None
          else h2 <- plan_run (einsum e true true false true false true o0 c ab a (vec_slice X r) h) ;; Ok (Some h2)
      | _, _ => Throw
      end) C cp tmp threads h.
End BlockEinsum.
