(** * M_Red: reductions over all elements (sum, max, min) and the element-wise
    functions that return a new tensor.  Model definitions only.
    File: /repo/src/include/einsums/ElementOperations.hpp (lines without a file
    name). [size_model] (M_Addr) is [size()].  The GPU branches are not modelled. *)
From Coq Require Import List ZArith Lia Bool.
From Verif Require Import Base Heap Conc M_Addr M_Elt M_Einsum M_Block.
Import ListNotations.
Open Scope Z_scope.

Definition int_max : Z := 2 ^ 31 - 1.

(** 126-132, 202-208, 346-352: offset of the [q]-th element in the loops' order:
    the first index runs fastest. *)
Fixpoint flat_offset (strides dims : list Z) (q : Z) : Z :=
  match strides, dims with
  | s :: ss, d :: ds => s * (q mod d) + flat_offset ss ds (q / d)
  | _, _ => 0
  end.
Definition flat_addr (d : desc) (q : Z) : Z := dbase d + flat_offset (dstrides d) (ddims d) q.

(** 199, 267, 344, 407, 470, 533: [for (int i = tid; i < size; i += nt)]; the
    increment beyond the largest [int] is undefined. *)
Fixpoint strided_loop (fuel : nat) (i nt size : Z) : res (list Z) :=
  match fuel with
  | 0%nat => Ok []
  | S fuel => if i <? size then
                if int_max <? i + nt then UB
                else r <- strided_loop fuel (i + nt) nt size ;; Ok (i :: r)
              else Ok []
  end.
Definition strided (tid nt size : Z) : res (list Z) := strided_loop (Z.to_nat size) tid nt size.
(** The work lists of the [nt] threads of a team. *)
Fixpoint mapR {A B} (f : A -> res B) (l : list A) : res (list B) :=
  match l with
  | [] => Ok []
  | x :: r => y <- f x ;; ys <- mapR f r ;; Ok (y :: ys)
  end.
Definition team (nt size : Z) : res (list (list Z)) := mapR (fun tid => strided tid nt size) (zrange nt).

Section Sum.
  Context {O : Ops}.
  Notation T := (car O).
  (** 120-138 [sum]: [parts] = the iterations of each thread in the order they
      are added to its private copy; the copies are then added to [result]. *)
  Definition sum_part (d : desc) (h : heap T) (part : list Z) : res T :=
    forM part (fun i acc => v <- rd h (flat_addr d i) ;; Ok (oadd acc v)) o0.
  Definition sum (d : desc) (parts : list (list Z)) (h : heap T) : res T :=
    forM parts (fun part out => s <- sum_part d h part ;; Ok (oadd out s)) o0.
  (** 78-87: block tensors; [parts] lists the blocks of each thread, [inner] the
      distribution used inside block [k]. *)
  Definition block_sum_part (t : bt) (inner : nat -> list (list Z)) (h : heap T) (part : list nat) : res T :=
    forM part (fun k acc =>
      match nth_error (bt_blocks t) k with
      | Some d => if tdim d 0 =? 0 then Ok acc else v <- sum d (inner k) h ;; Ok (oadd acc v)
      | None => Throw
      end) o0.
  Definition block_sum (t : bt) (parts : list (list nat)) (inner : nat -> list (list Z)) (h : heap T) : res T :=
    forM parts (fun part out => s <- block_sum_part t inner h part ;; Ok (oadd out s)) o0.
End Sum.

Section Extremum.
  Context {T : Type}.
  (** [better x y] is [x > y] in [max], [x < y] in [min]. *)
  Variable better : T -> T -> bool.

  (** 210, 278: [arr[tid] = (arr[tid] > x) ? arr[tid] : x]; [arr] is the address
      of the array with one entry per thread. *)
  Definition ext_body (d : desc) (arr tid : Z) (i : Z) : prog T unit :=
    PRd (arr + tid) (fun m => PRd (flat_addr d i) (fun x => PWr (arr + tid) (if better m x then m else x) (PRet tt))).
  (** 189-193, 257-261: the array of [maxt] entries, all [worst]. *)
  Definition ext_start (worst : T) (arr maxt : Z) (h : heap T) : heap T := alloc_buffer worst arr maxt h.
  (** 195-212, 263-280: the parallel region. *)
  Definition ext_pool (d : desc) (arr nt : Z) : res (list (prog T unit)) :=
    l <- team nt (size_model (ddims d)) ;;
    Ok (map (fun p => pseq (snd p) (ext_body d arr (fst p))) (combine (zrange nt) l)).
  (** 214, 282: [std::max_element] / [std::min_element]: the first best entry;
      [None] stands for the dereferenced end iterator of an empty array. *)
  Definition best_entry (arr maxt : Z) (h : heap T) : res T :=
    if maxt <=? 0 then UB
    else m <- rd h arr ;;
         forM (zrange (maxt - 1)) (fun k m => x <- rd h (arr + 1 + k) ;; Ok (if better x m then x else m)) m.

  (** 148-155, 221-228: block tensors: the array holds one result per block
      ([worst] for an empty block); [blk k] is the result for block [k]. *)
  Definition block_best (worst : T) (t : bt) (blk : nat -> T) : res T :=
    match map (fun k => match nth_error (bt_blocks t) k with
                        | Some d => if tdim d 0 =? 0 then worst else blk k
                        | None => worst
                        end) (seq 0 (length (bt_blocks t))) with
    | [] => UB
    | m :: r => Ok (fold_left (fun m x => if better x m then x else m) r m)
    end.
End Extremum.

Section NewTensor.
  Context {T : Type}.
  (** 340-360 [abs], 403-423 [invert], 466-486 [exp], 529-549 [scale]: loop over
      the elements writing [f x] into the new tensor [out]. *)
  Definition map_body (f : T -> T) (out d : desc) (i : Z) : prog T unit :=
    PRd (flat_addr d i) (fun x =>
      PWr (dbase out + flat_offset (dstrides out) (ddims d) i) (f x) (PRet tt)).
  Definition map_pool (f : T -> T) (out d : desc) (nt : Z) : res (list (prog T unit)) :=
    l <- team nt (size_model (ddims d)) ;; Ok (map (fun p => pseq p (map_body f out d)) l).
  (** Utilities.hpp 475-479 [create_tensor_like]: a row-major tensor of the same extents. *)
  Definition like (zero : T) (base : Z) (d : desc) (h : heap T) : desc * heap T :=
    (tensor_ctor base (ddims d), alloc_buffer zero base (data_size (ddims d)) h).
End NewTensor.
