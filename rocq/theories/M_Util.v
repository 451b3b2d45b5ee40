(** * M_Util: arange, fftfreq, the circular buffer.
    Model definitions only.  Files under /repo/src: include/einsums/Utilities.hpp,
    FFT.cpp, include/einsums/STL.hpp. *)
From Coq Require Import List ZArith Lia Bool.
From Verif Require Import Base Heap Conc M_Addr M_Elt M_Einsum M_Blas.
Import ListNotations.
Open Scope Z_scope.

(** ** Utilities.hpp 650-666 [arange] *)
Section Arange.
  Context {O : Ops}.
  Notation T := (car O).
  (** [<] on [T] and [static_cast<int>]. *)
  Variable lt : T -> T -> bool.
  Variable trunc : T -> Z.

  (** 660-663: the loop; [None]: still running after [fuel] iterations. *)
  Fixpoint arange_loop (fuel : nat) (d : desc) (value stop step : T) (index : Z) (h : heap T) : option (res (heap T)) :=
    if lt value stop then
      match fuel with
      | 0%nat => None
      | S fuel => match tset h d [index] value with
                  | Ok h' => arange_loop fuel d (oadd value step) stop step (index + 1) h'
                  | Throw => Some Throw
                  | UB => Some UB
                  end
      end
    else Some (Ok h).
  (** 655: the number of elements of the result. *)
  Definition arange_count (start stop step : T) : Z := trunc (odiv (osub stop start) step).
  (** The new tensor is placed at [base]; a negative count, converted to
      [size_t], cannot be allocated.  The [assert] of 652 is inactive in release builds. *)
  Definition arange (fuel : nat) (base : Z) (start stop step : T) (h : heap T) : option (res (desc * heap T)) :=
      let n := arange_count start stop step in
      if n <? 0 then Some Throw
      else
        let d := tensor_ctor base [n] in
        match set_all base n o0 (alloc_buffer o0 base n h) with
        | Ok h1 => match arange_loop fuel d start stop step 0 h1 with
                   | Some (Ok h2) => Some (Ok (d, h2))
                   | Some Throw => Some Throw
                   | Some UB => Some UB
                   | None => None
                   end
        | Throw => Some Throw
        | UB => Some UB
        end.

  (** FFT.cpp 24-38 [fftfreq]; [ofZ] converts [int] to [double]; results, p1, p2
      are placed at [b0], [b1], [b2] (p1, p2 are not freed in the model).
      C++ integer division truncates. *)
  Variable ofZ : Z -> T.
  Definition fftfreq (fuel : nat) (b0 b1 b2 : Z) (n : Z) (dd : T) (h : heap T) : option (res (desc * heap T)) :=
    let value := odiv o1 (omul (ofZ n) dd) in
    if n <? 0 then Some Throw
    else
      let results := tensor_ctor b0 [n] in
      let h0 := alloc_buffer o0 b0 n h in
      let N := Z.quot (n - 1) 2 + 1 in
      match arange fuel b1 (ofZ 0) (ofZ N) (ofZ 1) h0 with
      | Some (Ok (p1, h1)) =>
          match assign_from_view (slice_ranges results [(0, N)]) p1 h1 with
          | Ok h2 =>
              match arange fuel b2 (ofZ (- Z.quot n 2)) (ofZ 0) (ofZ 1) h2 with
              | Some (Ok (p2, h3)) =>
                  Some (h4 <- assign_from_view (slice_ranges results [(N, n)]) p2 h3 ;;
                        h5 <- la_scale value results h4 ;;
                        Ok (results, h5))
              | Some Throw => Some Throw
              | Some UB => Some UB
              | None => None
              end
          | Throw => Some Throw
          | UB => Some UB
          end
      | Some Throw => Some Throw
      | Some UB => Some UB
      | None => None
      end.
End Arange.

(** ** STL.hpp 329-384 [CircularBuffer] *)
Section Circular.
  Context {T : Type}.
  (** Fields [_buffer] (contents of the array, initially indeterminate values),
      [_max_size], [_head], [_tail], [_full]. *)
  Record cbuf := mkCb { cb_buffer : Z -> T; cb_max : Z; cb_head : Z; cb_tail : Z; cb_full : bool }.
  Definition cb_ctor (junk : Z -> T) (size : Z) : cbuf := mkCb junk size 0 0 false.
  (** 333-345 [put]; the remainder by a capacity of zero is undefined (and so is the store). *)
  Definition cb_put (x : T) (b : cbuf) : res cbuf :=
    if (cb_head b <? 0) || (cb_max b <=? cb_head b) then UB
    else
      let buf := fun i => if i =? cb_head b then x else cb_buffer b i in
      let tail := if cb_full b then (cb_tail b + 1) mod cb_max b else cb_tail b in
      let head := (cb_head b + 1) mod cb_max b in
      Ok (mkCb buf (cb_max b) head tail (head =? tail)).
  (** 347-351 [reset] *)
  Definition cb_reset (b : cbuf) : cbuf := mkCb (cb_buffer b) (cb_max b) (cb_tail b) (cb_tail b) false.
  (** 353-357 *)
  Definition cb_empty (b : cbuf) : bool := negb (cb_full b) && (cb_head b =? cb_tail b).
  Definition cb_is_full (b : cbuf) : bool := cb_full b.
  Definition cb_capacity (b : cbuf) : Z := cb_max b.
  (** 359-371 [size] *)
  Definition cb_size (b : cbuf) : Z :=
    if negb (cb_full b) then
      if cb_tail b <=? cb_head b then cb_head b - cb_tail b else cb_max b + cb_head b - cb_tail b
    else cb_max b.
  (** 373 [operator[]]; outside the array is undefined. *)
  Definition cb_at (b : cbuf) (i : Z) : res T :=
    if (i <? 0) || (cb_max b <=? i) then UB else Ok (cb_buffer b i).
End Circular.
Arguments cbuf : clear implicits.
