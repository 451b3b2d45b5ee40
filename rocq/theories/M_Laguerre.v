(** * M_Laguerre: Laguerre series.  Model definitions only.
    Lines refer to /repo/src/include/einsums/polynomial/Laguerre.hpp.

    Rank-1 tensors are lists of elements: every tensor here is a local of the
    function or a [const] argument, so no two share memory, and the element-wise
    operators are the ones of C13-C15 (proved there for every thread count).
    Integers converted to the element type are exact multiples of one
    ([onat]); loop counters do not overflow (extents below 2^31). *)
From Coq Require Import List ZArith Lia Bool.
From Verif Require Import Base Heap.
Import ListNotations.
Open Scope Z_scope.

Section Laguerre.
  Context {O : Ops}.
  Notation T := (car O).

  (** Conversion of an unsigned integer to the element type. *)
  Fixpoint onat (n : nat) : T := match n with 0%nat => o0 | S m => oadd o1 (onat m) end.

  (** [c(i)]: a negative index counts from the end (Tensor.hpp 455-537);
      outside the buffer the access is undefined. *)
  Definition vget (c : list T) (i : Z) : res T :=
    let j := if i <? 0 then i + Z.of_nat (length c) else i in
    if j <? 0 then UB
    else match nth_error c (Z.to_nat j) with Some v => Ok v | None => UB end.
  Definition vset (c : list T) (i : Z) (v : T) : res (list T) :=
    let j := if i <? 0 then i + Z.of_nat (length c) else i in
    if (j <? 0) || (Z.of_nat (length c) <=? j) then UB
    else Ok (firstn (Z.to_nat j) c ++ v :: skipn (S (Z.to_nat j)) c).

  (** [a = s], [a OP= s], [a OP= b] (Tensor.hpp 848-883); [zero(a)] and
      [create_tensor_like]. *)
  Definition vfill (a : list T) (s : T) : list T := map (fun _ => s) a.
  Definition vscal (op : T -> T -> T) (a : list T) (s : T) : list T := map (fun v => op v s) a.
  Definition vop (op : T -> T -> T) (a b : list T) : res (list T) :=
    if Nat.eqb (length a) (length b) then Ok (map (fun p => op (fst p) (snd p)) (combine a b)) else Throw.

  (** 62-92 [derivative]; one pass of the loop 79-89 ([n] is the new length). *)
  Definition der_step (n : nat) (scale : T) (c : list T) : res (list T) :=
    let c := vscal omul c scale in
    r <- forM (rev (seq 1 n)) (fun j s =>
           cj <- vget (snd s) (Z.of_nat j) ;;
           der <- vset (fst s) (Z.of_nat j - 1) (oopp cj) ;;
           p <- vget (snd s) (Z.of_nat j - 1) ;;
           c <- vset (snd s) (Z.of_nat j - 1) (oadd p cj) ;;
           Ok (der, c)) (repeat o0 n, c) ;;
    c1 <- vget (snd r) 1 ;;
    vset (fst r) 0 (oopp c1).
  Fixpoint der_loop (m n : nat) (scale : T) (c : list T) : res (list T) :=
    match m with
    | 0%nat => Ok c
    | S m' => c' <- der_step (n - 1) scale c ;; der_loop m' (n - 1) scale c'
    end.
  (** 74-78: an extent of [0 - 1] is a request for 2^64-1 elements; the allocation throws. *)
  Definition derivative (c : list T) (m : nat) (scale : T) : res (list T) :=
    if Nat.eqb m 0 then Ok c
    else if Nat.leb (length c) m then
      match length c with 0%nat => Throw | S n => Ok (repeat o0 n) end
    else der_loop m (length c) scale c.

  (** 94-146 [value]; one pass of the loop 121-136. *)
  Definition value_step (x c : list T) (i : nat) (s : list T * list T * nat) : res (list T * list T * nat) :=
    let '(c0, c1, nd) := s in
    let tmp := c0 in
    let nd := (nd - 1)%nat in
    let c0 := vscal omul c1 (onat (nd - 1)) in
    let c0 := vscal odiv c0 (onat nd) in
    let c0 := vscal omul c0 (oopp o1) in
    ci <- vget c (- Z.of_nat i) ;;
    let c0 := vscal oadd c0 ci in
    let tmp1 := vfill x (onat (2 * nd - 1)) in
    tmp1 <- vop osub tmp1 x ;;
    tmp1 <- vop omul tmp1 c1 ;;
    let tmp1 := vscal odiv tmp1 (onat nd) in
    c1 <- vop oadd tmp tmp1 ;;
    Ok (c0, c1, nd).
  Definition value (x c : list T) : res (list T) :=
    s <- (match length c with
          | 1%nat => a <- vget c 0 ;; Ok (vfill x a, vfill x o0)
          | 2%nat => a <- vget c 0 ;; b <- vget c 1 ;; Ok (vfill x a, vfill x b)
          | n => a <- vget c (-2) ;; b <- vget c (-1) ;;
                 r <- forM (seq 3 (n - 2)) (value_step x c) (vfill x a, vfill x b, n) ;;
                 Ok (fst r)
          end) ;;
    let result := vfill x o1 in
    result <- vop osub result x ;;
    result <- vop omul result (snd s) ;;
    vop oadd result (fst s).
End Laguerre.
