(** * M_Als: the alternating least squares iterations of parafac and
    weighted_parafac.  Model definitions only.
    File: /repo/src/include/einsums/Decomposition.hpp.  Tensors are values here (their
    elements as a function of the index); every library call is replaced by the value its own
    property gives it: einsum (C47), unfold and khatri_rao (C39), weight_tensor and
    parafac_reconstruct (C70), gesv (C56).  All extents and the rank are positive (otherwise
    khatri_rao throws, see C39).  The starting factors (initialize_cp) are arguments. *)
From Coq Require Import List ZArith Lia Bool.
From Verif Require Import Base Heap M_Addr S_Fold S_Decomp.
Import ListNotations.
Open Scope Z_scope.

Section Als.
  Context {O : Ops}.
  Notation T := (car O).
  Notation ten := (list Z -> car O).

  (** 276, 389: einsum {r,s} <- {I,r},{I,s} *)
  Definition gram (d : Z) (F : ten) : ten := fun rs => zsum d (fun i => omul (F [i; nth 0 rs 0]) (F [i; nth 1 rs 0])).
  (** 285, 401: einsum {r,s} <- {r,s},{r,s} *)
  Definition hadamard (V G : ten) : ten := fun rs => omul (V rs) (G rs).
  (** 288, 404: khatri_rao({I,r}, KR, {M,r}, F); the row of (k, i) is k * d + i. *)
  Definition khatri (d : Z) (KR F : ten) : ten := fun kr =>
    omul (KR [nth 0 kr 0 / d; nth 1 kr 0]) (F [nth 0 kr 0 mod d; nth 1 kr 0]).
  (** unfold<n>: row [i], column [z] of the other indices. *)
  Definition insert (n : nat) (i : Z) (j : list Z) : list Z := firstn n j ++ i :: skipn n j.
  Definition unfolded (dims : list Z) (t : ten) (n : nat) : ten := fun iz =>
    t (insert n (nth 0 iz 0) (sentinel_to_indices (nth 1 iz 0) (row_major_strides (without n dims)))).
  (** weight_tensor *)
  Definition weigh (w t : ten) : ten := fun idx => omul (w [nth 0 idx 0]) (t idx).

  (** 264-291, 374-409: [V], [KR] and the number of rows of [KR] from the factors
      [m], [m + 1], ... other than [n]; [w] is [None] in parafac. *)
  Fixpoint als_pass (n m : nat) (w : option ten) (ms : list (Z * ten)) (st : option (ten * ten * Z)) : option (ten * ten * Z) :=
    match ms with
    | [] => st
    | (d, F) :: r =>
        als_pass n (S m) w r
          (if Nat.eqb m n then st
           else
             let A_tA := gram d (match w, m with Some w, 0%nat => weigh w F | _, _ => F end) in
             match st with
             | None => Some (A_tA, F, d)
             | Some (V, KR, rows) => Some (hadamard V A_tA, khatri d KR F, rows * d)
             end)
    end.
  Fixpoint put {A} (n : nat) (x : A) (l : list A) : list A :=
    match l, n with
    | [], _ => []
    | _ :: r, 0%nat => x :: r
    | y :: r, S n => y :: put n x r
    end.

  (** [gesv R k V B]: error code and what [B] (k x R) holds afterwards. *)
  Variable gesv : Z -> Z -> ten -> ten -> Z * ten.
  Variables (dims : list Z) (R : Z) (t : ten) (w : option ten).

  (** 348-357: the unfoldings of the weighted tensor replace all but the first. *)
  Definition als_unfolding (n : nat) : ten :=
    match w, n with
    | Some w, S _ => unfolded dims (weigh (fun i => omul (w i) (w i)) t) n
    | _, _ => unfolded dims t n
    end.
  (** 258-301, 365-421: the update of factor [n].  The code drops the error code of
      gesv; it is kept here as a record of what happened.  Without other factors [V] and [KR] are
      default-constructed. *)
  Definition als_update (n : nat) (Fs : list ten) : res (Z * list ten) :=
    match als_pass n 0 w (combine dims Fs) None with
    | None => UB
    | Some (V, KR, rows) =>
        let B := fun ir => zsum rows (fun k => omul (als_unfolding n [nth 0 ir 0; k]) (KR [k; nth 1 ir 0])) in
        let '(info, X) := gesv R (nth n dims 0) V B in
        Ok (info, put n X Fs)
    end.
  (** for_sequence: the updates [n], [n + 1], ... ([k] of them); the list of error codes. *)
  Fixpoint als_sweep (k n : nat) (Fs : list ten) : res (list Z * list ten) :=
    match k with
    | 0%nat => Ok ([], Fs)
    | S k => u <- als_update n Fs ;; r <- als_sweep k (S n) (snd u) ;; Ok (fst u :: fst r, snd r)
    end.
  (** 257-322, 364-440: [fuel] iterations are left; [err] is the relative error
      computed from the reconstruction, [small] the test of its change against the tolerance, [from] the first
      iteration in which it counts (2, with weights 1). *)
  Variables (err : ten -> T) (small : T -> T -> bool) (from : nat).
  Fixpoint als_loop (fuel iter : nat) (prev : T) (Fs : list ten) : res (list Z * list ten) :=
    match fuel with
    | 0%nat => Ok ([], Fs)
    | S fuel =>
        s <- als_sweep (length dims) 0 Fs ;;
        let curr := err (cp_value R (snd s)) in
        if Nat.leb from iter && small curr prev then Ok s
        else r <- als_loop fuel (S iter) curr (snd s) ;; Ok (fst s ++ fst r, snd r)
    end.
End Als.
