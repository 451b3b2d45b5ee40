(** * M_Decomp: CANDECOMP/PARAFAC and Tucker decompositions: norms, weights,
    reconstruction and projection.  Model definitions only.
    File: /repo/src/include/einsums/Decomposition.hpp.  The iterations of parafac and
    weighted_parafac are in M_Als, the starting guesses and the iteration of tucker_ho_oi in
    M_Tucker. *)
From Coq Require Import List ZArith Lia Bool.
From Verif Require Import Base Heap Conc M_Addr M_Elt M_Einsum M_Red.
Import ListNotations.
Open Scope Z_scope.

(** 22-43 [validate_cp_rank]: both sums run in an [int].  The quotient of two
    integers and its rounding are exact here (the code uses [double]); the
    conversion of NaN to [int] is undefined. *)
Inductive rounding := RCeil | RFloor | RRound | ROther.
Definition cp_rank (shape : list Z) (r : rounding) : res Z :=
  let prod := fold_left (fun acc d => to_int32 (acc * d)) shape 1 in
  let sum := fold_left (fun acc d => to_int32 (acc + d)) shape 0 in
  match r with
  | ROther => Throw
  | _ => if sum =? 0 then UB
         else Ok (match r with
                  | RFloor => prod / sum
                  | RCeil => - ((- prod) / sum)
                  | _ => if 0 <=? prod * sum then (2 * Z.abs prod + Z.abs sum) / (2 * Z.abs sum)
                         else - ((2 * Z.abs prod + Z.abs sum) / (2 * Z.abs sum))
                  end)
  end.

Section Decomp.
  Context {O : Ops}.
  Notation T := (car O).

  (** 48-64 [norm]; [sq] is the square root. *)
  Definition dnorm (sq : T -> T) (d : desc) (h : heap T) : res T :=
    v <- forM (indices (ddims d)) (fun idx acc => x <- tget h d idx ;; Ok (oadd acc (omul x x))) o0 ;; Ok (sq v).

  (** 69-98 [rmsd]: [parts] lists the iterations of each thread; [num n] is the
      element equal to the integer [n]. *)
  Definition rmsd_part (A B : desc) (h : heap T) (part : list (list Z)) : res T :=
    forM part (fun idx acc => x <- tget h A idx ;; y <- tget h B idx ;;
                              Ok (oadd acc (omul (osub x y) (osub x y)))) o0.
  Definition rmsd (sq : T -> T) (num : Z -> T) (A B : desc) (parts : list (list (list Z))) (h : heap T) : res T :=
    diff <- forM parts (fun part out => s <- rmsd_part A B h part ;; Ok (oadd out s)) o0 ;;
    Ok (sq (odiv diff (num (zprod (ddims A))))).

  (** [Tensor(dims)]: the vector of elements at the place the allocator [pl]
      chooses, zero ([std::bad_alloc] when it finds none); [delete]: freeing what is not
      allocated is undefined. *)
  Definition new_tensor (pl : heap T -> Z -> option Z) (dims : list Z) (h : heap T) : res (desc * heap T) :=
    match pl h (data_size dims) with
    | Some p => Ok (tensor_ctor p dims, alloc_buffer o0 p (data_size dims) h)
    | None => Throw
    end.
  Definition delete (d : desc) (h : heap T) : res (heap T) :=
    forM (zrange (data_size (ddims d))) (fun k h =>
      match h (dbase d + k) with
      | Some _ => Ok (fun a => if a =? dbase d + k then None else h a)
      | None => UB
      end) h.
  (** [*p = tensor], [Tensor x = *p] *)
  Definition copy_into (dst src : desc) (h : heap T) : res (heap T) :=
    forM (indices (ddims src)) (fun idx h => v <- tget h src idx ;; tset h dst idx v) h.

  (** 103-134 [weight_tensor]: [println_abort] ends the program (here [Throw]). *)
  Definition weight_body (src w out : desc) (idx : list Z) : prog T unit :=
    PRd (subscript src idx) (fun s => PRd (subscript w [nth 0 idx 0]) (fun v => pwrite (subscript out idx) (omul v s))).
  Definition weight_tensor (pl : heap T -> Z -> option Z) (src w : desc) (parts : list (list (list Z))) (h : heap T)
    : res (desc * heap T * list (prog T unit)) :=
    if negb (tdim src 0 =? tdim w 0) then Throw
    else r <- new_tensor pl (ddims src) h ;;
         Ok (fst r, snd r, map (fun part => pseq part (weight_body src w (fst r))) parts).

  (** 147-155: extents and rank from the factors; [dims] has [TRank] entries. *)
  Definition cp_dims (factors : list desc) : list Z := map (fun f => tdim f 0) factors.
  Definition cp_rank_of (factors : list desc) : Z :=
    fold_left (fun rank f => if rank =? 0 then tdim f 1 else rank) factors 0.
  (** 164-174: one iteration; [temp *= factors[n](idx[n], r)]. *)
  Fixpoint cp_term (factors : list desc) (idx : list Z) (r : Z) (temp : T) (k : T -> prog T unit) : prog T unit :=
    match factors, idx with
    | f :: fs, i :: is => PRd (subscript f [i; r]) (fun v => cp_term fs is r (omul temp v) k)
    | _, _ => k temp
    end.
  Definition cp_body (factors : list desc) (rank : Z) (out : desc) (idx : list Z) : prog T unit :=
    pseq (zrange rank) (fun r =>
      cp_term factors idx r o1 (fun temp =>
        PRd (subscript out idx) (fun t => pwrite (subscript out idx) (oadd t temp)))).
  (** 141-178 [parafac_reconstruct<TRank>]: a number of factors other than [TRank]
      leaves extents undefined or writes past them. *)
  Definition parafac_reconstruct (TRank : nat) (pl : heap T -> Z -> option Z) (factors : list desc)
      (parts : list (list (list Z))) (h : heap T) : res (desc * heap T * list (prog T unit)) :=
    if negb (Nat.eqb (length factors) TRank) then UB
    else r <- new_tensor pl (cp_dims factors) h ;;
         Ok (fst r, snd r, map (fun part => pseq part (cp_body factors (cp_rank_of factors) (fst r))) parts).

  (** 463-482 ([tr] false), 566-586 ([tr] true): one pass of the compile-time
      loop: the new buffer has extent [ext] at position [i]; delete the old one. *)
  Definition mode_loop (tr : bool) (i : nat) (ext : Z) (F old new : desc) (h : heap T) : res (heap T) :=
    forM (indices (ddims old)) (fun src h =>
      forM (zrange ext) (fun n h =>
        let target := set_at i n src in
        s <- tget h old src ;; t <- tget h new target ;;
        f <- tget h F (if tr then [nth i src 0; n] else [n; nth i src 0]) ;;
        tset h new target (oadd t (omul s f))) h) h.
  Definition mode_step (tr : bool) (pl : heap T -> Z -> option Z) (i : nat) (ext : Z) (F old : desc) (h : heap T)
    : res (desc * heap T) :=
    r <- new_tensor pl (set_at i ext (ddims old)) h ;;
    h2 <- mode_loop tr i ext F old (fst r) (snd r) ;;
    h3 <- delete old h2 ;;
    Ok (fst r, h3).
  (** The loop over the positions [i], [i + 1], ... *)
  Fixpoint modes (tr : bool) (pl : heap T -> Z -> option Z) (i : nat) (Fs : list (desc * Z)) (old : desc) (h : heap T)
    : res (desc * heap T) :=
    match Fs with
    | [] => Ok (old, h)
    | (F, ext) :: r => s <- mode_step tr pl i ext F old h ;; modes tr pl (S i) r (fst s) (snd s)
    end.
  (** 452-461 and 485-489 (548-558 and 588-592): copy of the argument, the passes,
      copy of the last buffer.  Without a pass the last buffer is not initialised. *)
  Definition all_modes (tr : bool) (pl : heap T -> Z -> option Z) (g : desc) (Fs : list (desc * Z)) (h : heap T)
    : res (desc * heap T) :=
    match Fs with
    | [] => UB
    | _ =>
      r <- new_tensor pl (ddims g) h ;;
      h2 <- copy_into (fst r) g (snd r) ;;
      s <- modes tr pl 0 Fs (fst r) h2 ;;
      t <- new_tensor pl (ddims (fst s)) (snd s) ;;
      h3 <- copy_into (fst t) (fst s) (snd t) ;;
      h4 <- delete (fst s) h3 ;;
      Ok (fst t, h4)
    end.
  (** 449-492 [tucker_reconstruct]; [factors] has at least as many entries as the
      rank (otherwise undefined), further entries are not used. *)
  Definition tucker_reconstruct (pl : heap T -> Z -> option Z) (g : desc) (factors : list desc) (h : heap T)
    : res (desc * heap T) :=
    if Nat.ltb (length factors) (length (ddims g)) then UB
    else all_modes false pl g (map (fun F => (F, tdim F 0)) (firstn (length (ddims g)) factors)) h.
  (** 546-592: the core tensor of [tucker_ho_svd], given its factors. *)
  Definition tucker_core (pl : heap T -> Z -> option Z) (t : desc) (ranks : list Z) (factors : list desc) (h : heap T)
    : res (desc * heap T) :=
    if Nat.ltb (length factors) (length (ddims t)) || Nat.ltb (length ranks) (length (ddims t)) then UB
    else all_modes true pl t (firstn (length (ddims t)) (combine factors ranks)) h.
End Decomp.
