(** * M_Create: functions that make new tensors with given contents, and the
      domain of a set of points.  Model definitions only.

    U  = /repo/src/include/einsums/Utilities.hpp,
    PU = /repo/src/include/einsums/polynomial/Utilities.hpp.

    Names, timers and the device versions are omitted.  The buffer of the
    result starts at the fresh address [base]. *)
From Coq Require Import List ZArith Lia Bool.
From Verif Require Import Base Heap Conc M_Addr M_Elt M_Einsum M_Blas M_Lapack M_Trunc.
Import ListNotations.
Open Scope Z_scope.

Section Create.
  Context {O : Ops}.
  Notation T := (car O).

  (** U 117-138: the elements are visited in row-major order; [step] is 1, or
      1 + i for complex elements. *)
  Definition create_incremented (step : T) (base : Z) (dims : list Z) (h : heap T) : res (desc * heap T) :=
    let A := tensor_ctor base dims in
    r <- forM (indices (map to_int32 dims))
           (fun it s => h' <- wr (snd s) (subscript A it) (fst s) ;; Ok (oadd (fst s) step, h'))
           (o0, alloc_buffer o0 base (data_size dims) h) ;;
    Ok (A, snd r).

  (** U 419-431: the loop runs to the first extent. *)
  Definition create_identity (base : Z) (dims : list Z) (h : heap T) : res (desc * heap T) :=
    let A := tensor_ctor base dims in
    h1 <- set_all base (data_size dims) o0 (alloc_buffer o0 base (data_size dims) h) ;;
    h2 <- forM (zrange (nth 0 dims 0)) (fun k h => wr h (subscript A (repeat k (length dims))) o1) h1 ;;
    Ok (A, h2).

  (** U 450-457. *)
  Definition create_ones (base : Z) (dims : list Z) (h : heap T) : res (desc * heap T) :=
    h1 <- set_all base (data_size dims) o1 (alloc_buffer o0 base (data_size dims) h) ;;
    Ok (tensor_ctor base dims, h1).

  (** U 385-387 and 395-397. *)
  Definition put_diagonal (v result : desc) (h : heap T) : res (heap T) :=
    forM (zrange (tdim v 0)) (fun i h => x <- rd h (subscript v [i]) ;; wr h (subscript result [i; i]) x) h.
  (** U 381-389. *)
  Definition create_diagonal (v : desc) (base : Z) (h : heap T) : res (desc * heap T) :=
    let n := tdim v 0 in
    h1 <- set_all base (data_size [n; n]) o0 (alloc_buffer o0 base (data_size [n; n]) h) ;;
    h2 <- put_diagonal v (tensor_ctor base [n; n]) h1 ;;
    Ok (tensor_ctor base [n; n], h2).
  (** U 391-399; [create_tensor_like] (U 561-565) makes a tensor with the extents of [like]. *)
  Definition create_diagonal_like (v like : desc) (base : Z) (h : heap T) : res (desc * heap T) :=
    let dims := ddims like in
    h1 <- set_all base (data_size dims) o0 (alloc_buffer o0 base (data_size dims) h) ;;
    h2 <- put_diagonal v (tensor_ctor base dims) h1 ;;
    Ok (tensor_ctor base dims, h2).

  (** ** Random symmetric matrices.
      The random engine is not modelled here: [rnd j] are the contents of the
      matrix made by the [j]-th call of create_random_tensor, [nrm] the
      successive results of [normal(engine)]; [sqrt] is std::sqrt; [neg] says
      whether [mean < 0].  A loop that has not ended after [fuel] turns gives
      [None]. *)

  (** U 254-257, 323-326: draw until [getrf] finds no zero pivot.  Temp is the
      copy of Evecs that [getrf] overwrites. *)
  Fixpoint draw_regular (fuel : nat) (L : lapack) (rnd : nat -> Z -> T) (j : nat) (n base : Z) (h : heap T)
      : option (res (heap T)) :=
    match fuel with
    | 0%nat => None
    | S f =>
        let h1 := alloc_with (rnd j) (base + n * n) (n * n) (alloc_with (rnd j) base (n * n) h) in
        match la_getrf L (tensor_ctor (base + n * n) [n; n]) h1 with
        | Ok (r, _, h2) => if 0 <? r then draw_regular f L rnd (S j) n base h2 else Some (Ok h2)
        | Throw => Some Throw
        | UB => Some UB
        end
    end.

  (** U 274-279, 345-350: the eigenvalue made from the draws [p], [p+1], [p+2]. *)
  Definition draw_value (sqrt : T -> T) (neg : bool) (nrm : nat -> T) (p : nat) : T :=
    let v1 := nrm p in let v2 := nrm (p + 1)%nat in let v3 := nrm (p + 2)%nat in
    let e := sqrt (oadd (oadd (omul v1 v1) (omul v2 v2)) (omul v3 v3)) in
    if neg then oopp e else e.

  (** U 273-280: repeated while the value is zero. *)
  Fixpoint draw_nonzero (fuel : nat) (sqrt : T -> T) (neg : bool) (nrm : nat -> T) (p : nat) : option (T * nat) :=
    match fuel with
    | 0%nat => None
    | S f => let e := draw_value sqrt neg nrm p in
             if oeqb e o0 then draw_nonzero f sqrt neg nrm (p + 3) else Some (e, (p + 3)%nat)
    end.
  (** U 271-281. *)
  Fixpoint draw_definite (k fuel : nat) (sqrt : T -> T) (neg : bool) (nrm : nat -> T) (p : nat) : option (list T) :=
    match k with
    | 0%nat => Some []
    | S k' => match draw_nonzero fuel sqrt neg nrm p with
              | None => None
              | Some (e, p') => match draw_definite k' fuel sqrt neg nrm p' with
                                | None => None
                                | Some r => Some (e :: r)
                                end
              end
    end.
  (** U 340-352: [i] is the number of the eigenvalue. *)
  Fixpoint draw_semidefinite (k : nat) (i zeros : Z) (sqrt : T -> T) (neg : bool) (nrm : nat -> T) (p : nat) : list T :=
    match k with
    | 0%nat => []
    | S k' => if i <? zeros then o0 :: draw_semidefinite k' (i + 1) zeros sqrt neg nrm p
              else draw_value sqrt neg nrm p :: draw_semidefinite k' (i + 1) zeros sqrt neg nrm (p + 3)
    end.

  (** U 260-262, 284-289 (329-331, 355-360): QR of Evecs, Q in its place (here:
      the tensor returned by q), the diagonal matrix of the eigenvalues, and
      the two products, the first into Temp, the second over the diagonal
      matrix.  Buffers from [base]: Evecs, Temp, the copy and tau of qr, the
      result of q, Evals, the result. *)
  Definition assemble (L : lapack) (n : Z) (ev : list T) (base : Z) (h : heap T) : res (desc * heap T) :=
    let Evecs0 := tensor_ctor base [n; n] in let Temp := tensor_ctor (base + n * n) [n; n] in
    let pq := base + 2 * (n * n) in let pv := pq + n * n + n in let pe := pv + n * n in let pd := pe + n in
    r1 <- la_qr L Evecs0 pq h ;;
    let '(F, tau, h1) := r1 in
    r2 <- la_q L F tau pv h1 ;;
    let '(Evecs, h2) := r2 in
    let Evals := tensor_ctor pe [n] in
    h3 <- forM (zrange n) (fun i h => wr h (subscript Evals [i]) (nth (Z.to_nat i) ev o0)) (alloc_buffer o0 pe n h2) ;;
    r4 <- create_diagonal Evals pd h3 ;;
    let '(ret, h4) := r4 in
    h5 <- la_gemm false false o1 ret Evecs o0 Temp h4 ;;
    h6 <- la_gemm true false o1 Evecs Temp o0 ret h5 ;;
    Ok (ret, h6).

  (** U 244-292. *)
  Definition create_definite (fuel : nat) (L : lapack) (sqrt : T -> T) (neg : bool) (rnd : nat -> Z -> T) (nrm : nat -> T)
      (rows cols base : Z) (h : heap T) : option (res (desc * heap T)) :=
    if negb (rows =? cols) then Some Throw
    else match draw_regular fuel L rnd 0 rows base h with
         | None => None
         | Some r => match draw_definite (Z.to_nat rows) fuel sqrt neg nrm 0 with
                     | None => None
                     | Some ev => Some (h1 <- r ;; assemble L rows ev base h1)
                     end
         end.
  (** U 313-363. *)
  Definition create_semidefinite (fuel : nat) (L : lapack) (sqrt : T -> T) (neg : bool) (rnd : nat -> Z -> T) (nrm : nat -> T)
      (rows cols zeros base : Z) (h : heap T) : option (res (desc * heap T)) :=
    if negb (rows =? cols) then Some Throw
    else match draw_regular fuel L rnd 0 rows base h with
         | None => None
         | Some r => Some (h1 <- r ;; assemble L rows (draw_semidefinite (Z.to_nat rows) 0 zeros sqrt neg nrm 0) base h1)
         end.
End Create.

(** ** Random contents *)

(** Memory holding engine states next to elements. *)
Section Random.
  Context {S T : Type}.

  (** One element: [calls] calls of the engine (each reads the shared state and
      stores its successor), then the store of the element.  [out] makes the
      element from the states in the order of the calls (for double and the
      default engine: two calls; complex: twice as many).  [seen] are the
      states so far, latest first.  A state is read and written as a whole
      (data races are undefined in C++; this is the mildest reading). *)
  Fixpoint draw (next : S -> S) (out : list S -> T) (re : Z) (calls : nat) (seen : list S) (a : Z) : prog (S + T) unit :=
    match calls with
    | 0%nat => PWr a (inr (out (rev seen))) (PRet tt)
    | Datatypes.S c => PRd re (fun x => match x with
                                        | inl s => PWr re (inl (next s)) (draw next out re c (next s :: seen) a)
                                        | inr _ => PRet tt
                                        end)
    end.

  (** U 166-196: every thread of the team runs [std::generate] over the whole
      buffer ([begin] and [end] of its chunk are computed and not used); the
      engine at [re] is shared. *)
  Definition random_fill (next : S -> S) (out : list S -> T) (calls : nat) (re base n : Z) (nt : nat)
      : list (prog (S + T) unit) :=
    repeat (pseq (zrange n) (fun i => draw next out re calls [] (base + i))) nt.

  (** U 157-164: the new tensor (value-initialised) and the new engine with the
      default seed. *)
  Definition random_start (zero : T) (seed : S) (re base n : Z) (h : heap (S + T)) : heap (S + T) :=
    upd (alloc_buffer (inr zero) base n h) re (inl seed).
End Random.

(** ** The domain of a set of points *)
Section Domain.
  Context {T : Type}.

  (** PU 40-53: the share of one thread; [p] is (local_min, local_max).  Reading
      x needs no schedule: nobody writes it. *)
  Definition domain_local (ltb : T -> T -> bool) (h : heap T) (x : desc) (part : list Z) : res (T * T) :=
    x0 <- rd h (subscript x [0]) ;;
    forM part (fun i p => v <- rd h (subscript x [i]) ;;
                 let '(lo, hi) := p in
                 Ok (if ltb v lo then v else lo, if ltb hi v then v else hi)) (x0, x0).
  (** PU 56-65: the critical section. *)
  Definition domain_merge (ltb : T -> T -> bool) (g l : T * T) : T * T :=
    (if ltb (fst l) (fst g) then fst l else fst g, if ltb (snd g) (snd l) then snd l else snd g).
  (** PU 19-80, real elements.  [parts]: the iterations of each thread, in the
      order in which the threads enter the critical section.  The result is the
      pair stored into the new tensor (the imaginary parts are all zero). *)
  Definition get_domain (ltb : T -> T -> bool) (h : heap T) (x : desc) (parts : list (list Z)) : res (T * T) :=
    x0 <- rd h (subscript x [0]) ;;
    forM parts (fun part g => l <- domain_local ltb h x part ;; Ok (domain_merge ltb g l)) (x0, x0).
End Domain.
