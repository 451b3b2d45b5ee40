(** * M_Tucker: the starting factors of the CANDECOMP/PARAFAC and Tucker
    decompositions and the iteration of tucker_ho_oi.  Model definitions only.
    File: /repo/src/include/einsums/Decomposition.hpp.  As in M_Als, tensors are values
    here (their elements as a function of the index; the extents are kept apart) and every library
    call is replaced by the value its own property gives it: einsum (C47), sort (C18), unfold (C39),
    scale_column (C22), rmsd (C70).  The singular vectors and eigenvectors are computed by functions
    given as arguments. *)
From Coq Require Import List ZArith Lia Bool.
From Verif Require Import Base Heap M_Addr M_Elt S_Fold S_Decomp M_Als.
Import ListNotations.
Open Scope Z_scope.

Section Tucker.
  Context {O : Ops}.
  Notation T := (car O).
  Notation ten := (list Z -> car O).

  (** 566-586 (623-645): one pass of the compile-time loop, position [j] of
      extent [d] is contracted with the rows of [F]. *)
  Definition mode_pass (j : nat) (d : Z) (F t : ten) : ten := fun idx =>
    zsum d (fun s => omul (t (set_at j s idx)) (F [s; nth j idx 0])).
  (** The passes for the positions [j], [j + 1], ...; [tucker_ho_oi] leaves out
      position [skip] (624: [if (j != i)]). *)
  Fixpoint passes (skip : option nat) (j : nat) (ds : list Z) (Fs : list ten) (t : ten) : ten :=
    match ds, Fs with
    | d :: ds, F :: Fs =>
        passes skip (S j) ds Fs (if match skip with Some n => Nat.eqb j n | None => false end then t else mode_pass j d F t)
    | _, _ => t
    end.

  (** [svd m n A]: the left singular vectors of the [m] x [n] matrix A, from
      [linear_algebra::svd_dd] (C61), which ends the program ([Throw]) when it fails. *)
  Variable svd : Z -> Z -> ten -> res ten.
  Variables (dims ranks : list Z) (t : ten).

  (** 494-519 [initialize_tucker]: factor [i] is the first [ranks[i]] columns;
      more columns than there are: the view reaches past the end of U.  A fold is given by its number of
      columns and its elements; its number of rows is the extent of the tensor (simplification:
      folds with other row counts are left out).  Entries missing from [ranks] or [folds] are read
      outside the vectors. *)
  Fixpoint init_tucker (ds rs : list Z) (folds : list (Z * ten)) : res (list ten) :=
    match ds, rs, folds with
    | [], _, _ => Ok []
    | d :: ds, r :: rs, (c, f) :: folds =>
        U <- svd d c f ;;
        if d <? r then UB else Fs <- init_tucker ds rs folds ;; Ok (U :: Fs)
    | _, _, _ => UB
    end.
  (** 540-544: the unfoldings of the tensor itself. *)
  Definition own_folds : list (Z * ten) :=
    map (fun n => (zprod (without n dims), unfolded dims t n)) (seq 0 (length dims)).
  (** 528-596 [tucker_ho_svd]: core and factors; [folds] empty: the tensor's own. *)
  Definition ho_svd (folds : list (Z * ten)) : res (ten * list ten) :=
    Fs <- init_tucker dims ranks (match folds with [] => own_folds | _ => folds end) ;;
    Ok (passes None 0 dims Fs t, Fs).
  (** 612-654: the unfoldings of the tensor contracted with all factors but one;
      with one position nothing is contracted and the last buffer is not initialised. *)
  Definition new_folds (Fs : list ten) : res (list (Z * ten)) :=
    if Nat.leb (length dims) 1 then UB
    else Ok (map (fun n => (zprod (without n ranks), unfolded ranks (passes (Some n) 0 dims Fs t) n)) (seq 0 (length dims))).

  (** 661-663: the largest of the differences.  [sq] is the square root, [num n]
      the element equal to [n]; [std::max(a, b)] is [b] only if [a < b]. *)
  Variables (sq : T -> T) (num : Z -> T) (lt : T -> T -> bool) (tolerance : T).
  Definition rms (ds : list Z) (A B : ten) : T :=
    sq (odiv (lsum (indices ds) (fun i => omul (osub (A i) (B i)) (osub (A i) (B i)))) (num (zprod ds))).
  Fixpoint rms_max (m : T) (ds rs : list Z) (Fs' Fs : list ten) : T :=
    match ds, rs, Fs', Fs with
    | d :: ds, r :: rs, F' :: Fs', F :: Fs =>
        let e := rms [d; r] F' F in rms_max (if lt m e then e else m) ds rs Fs' Fs
    | _, _, _, _ => m
    end.
  (** 606-678: [fuel] iterations are left; the flag is false when the warning is
      printed. *)
  Fixpoint ho_oi_loop (fuel : nat) (G : ten) (Fs : list ten) : res (bool * ten * list ten) :=
    match fuel with
    | 0%nat => Ok (false, G, Fs)
    | S fuel =>
        folds <- new_folds Fs ;;
        s <- ho_svd folds ;;
        if lt (rms_max (rms ranks (fst s) G) dims ranks (snd s) Fs) tolerance then Ok (true, fst s, snd s)
        else ho_oi_loop fuel (fst s) (snd s)
    end.
  (** 596-681 [tucker_ho_oi] *)
  Definition ho_oi (n_iter_max : Z) : res (bool * ten * list ten) :=
    s <- ho_svd [] ;; ho_oi_loop (Z.to_nat n_iter_max) (fst s) (snd s).
End Tucker.

Section InitCp.
  Context {O : Ops}.
  Notation T := (car O).
  Notation ten := (list Z -> car O).

  (** [syev n A]: the matrix with the eigenvectors in its rows and the
      eigenvalues (C58). *)
  Variable syev : Z -> ten -> ten * (Z -> T).
  (** [sq]: square root; [tiny x]: not [abs(x) > 1e-14]; [rnd i]: the elements of
      the random matrix of factor [i]. *)
  Variables (sq : T -> T) (tiny : T -> bool) (rnd : nat -> ten).

  (** 185-231, one pass: the fold has [m] rows and [c] columns. *)
  Definition cp_guess (i : nat) (rank m c : Z) (fold : ten) : ten :=
    let fold_squared := fun ij => zsum c (fun p => omul (fold [nth 0 ij 0; p]) (fold [nth 1 ij 0; p])) in
    let (E, w) := syev m fold_squared in
    let U := fun ij => E [nth 1 ij 0; nth 0 ij 0] in
    let U' := fun ij => if Nat.eqb i 0 && negb (tiny (sq (w (nth 1 ij 0)))) then omul (sq (w (nth 1 ij 0))) (U ij) else U ij in
    if m <? rank then fun ij => if nth 1 ij 0 <? m then U' ij else rnd i ij
    else fun ij => U' [nth 0 ij 0; nth 1 ij 0 + (m - rank)].
  (** 180-235 [initialize_cp], with the unfoldings of a tensor (249, 340). *)
  Definition init_cp (dims : list Z) (t : ten) (rank : Z) : list ten :=
    map (fun n => cp_guess n rank (nth n dims 0) (zprod (without n dims)) (unfolded dims t n)) (seq 0 (length dims)).
End InitCp.
