(** * M_Einsum: compile-time index analysis and the generic contraction loop.
    Model definitions only.  Files: /repo/src/include/einsums/STL.hpp,
    _TensorAlgebraUtilities.hpp, tensor_algebra_backends/Dispatch.hpp and
    GenericAlgorithm.hpp.  Compile-time index types (einsums::index::i, ...)
    are natural numbers; tuples of them are lists. *)
From Coq Require Import List ZArith Lia Bool.
From Verif Require Import Base Heap Conc M_Addr.
Import ListNotations.
Open Scope Z_scope.

Notation label := nat (only parsing).

(** STL.hpp 228-237 [HasType], 273-281 [contains]. *)
Definition has_type (l : label) (L : list label) : bool := existsb (Nat.eqb l) L.

(** STL.hpp 241-253 [Intersect]: the elements of [S1] (with repetitions) that occur in [S2]. *)
Definition intersect (S1 S2 : list label) : list label := filter (fun l => has_type l S2) S1.

(** STL.hpp 255-268 [Difference]. *)
Definition difference (S1 S2 : list label) : list label := filter (fun l => negb (has_type l S2)) S1.

(** STL.hpp 283-306 [filter], [unique_t], [c_unique_t]: keep first occurrences. *)
Fixpoint filter_unique (out inp : list label) : list label :=
  match inp with
  | [] => out
  | x :: r => if has_type x out then filter_unique out r else filter_unique (out ++ [x]) r
  end.
Definition unique (L : list label) : list label := filter_unique [] L.

(** _TensorAlgebraUtilities.hpp 37-49: all positions (from [pos]) at which [t] occurs in [L]. *)
Fixpoint find_type_pos (t : label) (pos : nat) (L : list label) : list (label * nat) :=
  match L with
  | [] => []
  | h :: r => if Nat.eqb h t then (t, pos) :: find_type_pos t (S pos) r
              else find_type_pos t (S pos) r
  end.
(** 101-109 [find_type_with_position]. *)
Definition find_type_with_position (Ts Us : list label) : list (label * nat) :=
  flat_map (fun t => find_type_pos t 0 Us) Ts.

(** 51-63: first position only.  (No match is a compile error in the code; here no entry.) *)
Definition unique_find_type_with_position (Ts Us : list label) : list (label * nat) :=
  flat_map (fun t => firstn 1 (find_type_pos t 0 Us)) Ts.

(** 76-99 [find_position]; [None] models -1. *)
Fixpoint find_position (t : label) (L : list label) : option nat :=
  match L with
  | [] => None
  | h :: r => if Nat.eqb h t then Some 0%nat
              else match find_position t r with Some p => Some (S p) | None => None end
  end.

(** Tensor.hpp 892-899, 903-909 [dim], [stride] (arguments are valid axes here). *)
Definition tdim (d : desc) (k : nat) : Z := nth k (ddims d) 0.
Definition tstride (d : desc) (k : nat) : Z := nth k (dstrides d) 0.

(** 66-69, 121-124 [get_dim_ranges_for]: the ranges [ints(0, (int)dim)]; only
    their ends are kept. *)
Definition get_dim_ranges_for (d : desc) (ps : list (label * nat)) : list Z :=
  map (fun p => to_int32 (tdim d (snd p))) ps.

(** 214-251 [contiguous_positions]: each position is one less than the next. *)
Fixpoint contiguous_positions (ps : list (label * nat)) : bool :=
  match ps with
  | p :: ((q :: _) as r) => (Z.of_nat (snd p) =? Z.of_nat (snd q) - 1) && contiguous_positions r
  | _ => true
  end.

(** 253-269 [is_same_ordering]: false for empty tuples. *)
Definition is_same_ordering (xs ys : list (label * nat)) : bool :=
  match xs, ys with
  | [], _ | _, [] => false
  | _, _ => if list_eq_dec Nat.eq_dec (map fst xs) (map fst ys) then true else false
  end.

(** 281-326 [same_indices]. *)
Definition same_indices (xs ys : list label) : bool :=
  if list_eq_dec Nat.eq_dec xs ys then true else false.

(** 271-295 [product_dims] of a tensor. *)
Definition product_dims (ps : list (label * nat)) (X : desc) : Z :=
  fold_left (fun acc p => acc * tdim X (snd p)) (rev ps) 1.

(** 308-311 [last_stride] (of a non-empty position list). *)
Definition last_stride (ps : list (label * nat)) (X : desc) : Z :=
  tstride X (snd (last ps (0%nat, 0%nat))).

(** 169-203 [construct_indices_from_unique_combination]: value of one label.
    (A label found in neither list is a compile error; here -1.) *)
Definition construct_index (uniqT : list label) (tcomb : list Z) (uniqL : list label) (lcomb : list Z)
    (l : label) : Z :=
  match find_position l uniqT with
  | Some p => nth p tcomb (-1)
  | None => match find_position l uniqL with
            | Some p => nth p lcomb (-1)
            | None => -1
            end
  end.

(** ** Dispatch.hpp 65-108: index sets of one einsum call *)
Record ein := mkEin { eC : list label; eA : list label; eB : list label }.

Definition linksAB e := intersect (eA e) (eB e).                           (* 66 *)
Definition links e := difference (linksAB e) (eC e).                       (* 68 *)
Definition CminusA e := difference (eC e) (eA e).                          (* 77 *)
Definition CminusB e := difference (eC e) (eB e).                          (* 78 *)
Definition C_unique e := unique (eC e).                                    (* 89 *)
Definition link_unique e := unique (links e).                              (* 90 *)
Definition A_hadamard e := negb (Nat.eqb (length (eA e)) (length (unique (eA e)))).  (* 92 *)
Definition B_hadamard e := negb (Nat.eqb (length (eB e)) (length (unique (eB e)))).  (* 93 *)
Definition C_hadamard e := negb (Nat.eqb (length (eC e)) (length (unique (eC e)))).  (* 94 *)
Definition link_position_in_A e := find_type_with_position (link_unique e) (eA e).   (* 96 *)
Definition link_position_in_B e := find_type_with_position (link_unique e) (eB e).   (* 97 *)
Definition target_position_in_A e := find_type_with_position (C_unique e) (eA e).    (* 100 *)
Definition target_position_in_B e := find_type_with_position (C_unique e) (eB e).    (* 101 *)
Definition A_target_position_in_C e := find_type_with_position (eA e) (eC e).        (* 104 *)
Definition B_target_position_in_C e := find_type_with_position (eB e) (eC e).        (* 105 *)

(** 107 *)
Definition unique_target_dims e (C : desc) : list Z :=
  get_dim_ranges_for C (unique_find_type_with_position (C_unique e) (eC e)).
(** 108 *)
Definition unique_link_dims e (A : desc) : list Z := get_dim_ranges_for A (link_position_in_A e).

(** 129-133 *)
Definition is_gemm_possible e : bool :=
  negb (Nat.eqb (length (CminusA e)) 0) && negb (Nat.eqb (length (CminusB e)) 0) &&
  contiguous_positions (link_position_in_A e) && contiguous_positions (link_position_in_B e) &&
  contiguous_positions (target_position_in_A e) && contiguous_positions (target_position_in_B e) &&
  contiguous_positions (A_target_position_in_C e) && contiguous_positions (B_target_position_in_C e) &&
  is_same_ordering (link_position_in_A e) (link_position_in_B e) &&
  is_same_ordering (target_position_in_A e) (A_target_position_in_C e) &&
  is_same_ordering (target_position_in_B e) (B_target_position_in_C e) &&
  negb (A_hadamard e) && negb (B_hadamard e) && negb (C_hadamard e).
(** 134-137 *)
Definition is_gemv_normal_possible e : bool :=
  contiguous_positions (link_position_in_A e) && contiguous_positions (link_position_in_B e) &&
  contiguous_positions (target_position_in_A e) &&
  is_same_ordering (link_position_in_A e) (link_position_in_B e) &&
  is_same_ordering (target_position_in_A e) (A_target_position_in_C e) &&
  negb (is_same_ordering (target_position_in_B e) (B_target_position_in_C e)) &&
  Nat.eqb (length (B_target_position_in_C e)) 0 &&
  negb (A_hadamard e) && negb (B_hadamard e) && negb (C_hadamard e).
(** 138-141 *)
Definition is_gemv_swap_possible e : bool :=
  contiguous_positions (link_position_in_A e) && contiguous_positions (link_position_in_B e) &&
  contiguous_positions (target_position_in_B e) &&
  is_same_ordering (link_position_in_A e) (link_position_in_B e) &&
  is_same_ordering (target_position_in_A e) (A_target_position_in_C e) &&
  negb (is_same_ordering (target_position_in_B e) (B_target_position_in_C e)) &&
  Nat.eqb (length (A_target_position_in_C e)) 0 &&
  negb (A_hadamard e) && negb (B_hadamard e) && negb (C_hadamard e).
Definition is_gemv_possible e : bool := is_gemv_normal_possible e || is_gemv_swap_possible e.
(** 144-145 *)
Definition element_wise_multiplication e : bool :=
  same_indices (eC e) (eA e) && same_indices (eC e) (eB e) &&
  negb (A_hadamard e) && negb (B_hadamard e) && negb (C_hadamard e).
(** 146-147 *)
Definition dot_product e : bool :=
  Nat.eqb (length (eC e)) 0 && same_indices (eA e) (eB e) &&
  negb (A_hadamard e) && negb (B_hadamard e) && negb (C_hadamard e).
(** 149-150 *)
Definition outer_product e : bool :=
  Nat.eqb (length (linksAB e)) 0 && contiguous_positions (target_position_in_A e) &&
  contiguous_positions (target_position_in_B e) &&
  negb (A_hadamard e) && negb (B_hadamard e) && negb (C_hadamard e).

(** The [static_assert] at _TensorAlgebraUtilities.hpp 180: the call compiles
    only if every label of A and B is a target or a link. *)
Definition compiles e : bool :=
  forallb (fun l => has_type l (C_unique e) || has_type l (link_unique e)) (eA e ++ eB e).

(** Which algorithm a call on dense same-typed tensors uses, Dispatch.hpp
    210-505; [fA fB fC] are [full_view_of_underlying()], [scalarC]: C is a
    plain scalar (not a rank-0 tensor).  The generic fall-back after a failed
    [ger] is part of the outer-product path. *)
Inductive path := PDot | PElementwise | POuter | PGemv | PGemm | PGeneric.
Definition dispatch (e : ein) (scalarC fA fB fC : bool) : path :=
  if dot_product e then PDot                                               (* 215 *)
  else if element_wise_multiplication e then PElementwise                  (* 221 *)
  else if scalarC then PGeneric                                            (* 227 *)
  else if outer_product e then                                             (* 230 *)
    if negb fA || negb fB then PGeneric else POuter
  else if is_gemv_possible e then                                          (* 276 *)
    if negb fC || negb fA || negb fB then PGeneric else PGemv
  else if (Nat.leb 2 (length (eC e))) && (Nat.leb 2 (length (eA e))) && (Nat.leb 2 (length (eB e)))
          && is_gemm_possible e then                                       (* 390-393 *)
    if negb fC || negb fA || negb fB then PGeneric else PGemm
  else PGeneric.

(** ** Generic algorithm, GenericAlgorithm.hpp 17-133 *)
Section Generic.
  Context {O : Ops}.
  Notation T := (car O).
  Variables (e : ein) (cp ab : T) (C A B : desc).

  (** Element addresses for one target/link combination: 48-55, 69-86, 115-125. *)
  Definition ord (L : list label) (tcomb lcomb : list Z) : list Z :=
    map (construct_index (C_unique e) tcomb (link_unique e) lcomb) L.

  (** [sum += AB_prefactor * A_value * B_value], 54-57, 83-87. *)
  Definition generic_step (tcomb : list Z) (s : T) (lcomb : list Z) : prog T T :=
    PRd (subscript A (ord (eA e) tcomb lcomb)) (fun av =>
    PRd (subscript B (ord (eB e) tcomb lcomb)) (fun bv =>
    PRet (oadd s (omul (omul ab av) bv)))).

  (** 45-57, 75-88: the link loop; 122-126: no links. *)
  Definition generic_sum (tcomb : list Z) : prog T T :=
    match unique_link_dims e A with
    | [] => PRd (subscript A (ord (eA e) tcomb [])) (fun av =>
            PRd (subscript B (ord (eB e) tcomb [])) (fun bv =>
            PRet (omul (omul ab av) bv)))
    | dims => pfold (indices dims) (generic_step tcomb) o0
    end.

  (** 59-63, 90-94, 124-128: update of the target through a reference. *)
  Definition generic_store (ca : Z) (sum : T) : prog T unit :=
    let fin := PRd ca (fun v => PWr ca (omul v cp) (PRd ca (fun v' => PWr ca (oadd v' sum) (PRet tt)))) in
    if oeqb cp o0 then PWr ca o0 fin else fin.

  (** One iteration of the parallel loop (or the whole scalar case 42-64, where
      the only target combination is the empty one). *)
  Definition generic_body (tcomb : list Z) : prog T unit :=
    pbind (generic_sum tcomb)
          (fun sum => generic_store (subscript C (ord (eC e) tcomb [])) sum).

  (** Iteration space of the OpenMP loops at 66 and 109 (single iteration for scalar C). *)
  Definition generic_targets : list (list Z) := indices (unique_target_dims e C).
End Generic.

(** An OpenMP parallel-for: [threads] lists the iterations each thread executes, in order. *)
Definition omp_for {T X} (body : X -> prog T unit) (threads : list (list X)) : list (prog T unit) :=
  map (fun r => pseq r body) threads.
