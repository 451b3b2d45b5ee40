(** * M_Dispatch: the algorithms an einsum call on dense tensors can use.
    Model definitions only.  Lines refer to
    /repo/src/include/einsums/tensor_algebra_backends/Dispatch.hpp.

    A call is modelled as a sequential part (ending in a memory) followed by
    one OpenMP loop (body and iteration space; empty for the BLAS paths). *)
From Coq Require Import List ZArith Lia Bool.
From Verif Require Import Base Heap Conc M_Addr M_Einsum M_Blas.
Import ListNotations.
Open Scope Z_scope.

(** [std::get<1>(positions)]: the first position. *)
Definition first_pos (ps : list (nat * nat)) : nat := snd (hd (0%nat, 0%nat) ps).

(** [to_rank_1_view()]: Tensor.hpp 913-918 for a Tensor, 1304-1320 for a view
    ([isview]). *)
Definition rank_1_view (isview : bool) (d : desc) : res desc :=
  if isview then view_to_rank_1 d else tensor_to_rank_1 d.

Section Dispatch.
  Context {O : Ops}.
  Notation T := (car O).

  Definition plan : Type := heap T * (list Z -> prog T unit) * list (list Z).
  Definition done (h : heap T) : plan := (h, fun _ => PRet tt, []).

  (** 216-220; C is a scalar (or rank-0 tensor) at [dbase C]. *)
  Definition einsum_dot (cp ab : T) (C A B : desc) (fA fB : bool) (h : heap T) : res (heap T) :=
    temp <- la_dot fA fB A B h ;;
    exec (PRd (dbase C) (fun v => PWr (dbase C) (omul v cp)
            (PRd (dbase C) (fun w => PWr (dbase C) (oadd w (omul ab temp)) (PRet tt))))) h.

  (** 231-274; [vA vB]: the operand is a TensorView.  Only the exception of
      [ger] is caught (258); the ones of the view constructors are not
      [std::runtime_error]s. *)
  Definition einsum_outer (e : ein) (cp ab : T) (C A B : desc) (vA vB : bool) (h : heap T) : res plan :=
    let swap_AB := negb (Nat.eqb (first_pos (A_target_position_in_C e)) 0) in
    let dC0 := product_dims (A_target_position_in_C e) C in
    let dC1 := product_dims (B_target_position_in_C e) C in
    tC <- view_ctor C (if swap_AB then [dC1; dC0] else [dC0; dC1]) None None ;;
    h1 <- (if oeqb cp o1 then Ok h else la_scale cp C h) ;;
    rA <- rank_1_view vA A ;;
    rB <- rank_1_view vB B ;;
    match (if swap_AB then la_ger ab rB rA tC h1 else la_ger ab rA rB tC h1) with
    | Ok h2 => Ok (done h2)
    | UB => UB
    | Throw =>
        h2 <- (if oeqb cp o0 then Ok h1 else la_scale (odiv o1 cp) C h1) ;;
        Ok (h2, generic_body e cp ab C A B, generic_targets e C)
    end.

  (** [TensorView{X, dims, strides}] as used for the BLAS operands. *)
  Definition sview (X : desc) (dims strides : list Z) : res desc := view_ctor X dims None (Some strides).

  (** 282-334; the swapped form (336-386) is modelled below. *)
  Definition einsum_gemv_normal (e : ein) (cp ab : T) (C A B : desc) (h : heap T) : res (heap T) :=
    let transpose_A := Nat.eqb (first_pos (link_position_in_A e)) 0 in
    let d0 := product_dims (A_target_position_in_C e) C in
    let d1 := product_dims (link_position_in_A e) A in
    let s0 := last_stride (target_position_in_A e) A in
    let s1 := last_stride (link_position_in_A e) A in
    tA <- sview A (if transpose_A then [d1; d0] else [d0; d1]) (if transpose_A then [s1; s0] else [s0; s1]) ;;
    tB <- sview B [product_dims (link_position_in_B e) B] [last_stride (link_position_in_B e) B] ;;
    tC <- sview C [product_dims (A_target_position_in_C e) C] [last_stride (A_target_position_in_C e) C] ;;
    la_gemv transpose_A ab tA tB cp tC h.
  Definition einsum_gemv_swap (e : ein) (cp ab : T) (C A B : desc) (h : heap T) : res (heap T) :=
    let transpose_B := Nat.eqb (first_pos (link_position_in_B e)) 0 in
    let d0 := product_dims (B_target_position_in_C e) C in
    let d1 := product_dims (link_position_in_B e) B in
    let s0 := last_stride (target_position_in_B e) B in
    let s1 := last_stride (link_position_in_B e) B in
    tB <- sview B (if transpose_B then [d1; d0] else [d0; d1]) (if transpose_B then [s1; s0] else [s0; s1]) ;;
    tA <- sview A [product_dims (link_position_in_A e) A] [last_stride (link_position_in_A e) A] ;;
    tC <- sview C [product_dims (B_target_position_in_C e) C] [last_stride (B_target_position_in_C e) C] ;;
    la_gemv transpose_B ab tB tA cp tC h.
  Definition einsum_gemv (e : ein) (cp ab : T) (C A B : desc) (h : heap T) : res (heap T) :=
    if is_gemv_normal_possible e then einsum_gemv_normal e cp ab C A B h
    else einsum_gemv_swap e cp ab C A B h.

  (** 398-487 *)
  Definition einsum_gemm (e : ein) (cp ab : T) (C A B : desc) (h : heap T) : res (heap T) :=
    let transpose_A := Nat.eqb (first_pos (link_position_in_A e)) 0 in
    let transpose_B := negb (Nat.eqb (first_pos (link_position_in_B e)) 0) in
    let transpose_C := negb (Nat.eqb (first_pos (A_target_position_in_C e)) 0) in
    let dA0 := product_dims (A_target_position_in_C e) C in
    let dA1 := product_dims (link_position_in_A e) A in
    let sA0 := last_stride (target_position_in_A e) A in
    let sA1 := last_stride (link_position_in_A e) A in
    let dB0 := product_dims (link_position_in_B e) B in
    let dB1 := product_dims (B_target_position_in_C e) C in
    let sB0 := last_stride (link_position_in_B e) B in
    let sB1 := last_stride (target_position_in_B e) B in
    let dC0 := product_dims (A_target_position_in_C e) C in
    let dC1 := product_dims (B_target_position_in_C e) C in
    let sC0 := last_stride (A_target_position_in_C e) C in
    let sC1 := last_stride (B_target_position_in_C e) C in
    tA <- sview A (if transpose_A then [dA1; dA0] else [dA0; dA1]) (if transpose_A then [sA1; sA0] else [sA0; sA1]) ;;
    tB <- sview B (if transpose_B then [dB1; dB0] else [dB0; dB1]) (if transpose_B then [sB1; sB0] else [sB0; sB1]) ;;
    tC <- sview C (if transpose_C then [dC1; dC0] else [dC0; dC1]) (if transpose_C then [sC1; sC0] else [sC0; sC1]) ;;
    if negb transpose_C && negb transpose_A && negb transpose_B then la_gemm false false ab tA tB cp tC h
    else if negb transpose_C && negb transpose_A then la_gemm false true ab tA tB cp tC h
    else if negb transpose_C && negb transpose_B then la_gemm true false ab tA tB cp tC h
    else if negb transpose_C then la_gemm true true ab tA tB cp tC h
    else if negb transpose_A && negb transpose_B then la_gemm true true ab tB tA cp tC h
    else if negb transpose_A && transpose_B then la_gemm false true ab tB tA cp tC h
    else if transpose_A && negb transpose_B then la_gemm true false ab tB tA cp tC h
    else la_gemm false false ab tB tA cp tC h.

  (** 210-505: the whole call.  [scalarC]: C is a plain scalar; [fA fB fC]:
      [full_view_of_underlying()]; [vA vB]: the operand is a TensorView. *)
  Definition einsum (e : ein) (scalarC fA fB fC vA vB : bool) (cp : T) (C : desc) (ab : T) (A B : desc)
      (h : heap T) : res plan :=
    match dispatch e scalarC fA fB fC with
    | PDot => h' <- einsum_dot cp ab C A B fA fB h ;; Ok (done h')
    | PElementwise => r <- la_direct_product ab A B cp C h ;; Ok (fst r, snd r, indices (map to_int32 (ddims C)))
    | POuter => einsum_outer e cp ab C A B vA vB h
    | PGemv => h' <- einsum_gemv e cp ab C A B h ;; Ok (done h')
    | PGemm => h' <- einsum_gemm e cp ab C A B h ;; Ok (done h')
    | PGeneric => Ok (h, generic_body e cp ab C A B, generic_targets e C)
    end.
End Dispatch.
