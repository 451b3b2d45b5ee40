(** * M_PyEinsum: the einsum plans of the Python module (CPU buffers).
    Model definitions only.  "cpp" is /repo/src/python/PyTensorAlgebra.cpp,
    "hpp" is /repo/src/include/einsums/python/PyTensorAlgebra.hpp.

    Index letters are natural numbers.  A [pybind11::buffer_info] is a [desc];
    its byte strides are kept as element strides, [sz] is the item size.  The
    three buffers have the same element type, one of the four BLAS types (a
    dtype mismatch throws before anything is touched, cpp 586-598), and the
    prefactors are converted without loss.  The plans for the GPU are not
    modelled. *)
From Coq Require Import List ZArith Lia Bool Permutation.
From Verif Require Import Base Heap Conc M_Addr M_Einsum M_Blas M_Dispatch.
Import ListNotations.
Open Scope Z_scope.

(** ** Index analysis *)

(** cpp 23-34 [intersect]: a letter once for every pair of equal positions. *)
Definition py_intersect (S1 S2 : list nat) : list nat :=
  flat_map (fun l => flat_map (fun m => if Nat.eqb l m then [l] else []) S2) S1.

(** cpp 73-89 [difference], 91-106 [unique], 108-120 [find_ind_with_pos],
    122-132 [contiguous_indices] and 134-146 [same_ordering] compute what
    [difference], [unique], [find_type_with_position], [contiguous_positions]
    and [is_same_ordering] of M_Einsum compute. *)

(** cpp 148-160 [create_perm_table]; a letter that is not found keeps the
    initial 0. *)
Definition create_perm_table (inds uniq : list nat) : list nat :=
  map (fun l => match find_position l uniq with Some p => p | None => 0%nat end) inds.

Definition py_linksAB e := py_intersect (eA e) (eB e).                       (* cpp 169 *)
Definition py_link_unique e := unique (difference (py_linksAB e) (eC e)).    (* cpp 171, 194 *)
Definition py_link_in_A e := find_type_with_position (py_link_unique e) (eA e).   (* cpp 200 *)
Definition py_link_in_B e := find_type_with_position (py_link_unique e) (eB e).   (* cpp 201 *)
Definition target_position_in_C e := find_type_with_position (C_unique e) (eC e). (* cpp 206 *)

Definition no_hadamard e : bool := negb (A_hadamard e) && negb (B_hadamard e) && negb (C_hadamard e).  (* cpp 196-198 *)

(** cpp 228-232 *)
Definition py_gemm_possible e : bool :=
  negb (Nat.eqb (length (CminusA e)) 0) && negb (Nat.eqb (length (CminusB e)) 0) &&
  contiguous_positions (py_link_in_A e) && contiguous_positions (py_link_in_B e) &&
  contiguous_positions (target_position_in_A e) && contiguous_positions (target_position_in_B e) &&
  contiguous_positions (A_target_position_in_C e) && contiguous_positions (B_target_position_in_C e) &&
  is_same_ordering (py_link_in_A e) (py_link_in_B e) &&
  is_same_ordering (target_position_in_A e) (A_target_position_in_C e) &&
  is_same_ordering (target_position_in_B e) (B_target_position_in_C e) && no_hadamard e.
(** cpp 233-236 *)
Definition py_gemv_AB_possible e : bool :=
  contiguous_positions (py_link_in_A e) && contiguous_positions (py_link_in_B e) &&
  contiguous_positions (target_position_in_A e) &&
  is_same_ordering (py_link_in_A e) (py_link_in_B e) &&
  is_same_ordering (target_position_in_A e) (A_target_position_in_C e) &&
  negb (is_same_ordering (target_position_in_B e) (B_target_position_in_C e)) &&
  Nat.eqb (length (B_target_position_in_C e)) 0 && no_hadamard e.
(** cpp 237-240 *)
Definition py_gemv_BA_possible e : bool :=
  contiguous_positions (py_link_in_A e) && contiguous_positions (py_link_in_B e) &&
  contiguous_positions (target_position_in_B e) &&
  is_same_ordering (py_link_in_A e) (py_link_in_B e) &&
  is_same_ordering (target_position_in_B e) (B_target_position_in_C e) &&
  negb (is_same_ordering (target_position_in_A e) (A_target_position_in_C e)) &&
  Nat.eqb (length (A_target_position_in_C e)) 0 && no_hadamard e.
(** cpp 242-243 *)
Definition py_element_wise e : bool := same_indices (eA e) (eC e) && same_indices (eB e) (eC e) && no_hadamard e.
(** cpp 244 *)
Definition py_dot_product e : bool :=
  Nat.eqb (length (eC e)) 0 && same_indices (eA e) (eB e) && no_hadamard e.
(** cpp 245-246 *)
Definition py_outer_product e : bool :=
  Nat.eqb (length (py_linksAB e)) 0 && contiguous_positions (target_position_in_A e) &&
  contiguous_positions (target_position_in_B e) && no_hadamard e.

(** ** Plans *)

(** hpp [PyEinsumGenericPlan] and its subclasses, with the fields the CPU code uses. *)
Record pybase := mkPyBase { pb_num : nat; pb_C : list nat; pb_A : list nat; pb_B : list nat }.
Inductive pyalg :=
  | PyGeneric
  | PyDot
  | PyDirect
  | PyGer (CA CB : list nat) (swap_AB : bool)
  | PyGemv (A_link B_link AC : list nat) (A_target_last A_link_last B_link_last C_target_last : nat)
           (trans_A swap_AB : bool)
  | PyGemm (A_link B_link AC BC : list nat)
           (A_target_last A_link_last B_target_last B_link_last CA_target_last CB_target_last : nat)
           (trans_A trans_B trans_C : bool).

(** [deque[0].second] and [std::max_element(...)->second]: reading from an
    empty deque is undefined. *)
Definition front_pos (ps : list (nat * nat)) : res nat :=
  match ps with [] => UB | p :: _ => Ok (snd p) end.
Definition max_pos (ps : list (nat * nat)) : res nat :=
  match ps with [] => UB | p :: r => Ok (fold_left (fun m q => Nat.max m (snd q)) r (snd p)) end.
(** cpp 265-276 and the like: the distinct positions, in order. *)
Definition distinct_pos (ps : list (nat * nat)) : list nat := unique (map snd ps).

(** cpp 162-528 [compile_plan]. *)
Definition py_base e : pybase :=
  let uniq := unique (eA e ++ eB e ++ eC e) in                                        (* 248 *)
  mkPyBase (length uniq) (create_perm_table (eC e) uniq) (create_perm_table (eA e) uniq)
           (create_perm_table (eB e) uniq).                                           (* 250-253 *)
Definition py_algorithm e : res pyalg :=
  if py_dot_product e then Ok PyDot                                                   (* 255 *)
  else if py_element_wise e then Ok PyDirect                                          (* 257 *)
  else if py_outer_product e then                                                     (* 259-291 *)
    first <- front_pos (A_target_position_in_C e) ;;
    Ok (PyGer (distinct_pos (A_target_position_in_C e)) (distinct_pos (B_target_position_in_C e))
              (negb (Nat.eqb first 0)))
  else if py_gemv_AB_possible e || py_gemv_BA_possible e then                         (* 292 *)
    let swap_AB := py_gemv_BA_possible e && negb (py_gemv_AB_possible e) in           (* 293 *)
    let linkA := if swap_AB then py_link_in_B e else py_link_in_A e in
    let linkB := if swap_AB then py_link_in_A e else py_link_in_B e in
    let targA := if swap_AB then target_position_in_B e else target_position_in_A e in
    let targC := if swap_AB then B_target_position_in_C e else A_target_position_in_C e in
    atl <- max_pos targA ;;                                                           (* 299-318, 367-386 *)
    all <- max_pos linkA ;;
    bll <- max_pos linkB ;;
    ctl <- max_pos (target_position_in_C e) ;;
    first <- front_pos linkA ;;                                                       (* 319, 387 *)
    Ok (PyGemv (distinct_pos linkA) (distinct_pos linkB) (distinct_pos targC) atl all bll ctl
               (Nat.eqb first 0) swap_AB)
  else if py_gemm_possible e then                                                     (* 431-524 *)
    atl <- max_pos (target_position_in_A e) ;;
    all <- max_pos (py_link_in_A e) ;;
    btl <- max_pos (target_position_in_B e) ;;
    bll <- max_pos (py_link_in_B e) ;;
    catl <- max_pos (A_target_position_in_C e) ;;
    cbtl <- max_pos (B_target_position_in_C e) ;;
    fA <- front_pos (py_link_in_A e) ;;
    fB <- front_pos (py_link_in_B e) ;;
    fC <- front_pos (A_target_position_in_C e) ;;
    Ok (PyGemm (distinct_pos (py_link_in_A e)) (distinct_pos (py_link_in_B e))
               (distinct_pos (A_target_position_in_C e)) (distinct_pos (B_target_position_in_C e))
               atl all btl bll catl cbtl (Nat.eqb fA 0) (negb (Nat.eqb fB 0)) (negb (Nat.eqb fC 0)))
  else Ok PyGeneric.                                                                  (* 526 *)

(** ** Execution *)

(** [shape[i]], [strides[i]], [vector[i]]: out of range is undefined. *)
Definition vat {X} (l : list X) (i : nat) : res X :=
  match nth_error l i with Some x => Ok x | None => UB end.
(** [for (i : pos) d *= shape[i]] *)
Fixpoint shape_prod (shape : list Z) (pos : list nat) (acc : Z) : res Z :=
  match pos with
  | [] => Ok acc
  | i :: r => d <- vat shape i ;; shape_prod shape r (acc * d)
  end.
(** [for (i = 0; i < n; i++) d *= shape[pos[i]]] *)
Fixpoint shape_prod_at (shape : list Z) (pos : list nat) (is : list nat) (acc : Z) : res Z :=
  match is with
  | [] => Ok acc
  | i :: r => p <- vat pos i ;; d <- vat shape p ;; shape_prod_at shape pos r (acc * d)
  end.

(** cpp 704-726, 807-829, 930-952: the strides are the row-major ones, checked
    from the last axis. *)
Definition py_contiguous (d : desc) : bool :=
  if list_eq_dec Z.eq_dec (dstrides d) (fst (dims_to_strides (ddims d))) then true else false.

(** cpp 530-558 [get_dim_ranges_for_many]: the first extent other than zero
    that C, A, B (in this order) give a unique index. *)
Definition fill_dims (perm : list nat) (shape : list Z) (out : list Z) : list Z :=
  fold_left (fun out pd => if nth (fst pd) out 0 =? 0 then replace (fst pd) (snd pd) out else out)
            (combine perm shape) out.
Definition py_unique_dims (p : pybase) (C A B : desc) : list Z :=
  fill_dims (pb_B p) (ddims B) (fill_dims (pb_A p) (ddims A) (fill_dims (pb_C p) (ddims C) (repeat 0 (pb_num p)))).

Section Exec.
  Context {O : Ops}.
  Notation T := (car O).

  (** What a plan does, in order: sequential code; a parallel-for over
      0 .. n-1; a parallel region in which thread t of k runs the iterations
      t, t+k, t+2k, ... below n; a parallel-for adding [f i] into the cell [c]
      as an OpenMP reduction. *)
  Inductive pystep :=
    | PySeq (f : heap T -> res (heap T))
    | PyFor (body : Z -> prog T unit) (n : Z)
    | PyRegion (body : Z -> prog T unit) (n : Z)
    | PyReduce (c : Z) (f : Z -> prog T T) (n : Z).

  (** The iterations of thread [t] of [k], hpp 571. *)
  Definition strided (k : nat) (n : Z) (t : nat) : list Z :=
    filter (fun s => s mod Z.of_nat k =? Z.of_nat t) (zrange n).

  (** A reduction: every thread adds its share into a private copy starting
      from zero; the copies are added to the variable in the order of [threads]. *)
  Definition reduce (c : Z) (f : Z -> prog T T) (threads : list (list Z)) : prog T unit :=
    PRd c (fun v =>
      pbind (pfold threads (fun tot share =>
               pbind (pfold share (fun s i => pbind (f i) (fun x => PRet (oadd s x))) o0)
                     (fun s => PRet (oadd tot s))) v)
            (fun s => PWr c s (PRet tt))).

  (** [C_dims[0] * C_index_strides[0]]: undefined for rank 0. *)
  Definition loop_size (dims : list Z) : res Z :=
    d <- vat dims 0 ;; s <- vat (fst (dims_to_strides dims)) 0 ;; Ok (d * s).
  (** hpp 541-546, 574-577: the loop divides by strides that are not zero,
      because it runs only if no extent is zero. *)
  Definition unravel (dims : list Z) (sentinel : Z) : list Z :=
    sentinel_to_indices sentinel (fst (dims_to_strides dims)).

  (** hpp 538-562 *)
  Definition scale_body (cp : T) (C : desc) (sentinel : Z) : prog T unit :=
    let z := addr C (unravel (ddims C) sentinel) in
    if oeqb cp o0 then PWr z o0 (PRet tt) else PRd z (fun v => PWr z (omul v cp) (PRet tt)).
  (** hpp 571-594 *)
  Definition sum_body (p : pybase) (ab : T) (C A B : desc) (udims : list Z) (sentinel : Z) : prog T unit :=
    let ui := unravel udims sentinel in
    let at_ (perm : list nat) (d : desc) := addr d (map (fun q => nth q ui 0) perm) in
    PRd (at_ (pb_A p) A) (fun u => PRd (at_ (pb_B p) B) (fun v =>
    PRd (at_ (pb_C p) C) (fun w => PWr (at_ (pb_C p) C) (oadd w (omul (omul ab u) v)) (PRet tt)))).

  (** hpp 513-596 [execute_generic]. *)
  Definition py_generic (p : pybase) (cp : T) (C : desc) (ab : T) (A B : desc) : res (list pystep) :=
    if negb (Nat.eqb (length (pb_C p)) (length (ddims C))) || negb (Nat.eqb (length (pb_A p)) (length (ddims A)))
       || negb (Nat.eqb (length (pb_B p)) (length (ddims B))) then Throw            (* 519-521 *)
    else
      let udims := py_unique_dims p C A B in                                        (* 522-523 *)
      n <- loop_size (ddims C) ;;
      m <- loop_size udims ;;
      Ok [PyFor (scale_body cp C) n; PyRegion (sum_body p ab C A B udims) m].

  (** hpp 672-716 [PyEinsumDotPlan::execute_imp]. *)
  Definition py_dot (cp : T) (C : desc) (ab : T) (A B : desc) : res (list pystep) :=
    if negb (Nat.eqb (length (ddims A)) (length (ddims B))) then Throw              (* 675-677 *)
    else
      n <- loop_size (ddims A) ;;                                                   (* 702 *)
      let c := dbase C in
      Ok [PySeq (exec (if oeqb cp o0 then PWr c o0 (PRet tt)
                       else PRd c (fun v => PWr c (omul v cp) (PRet tt))));         (* 691-695 *)
          PyReduce c (fun s => let ix := unravel (ddims A) s in
                       PRd (addr A ix) (fun u => PRd (addr B ix) (fun v => PRet (omul (omul ab u) v)))) n].

  (** hpp 771-808 [PyEinsumDirectProductPlan::execute_imp]. *)
  Definition direct_body (cp : T) (C : desc) (ab : T) (A B : desc) (s : Z) : prog T unit :=
    let ix := unravel (ddims A) s in
    if oeqb cp o0 then
      PRd (addr A ix) (fun u => PRd (addr B ix) (fun v => PWr (addr C ix) (omul (omul ab u) v) (PRet tt)))
    else
      PRd (addr C ix) (fun w => PRd (addr A ix) (fun u => PRd (addr B ix) (fun v =>
        PWr (addr C ix) (oadd (omul cp w) (omul (omul ab u) v)) (PRet tt)))).
  Definition py_direct (p : pybase) (cp : T) (C : desc) (ab : T) (A B : desc) : res (list pystep) :=
    if negb (Nat.eqb (length (ddims A)) (length (ddims B))) || negb (Nat.eqb (length (ddims A)) (length (ddims C)))
       || negb (Nat.eqb (length (ddims A)) (pb_num p)) then Throw                   (* 774-776 *)
    else Ok [PyFor (direct_body cp C ab A B) (snd (dims_to_strides (ddims A)))].    (* 778-790 *)

  (** hpp 895-936 [PyEinsumGerPlan::execute_imp].  The byte count
      [shape[0] * strides[0]] is [sz] times the element count; 925 uses it as
      an element count. *)
  Definition py_ger (sz : Z) (CA CB : list nat) (swap_AB : bool) (cp : T) (C : desc) (ab : T) (A B : desc)
      : res (list pystep) :=
    d0 <- shape_prod (ddims C) CA 1 ;;
    d1 <- shape_prod (ddims C) CB 1 ;;
    let dC0 := if swap_AB then d1 else d0 in
    let dC1 := if swap_AB then d0 else d1 in
    pre <- (if oeqb cp o0 then
              sh <- vat (ddims C) 0 ;; st <- vat (dstrides C) 0 ;;
              Ok [PySeq (exec (pseq (zrange (sh * st)) (fun i => PWr (dbase C + i) o0 (PRet tt))))]       (* 922 *)
            else if negb (oeqb cp o1) then
              sh <- vat (ddims C) 0 ;; st <- vat (dstrides C) 0 ;;
              Ok [PyFor (fun i => PRd (dbase C + i) (fun v => PWr (dbase C + i) (omul v cp) (PRet tt)))
                        (sh * (sz * st))]                                                                 (* 925 *)
            else Ok []) ;;
    let a := if swap_AB then dbase B else dbase A in
    let b := if swap_AB then dbase A else dbase B in
    Ok (pre ++ [PySeq (vger dC0 dC1 ab a 1 b 1 (dbase C) dC1)]).                                          (* 934 *)

  (** hpp 1034-1089 [PyEinsumGemvPlan::execute_imp]; [dB], [dC] and the unused
      strides are computed from valid positions and not used. *)
  Definition py_gemv (A_link B_link AC : list nat) (A_target_last A_link_last B_link_last C_target_last : nat)
      (trans_A swap_AB : bool) (cp : T) (C : desc) (ab : T) (A0 B0 : desc) : res (list pystep) :=
    let A := if swap_AB then B0 else A0 in                                          (* 1042-1044 *)
    let B := if swap_AB then A0 else B0 in
    d0 <- shape_prod (ddims C) AC 1 ;;                                              (* 1050-1053 *)
    d1 <- shape_prod_at (ddims A) A_link (seq 0 (length AC)) 1 ;;                   (* 1054-1057 *)
    s0 <- vat (dstrides A) A_target_last ;;                                         (* 1062 *)
    s1 <- vat (dstrides A) A_link_last ;;
    let dA0 := if trans_A then d1 else d0 in                                        (* 1065-1068 *)
    let dA1 := if trans_A then d0 else d1 in
    let sA0 := if trans_A then s1 else s0 in
    dB <- shape_prod (ddims B) B_link 1 ;;                                          (* 1070-1073 *)
    sB <- vat (dstrides B) B_link_last ;;                                           (* 1075 *)
    sC <- vat (dstrides C) C_target_last ;;                                         (* 1083 *)
    Ok [PySeq (vgemv trans_A dA0 dA1 ab (dbase A) sA0 (dbase B) sB cp (dbase C) sC)].   (* 1087 *)

  (** hpp 1235-1303 [PyEinsumGemmPlan::execute_imp]. *)
  Definition py_gemm (A_link B_link AC BC : list nat)
      (A_target_last A_link_last B_target_last B_link_last CA_target_last CB_target_last : nat)
      (trans_A trans_B trans_C : bool) (cp : T) (C : desc) (ab : T) (A B : desc) : res (list pystep) :=
    a0 <- shape_prod (ddims C) AC 1 ;;                                              (* 1247-1249 *)
    a1 <- shape_prod_at (ddims A) A_link (seq 0 (length AC)) 1 ;;                   (* 1250-1252 *)
    sa0 <- vat (dstrides A) A_target_last ;;
    sa1 <- vat (dstrides A) A_link_last ;;
    let dA0 := if trans_A then a1 else a0 in                                        (* 1257-1260 *)
    let dA1 := if trans_A then a0 else a1 in
    let sA0 := if trans_A then sa1 else sa0 in
    b1 <- shape_prod (ddims C) BC 1 ;;                                              (* 1262-1264 *)
    b0 <- shape_prod_at (ddims B) B_link (seq 0 (length BC)) 1 ;;                   (* 1265-1267 *)
    sb1 <- vat (dstrides B) B_target_last ;;
    sb0 <- vat (dstrides B) B_link_last ;;
    let dB1 := if trans_B then b0 else b1 in                                        (* 1272-1275 *)
    let sB0 := if trans_B then sb1 else sb0 in
    sc0 <- vat (dstrides C) CA_target_last ;;                                       (* 1285-1286 *)
    sc1 <- vat (dstrides C) CB_target_last ;;
    let sC0 := if trans_C then sc1 else sc0 in                                      (* 1288-1291 *)
    Ok [PySeq (if negb trans_C
               then vgemm trans_A trans_B dA0 dB1 dA1 ab (dbase A) sA0 (dbase B) sB0 cp (dbase C) sC0     (* 1296 *)
               else vgemm (negb trans_B) (negb trans_A) dB1 dA0 dA1 ab (dbase B) sB0 (dbase A) sA0
                          cp (dbase C) sC0)].                                                            (* 1299 *)

  (** cpp 583-599, 622-638, 659-675, 696-745, 799-848, 922-971: the [execute]
      methods; the BLAS plans fall back to the generic loop unless all three
      buffers are contiguous. *)
  Definition py_execute (p : pybase) (alg : pyalg) (sz : Z) (cp : T) (C : desc) (ab : T) (A B : desc)
      : res (list pystep) :=
    let full := py_contiguous C && py_contiguous A && py_contiguous B in
    match alg with
    | PyGeneric => py_generic p cp C ab A B
    | PyDot => py_dot cp C ab A B
    | PyDirect => py_direct p cp C ab A B
    | PyGer CA CB sw => if full then py_ger sz CA CB sw cp C ab A B else py_generic p cp C ab A B
    | PyGemv al bl ac atl all bll ctl tA sw =>
        if full then py_gemv al bl ac atl all bll ctl tA sw cp C ab A B else py_generic p cp C ab A B
    | PyGemm al bl ac bc atl all btl bll catl cbtl tA tB tC =>
        if full then py_gemm al bl ac bc atl all btl bll catl cbtl tA tB tC cp C ab A B
        else py_generic p cp C ab A B
    end.

  (** [compile_plan(C_indices, A_indices, B_indices).execute(cp, C, ab, A, B)]. *)
  Definition py_einsum (e : ein) (sz : Z) (cp : T) (C : desc) (ab : T) (A B : desc) : res (list pystep) :=
    alg <- py_algorithm e ;; py_execute (py_base e) alg sz cp C ab A B.
End Exec.
