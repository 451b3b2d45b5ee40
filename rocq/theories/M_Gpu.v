(** * M_Gpu: the GPU kernels and the functions that launch them.  Definitions only.
    All paths are below /repo/src.  "GTA" is
    include/einsums/tensor_algebra_backends/GPUTensorAlgebra.hpp, "GLA" is
    include/einsums/linear_algebra_imp/GPULinearAlgebra.hpp, "EK" is
    include/einsums/gpu/ElementKernels.hpp, "EO" is
    include/einsums/ElementOperations.hpp, "DT" is
    include/einsums/gpu/DeviceTensor.hpp, "DTV" is
    include/einsums/gpu/DeviceTensorView.hpp, "PTA" is
    include/einsums/python/PyTensorAlgebra.hpp.

    Simplifications: operands have one element type; an atomic addition of a
    complex number is one step (the code adds real and imaginary part one after
    the other); copies of small tables between host and device, streams and
    their synchronisation, and allocation failures are left out; index
    arithmetic does not overflow. *)
From Coq Require Import List ZArith Lia Bool.
From Verif Require Import Base Heap Conc GpuConc M_Addr M_Einsum M_Blas M_PyEinsum.
Import ListNotations.
Open Scope Z_scope.

(** include/einsums/_GPUUtils.hpp 507-515 [block_size] *)
Definition block_size (n : Z) : Z :=
  if n <? 32 then 32 else if n <? 256 then Z.land n 240 else 256.
(** 520-528 [blocks] *)
Definition blocks (n : Z) : Z :=
  if n <? 256 then 1 else if n <=? 4096 then n / 256 else 16.

Section Gpu.
  Context {O : Ops}.
  Notation T := (car O).

  (** [kernel<<<nb, nt>>>]: [nb] blocks of [nt] threads.  _GPUUtils.hpp 480-484
      [get_worker_info]: thread t of block b is worker b * nt + t of nb * nt.
      [kern k w] is what worker [w] of [k] does. *)
  Definition launch (nb nt : nat) (kern : nat -> nat -> @gthread O) : @grid O :=
    map (fun b => map (fun t => kern (nb * nt)%nat (b * nt + t)%nat) (seq 0 nt)) (seq 0 nb).
  (** The launches written [<<<block_size(n), blocks(n)>>>]: the number of
      blocks comes first, so that it is [block_size n]. *)
  Definition launch_swapped (n : Z) (kern : nat -> nat -> @gthread O) : @grid O :=
    launch (Z.to_nat (block_size n)) (Z.to_nat (blocks n)) kern.
  (** The launches written [<<<blocks(n), block_size(n)>>>]. *)
  Definition launch_for (n : Z) (kern : nat -> nat -> @gthread O) : @grid O :=
    launch (Z.to_nat (blocks n)) (Z.to_nat (block_size n)) kern.

  (** What a host function does: sequential accesses, then a launch, in order. *)
  Inductive gpustep := GSeq (p : prog T unit) | GLaunch (g : @grid O).

  (** ** einsum *)

  (** include/einsums/utility/IndexUtils.hpp 17-112 [get_dim_ranges_for_many]:
      the extent C, A, B (in this order) give to a label.  (Calls in which the
      last label of B occurs in no other operand do not compile: the overload
      at 22-26 returns [std::enable_if].) *)
  Definition label_dim (e : ein) (C A B : desc) (l : nat) : Z :=
    match find_position l (eC e) with
    | Some p => nth p (ddims C) 0
    | None => match find_position l (eA e) with
              | Some p => nth p (ddims A) 0
              | None => match find_position l (eB e) with Some p => nth p (ddims B) 0 | None => 1 end
              end
    end.
  (** GTA 208 *)
  Definition gpu_unique (e : ein) : list nat := unique (eC e ++ eA e ++ eB e).
  (** GTA 209 *)
  Definition gpu_unique_dims (e : ein) (C A B : desc) : list Z := map (label_dim e C A B) (gpu_unique e).
  (** GTA 201-206 [direct_product_swap] *)
  Definition direct_product_swap (e : ein) : bool :=
    let n := length (eA e) in
    Nat.eqb n (length (eB e)) && Nat.eqb n (length (eC e)) &&
    Nat.eqb (length (intersect (eA e) (eB e))) n && Nat.eqb (length (intersect (eA e) (eC e))) n &&
    Nat.eqb (length (intersect (eC e) (eB e))) n.

  (** The element of [d] used in iteration [s]: GTA 58-79 with the tables of
      IndexUtils.hpp 358-402 [compile_index_table], which hold what
      [create_perm_table] computes. *)
  Definition g_at (U : list nat) (udims : list Z) (d : desc) (inds : list nat) (s : Z) : Z :=
    addr d (map (fun q => nth q (unravel udims s) 0) (create_perm_table inds U)).

  (** GTA 19-86 [einsum_generic_algorithm_gpu] *)
  Definition contract_body (e : ein) (ab : T) (C A B : desc) (udims : list Z) (s : Z) : aprog T :=
    ARd (g_at (gpu_unique e) udims A (eA e) s) (fun u =>
    ARd (g_at (gpu_unique e) udims B (eB e) s) (fun v =>
    AAdd (g_at (gpu_unique e) udims C (eC e) s) (omul (omul ab u) v) ADone)).
  Definition generic_kernel (e : ein) (cp : T) (C : desc) (ab : T) (A B : desc) (udims : list Z) (k w : nat) : @gthread O :=
    [ lift1 (pseq (strided k (zprod (ddims C)) w) (scale_body cp C));                 (* 38-56 *)
      aloop (strided k (zprod udims) w) (contract_body e ab C A B udims) ].           (* 61-85 *)

  (** GTA 88-138 [einsum_generic_algorithm_direct_product_gpu] *)
  Definition gdirect_body (e : ein) (cp : T) (C : desc) (ab : T) (A B : desc) (udims : list Z) (s : Z) : prog T unit :=
    let zA := g_at (gpu_unique e) udims A (eA e) s in
    let zB := g_at (gpu_unique e) udims B (eB e) s in
    let zC := g_at (gpu_unique e) udims C (eC e) s in
    if oeqb cp o0 then PRd zA (fun u => PRd zB (fun v => PWr zC (omul (omul ab u) v) (PRet tt)))
    else PRd zC (fun w => PRd zA (fun u => PRd zB (fun v => PWr zC (oadd (omul cp w) (omul (omul ab u) v)) (PRet tt)))).
  Definition gdirect_kernel (e : ein) (cp : T) (C : desc) (ab : T) (A B : desc) (udims : list Z) (k w : nat) : @gthread O :=
    [ lift1 (pseq (strided k (zprod udims) w) (gdirect_body e cp C ab A B udims)) ].

  (** GTA 143-183 [einsum_generic_zero_rank_gpu]: private sum, then one atomic addition. *)
  Definition dot_share (k : nat) (n : Z) (w : nat) (zA zB : Z -> Z) : prog T T :=
    pfold (strided k n w) (fun acc s => PRd (zA s) (fun u => PRd (zB s) (fun v => PRet (oadd acc (omul u v))))) o0.
  Definition zero_rank_kernel (e : ein) (c : Z) (ab : T) (A B : desc) (udims : list Z) (k w : nat) : @gthread O :=
    [ ADone;
      alift (dot_share k (zprod udims) w (g_at (gpu_unique e) udims A (eA e)) (g_at (gpu_unique e) udims B (eB e)))
            (fun v => AAdd c (omul ab v) ADone) ].

  (** GTA 185-346 [einsum_generic_algorithm].  [get<0>(unique_dims) *
      unique_strides[0]] is the number of combinations; with no label at all
      [get<0>] does not compile. *)
  Definition gpu_einsum (e : ein) (cp : T) (C : desc) (ab : T) (A B : desc) : list gpustep :=
    let udims := gpu_unique_dims e C A B in
    let n := zprod udims in
    match eC e with
    | [] =>                                                                             (* 276-336 *)
        [ GSeq (if oeqb cp o0 then PWr (dbase C) o0 (PRet tt)
                else PRd (dbase C) (fun v => PWr (dbase C) (omul v cp) (PRet tt)));
          GLaunch (launch_swapped n (zero_rank_kernel e (dbase C) ab A B udims)) ]
    | _ =>
        if direct_product_swap e
        then [ GLaunch (launch_swapped n (gdirect_kernel e cp C ab A B udims)) ]        (* 265-271 *)
        else [ GLaunch (launch_swapped n (generic_kernel e cp C ab A B udims)) ]        (* 257-264 *)
    end.

  (** ** Dot products *)

  (** GLA 33-64 [dot_kernel], 275-303 [dot]: [n] elements, A and B read at
      [zA s] and [zB s].  Worker 0 clears the result without a barrier. *)
  Definition dot_kernel (c : Z) (n : Z) (zA zB : Z -> Z) (k w : nat) : @gthread O :=
    let rest := alift (dot_share k n w zA zB) (fun v => AAdd c v ADone) in
    [ if Nat.eqb w 0 then AWr c o0 rest else rest ].
  Definition gpu_dot (c : Z) (A B : desc) : @grid O :=
    let n := zprod (ddims A) in
    launch_swapped n (dot_kernel c n (fun s => addr A (unravel (ddims A) s)) (fun s => addr B (unravel (ddims A) s))).
  (** PTA 226-263 [dot_kernel] of the Python module: clear, barrier, sum. *)
  Definition pydot_kernel (c : Z) (n : Z) (zA zB : Z -> Z) (k w : nat) : @gthread O :=
    [ if Nat.eqb w 0 then AWr c o0 ADone else ADone;
      alift (dot_share k n w zA zB) (fun v => AAdd c v ADone) ].
  (** GLA 66-104 [true_dot_kernel]; [cj] is complex conjugation (the identity
      for real elements).  The strided positions are computed but not used. *)
  Definition true_dot_kernel (cj : T -> T) (c : Z) (n : Z) (A B : desc) (k w : nat) : @gthread O :=
    let share := pfold (strided k n w)
        (fun acc s => PRd (dbase A + s) (fun u => PRd (dbase B + s) (fun v => PRet (oadd acc (omul (cj u) v))))) o0 in
    let rest := alift share (fun v => AAdd c v ADone) in
    [ if Nat.eqb w 0 then AWr c o0 rest else rest ].

  (** ** symm_gemm *)

  (** GPULinearAlgebra.hip 375-413 and the copies for the other types *)
  Definition symm_body (ta tb : bool) (m n : Z) (A : Z) (lda : Z) (B : Z) (ldb : Z) (C : Z) (ldc : Z) (s : Z) : aprog T :=
    let a := s mod n in
    let b := (s / n) mod n in
    let i := (s / n / n) mod m in
    let j := s / n / n / m in
    ARd (if ta then A + (j * lda + i) else A + (i * lda + j)) (fun t =>
    ARd (if tb then B + (a * ldb + i) else B + (i * ldb + a)) (fun u =>
    ARd (if tb then B + (b * ldb + j) else B + (j * ldb + b)) (fun v =>
    AAdd (C + (a * ldc + b)) (omul t (omul u v)) ADone))).
  Definition symm_kernel (ta tb : bool) (m n A lda B ldb C ldc : Z) (k w : nat) : @gthread O :=
    [ aloop (strided k (m * m * n * n) w) (symm_body ta tb m n A lda B ldb C ldc) ].
  (** GLA 417-439 [symm_gemm]: C is cleared first (fill kernel, then wait). *)
  Definition gpu_symm_gemm (ta tb : bool) (A B C : desc) : list gpustep :=
    let m := nth 0 (ddims A) 0 in
    let n := nth 0 (ddims C) 0 in
    [ GSeq (pseq (map (addr C) (indices (ddims C))) (fun z => PWr z o0 (PRet tt)));
      GLaunch (launch_swapped (m * m * n * n)
        (symm_kernel ta tb m n (dbase A) (nth 0 (dstrides A) 0) (dbase B) (nth 0 (dstrides B) 0)
                     (dbase C) (nth 0 (dstrides C) 0))) ].

  (** ** Sorting (permuting axes) *)

  (** include/einsums/DeviceSort.hpp 38-66 [sort_kernel]: every worker goes
      through all elements from its own number on. *)
  Definition sort_body (perm : list nat) (alpha : T) (A : desc) (beta : T) (B : desc) (s : Z) : prog T unit :=
    let ix := sentinel_to_indices s (dstrides A) in
    let zA := addr A ix in
    let zB := addr B (map (fun q => nth q ix 0) perm) in
    PRd zB (fun v => PRd zA (fun u => PWr zB (oadd (omul beta v) (omul alpha u)) (PRet tt))).
  Definition sort_kernel (perm : list nat) (alpha : T) (A : desc) (beta : T) (B : desc) (n : Z) (k w : nat) : @gthread O :=
    [ lift1 (pseq (filter (fun s => Z.of_nat w <=? s) (zrange n)) (sort_body perm alpha A beta B)) ].
  (** 112-178 [sort] where the kernel is used: the index lists differ.
      [compile_index_table] gives, for every label of C, its position in A. *)
  Definition gpu_sort (Ci Ai : list nat) (cp : T) (C : desc) (ap : T) (A : desc) : @grid O :=
    launch_for (zprod (ddims A)) (sort_kernel (create_perm_table Ci Ai) ap A cp C (zprod (ddims A))).

  (** ** Element-wise kernels *)

  (** EK 163-168 and the like: the first axis varies fastest. *)
  Fixpoint cm_index (dims : list Z) (s : Z) : list Z :=
    match dims with [] => [] | d :: r => s mod d :: cm_index r (s / d) end.
  (** DT 282-290 [index_to_combination]: the last axis varies fastest. *)
  Definition rm_index (dims : list Z) (s : Z) : list Z := rev (cm_index (rev dims) s).

  (** A kernel that runs [body] for the numbers below [n], worker [w] of [k]
      those equal to [w] modulo [k]. *)
  Definition each_kernel (n : Z) (body : Z -> prog T unit) (k w : nat) : @gthread O := [ lift1 (pseq (strided k n w) body) ].

  (** EK 151-262 [abs_kernel], [invert_kernel], [exp_kernel], [scale_kernel]: [f]
      applied to every element; EO 313-338, 380-404, 446-470, 512-536. *)
  Definition map_body (f : T -> T) (d : desc) (s : Z) : prog T unit :=
    let z := addr d (cm_index (ddims d) s) in PRd z (fun v => PWr z (f v) (PRet tt)).
  Definition gpu_map (f : T -> T) (d : desc) : @grid O :=
    launch_for (zprod (ddims d)) (each_kernel (zprod (ddims d)) (map_body f d)).

  (** DT 347-388 [copy_to_tensor], 1266-1448 [add_and_assign] and the like
      ([f] is the assignment's operation). *)
  Definition assign_body (f : T -> T -> T) (to from : desc) (s : Z) : prog T unit :=
    let ix := rm_index (ddims to) s in
    PRd (addr to ix) (fun v => PRd (addr from ix) (fun u => PWr (addr to ix) (f v u) (PRet tt))).
  Definition copy_body (to from : desc) (s : Z) : prog T unit :=
    let ix := rm_index (ddims to) s in
    PRd (addr from ix) (fun u => PWr (addr to ix) u (PRet tt)).
  (** DT 482-519 [set_all] *)
  Definition set_body (x : T) (to : desc) (s : Z) : prog T unit := PWr (addr to (rm_index (ddims to) s)) x (PRet tt).
  (** DT 1453-1620 [add_and_assign_scal] and the like *)
  Definition scal_body (f : T -> T) (to : desc) (s : Z) : prog T unit :=
    let z := addr to (rm_index (ddims to) s) in PRd z (fun v => PWr z (f v) (PRet tt)).
  (** [_strides[0] * _dims[0]] *)
  Definition extent0 (d : desc) : Z := nth 0 (dstrides d) 0 * nth 0 (ddims d) 0.

  (** DT 1660-1694 [operator+=] and the like for two tensors *)
  Definition dev_assign_op (f : T -> T -> T) (to from : desc) : @grid O :=
    launch_swapped (zprod (ddims from)) (each_kernel (extent0 to) (assign_body f to from)).
  (** DT 466-476, 980-990, 1060-1075, 1155-1160; DTV 106-117: copy assignment *)
  Definition dev_copy (to from : desc) : @grid O :=
    launch_swapped (zprod (ddims to)) (each_kernel (zprod (ddims to)) (copy_body to from)).
  (** DT 599-613, DTV 126-131 [set_all] *)
  Definition dev_set_all (x : T) (to : desc) : @grid O :=
    launch_swapped (zprod (ddims to)) (each_kernel (extent0 to) (set_body x to)).
  (** DT 1625-1658, DTV 145-179: arithmetic assignment with a scalar *)
  Definition dev_scalar_op (f : T -> T) (to : desc) : @grid O :=
    launch_swapped (zprod (ddims to)) (each_kernel (extent0 to) (scal_body f to)).

  (** GLA 212-241 [direct_product_kernel], 727-763 [direct_product] *)
  Definition gpu_direct_product (alpha : T) (A B : desc) (beta : T) (C : desc) : @grid O :=
    launch_swapped (zprod (ddims A)) (each_kernel (zprod (ddims A)) (direct_body beta C alpha A B)).
  (** GPULinearAlgebra.hip 276-373 [axpby] *)
  Definition axpby_body (alpha : T) (X incx : Z) (beta : T) (Y incy : Z) (s : Z) : prog T unit :=
    PRd (X + incx * s) (fun u => PRd (Y + incy * s) (fun v => PWr (Y + incy * s) (oadd (omul alpha u) (omul beta v)) (PRet tt))).
  Definition gpu_axpby (n : Z) (alpha : T) (X incx : Z) (beta : T) (Y incy : Z) : @grid O :=
    launch_swapped n (each_kernel n (axpby_body alpha X incx beta Y incy)).

  (** ** Reductions *)

  (** EK 14-146 [sum_kernel], [max_kernel], [min_kernel]: [op] is +, the larger
      or the smaller of two values, [unit] is 0, -INFINITY or INFINITY.  [W] is
      the shared work array (one block, see below), [out] the result.
      [30 - __clz(k)] is one less than the binary logarithm.  Simplified: the
      kernels for the maximum and the minimum write only if the value changes;
      here they always write. *)
  Definition reduce_rounds (k : nat) : nat := (Nat.log2 k - 1)%nat.
  Definition reduce_first (op : T -> T -> T) (unit0 : T) (d : desc) (W out : Z) (k w : nat) : prog T unit :=
    PWr (W + Z.of_nat w) unit0
      (pbind (if Nat.eqb w 0 then PWr out (@o0 O) (PRet tt) else PRet tt) (fun _ =>
       pseq (strided k (zprod (ddims d)) w) (fun s =>
         PRd (W + Z.of_nat w) (fun v => PRd (addr d (cm_index (ddims d) s)) (fun u =>
         PWr (W + Z.of_nat w) (op v u) (PRet tt)))))).
  Definition reduce_round (op : T -> T -> T) (W : Z) (k : nat) (s w : nat) : prog T unit :=
    let index := (w * 2 ^ (s + 1))%nat in
    let next := (index + 2 ^ s)%nat in
    if Nat.ltb index k && Nat.ltb next k
    then PRd (W + Z.of_nat index) (fun v => PRd (W + Z.of_nat next) (fun u => PWr (W + Z.of_nat index) (op v u) (PRet tt)))
    else PRet tt.
  Definition reduce_last (W out : Z) (w : nat) : prog T unit :=
    if Nat.eqb w 0 then PRd W (fun v => PWr out v (PRet tt)) else PRet tt.
  Definition reduce_kernel (op : T -> T -> T) (unit0 : T) (d : desc) (W out : Z) (k w : nat) : @gthread O :=
    lift1 (reduce_first op unit0 d W out k w)
    :: map (fun s => lift1 (reduce_round op W k s w)) (seq 0 (reduce_rounds k)) ++ [lift1 (reduce_last W out w)].
  (** EO 87-120, 156-190, 232-266 for tensors of fewer than 512 elements, for
      which [blocks] is 1.  (From 512 elements on every block has its own work
      array, and only the one of block 0 is used for the result.) *)
  Definition gpu_reduce (op : T -> T -> T) (unit0 : T) (d : desc) (W out : Z) : @grid O :=
    launch_for (zprod (ddims d)) (reduce_kernel op unit0 d W out).
End Gpu.
