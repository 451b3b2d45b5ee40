(** * M_Infer: the inferred extent of a rank-1 view, and the companion matrix of
    a Laguerre series, which is built through such views.  Model definitions only. *)
From Coq Require Import List ZArith Lia Bool SpecFloat.
From Verif Require Import Base Heap M_Addr M_Laguerre.
Import ListNotations.
Open Scope Z_scope.

(** [float]: IEEE binary32 with round-to-nearest-even (the executable
    specification of the standard library).  Conversion of an integer. *)
Definition f32 (z : Z) : spec_float := binary_normalize 24 128 z 0 false.
(** [static_cast<std::int64_t>(std::ceil(x))]; undefined for infinities, NaN
    and values outside the type. *)
Definition f32_ceil (x : spec_float) : res Z :=
  match x with
  | S754_zero _ => Ok 0
  | S754_finite s m e =>
      let v := if s then Z.neg m else Z.pos m in
      let k := if 0 <=? e then v * 2 ^ e else - ((- v) / 2 ^ (- e)) in
      if (- 2 ^ 63 <=? k) && (k <? 2 ^ 63) then Ok k else UB
  | _ => UB
  end.

(** Tensor.hpp 1377-1385: [(other.size() - offsets[0]) / static_cast<float>(strides[0])];
    the subtraction is unsigned, its result is converted to [float]. *)
Definition inferred (size off stride : Z) : res Z :=
  f32_ceil (SFdiv 24 128 (f32 ((size - off) mod 2 ^ 64)) (f32 stride)).

(** Tensor.hpp 1350-1430: [TensorView{other, Dim<1>{-1}, ...}] with optional
    [Offset] (one entry per dimension of [other]) and [Stride<1>]. *)
Definition view_infer (other : desc) (offs strs : option (list Z)) : res desc :=
  let o := match offs with Some (o :: _) => o | _ => 0 end in
  let s := match strs with Some (s :: _) => s | _ => 1 end in
  k <- inferred (size_model (ddims other)) o s ;;
  view_ctor other [k] offs strs.

Section Companion.
  Context {O : Ops}.
  Notation T := (car O).

  (** Tensor.hpp 1139-1157: a view assigned from a rank-1 tensor with elements [u]. *)
  Definition assign_list (v : desc) (u : list T) (h : heap T) : res (heap T) :=
    forM (zrange (match ddims v with k :: _ => k | [] => 1 end)) (fun p h =>
      match nth_error u (Z.to_nat p) with
      | Some x => tset h v [p] x
      | None => UB
      end) h.

  (** polynomial/Laguerre.hpp 20-59 [companion]; [base]: address of the result's
      buffer.  [arange(1,n)] and [arange(n)] are 1..n-1 and 0..n-1 (C34), the
      element-wise operators act on every element (C08). *)
  Definition companion (base : Z) (c : list T) (h : heap T) : res (desc * heap T) :=
    if Nat.ltb (length c) 2 then Throw
    else if Nat.eqb (length c) 2 then
      let mat := tensor_ctor base [1; 1] in
      let h := alloc_buffer o0 base 1 h in
      c0 <- vget c 0 ;; c1 <- vget c 1 ;;
      h <- tset h mat [0; 0] (oadd o1 (odiv c0 c1)) ;;
      Ok (mat, h)
    else
      let n := Z.of_nat (length c) - 1 in
      let mat := tensor_ctor base [n; n] in
      let h := alloc_buffer o0 base (n * n) h in
      mat1 <- view_infer mat None None ;;
      top <- view_infer mat1 (Some [1]) (Some [n + 1]) ;;
      mid <- view_infer mat1 (Some [0]) (Some [n + 1]) ;;
      bot <- view_infer mat1 (Some [n]) (Some [n + 1]) ;;
      let U := map (fun i => omul (onat i) (oopp o1)) (seq 1 (Z.to_nat n - 1)) in
      h <- assign_list top U h ;;
      let V := map (fun i => oadd (omul (onat i) (oadd o1 o1)) o1) (seq 0 (Z.to_nat n)) in
      h <- assign_list mid V h ;;
      h <- assign_list bot U h ;;
      Ok (mat, h).
End Companion.
