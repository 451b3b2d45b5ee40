(** * M_Mixed: einsum with operands of different element types.  Model
    definitions only.
    "D" is /repo/src/include/einsums/tensor_algebra_backends/Dispatch.hpp, "G" is
    GenericAlgorithm.hpp beside it.  Mixed element types always use the generic
    algorithm (D 210-214). *)
From Coq Require Import List ZArith Bool.
From Verif Require Import Base Heap Conc M_Addr M_Einsum.
Import ListNotations.
Open Scope Z_scope.

Section Mixed.
  (** [OC]: the element type of C; [TA], [TB]: those of A and B; [TU]: the type
      of the prefactors given by the caller; [TAB]: the larger one of [TA] and
      [TB] by [sizeof] ([TB] if equal; D 58, 524, TensorTraits.hpp 1489-1498);
      [P1], [P]: the types of [AB_prefactor * A_value] and of the whole product. *)
  Context {OC : Ops} {TA TB TU TAB P1 P : Type}.
  (** The conversions and the arithmetic between the types, as C++ defines them:
      - [m_cp], [m_ab]: the prefactors become [CDataType] and [ABDataType] (D 543-544);
      - [m_mul1], [m_mul2]: [AB_prefactor * A_value], the result times [B_value];
      - [m_add]: [sum += product] with [sum] of C's type;
      - [m_to]: [CDataType sum = product]. *)
  Record mixed := mkMixed { m_cp : TU -> car OC; m_ab : TU -> TAB; m_mul1 : TAB -> TA -> P1; m_mul2 : P1 -> TB -> P;
    m_add : car OC -> P -> car OC; m_to : P -> car OC }.
  (** A cell of memory holds an element of one of the tensors. *)
  Inductive val := VA (x : TA) | VB (x : TB) | VC (x : car OC).
  Definition asC (v : val) : car OC := match v with VC x => x | _ => o0 end.

  Variables (X : mixed) (e : ein) (ucp uab : TU) (C A B : desc).
  Definition cpref : car OC := m_cp X ucp.
  Definition product (x : TA) (y : TB) : P := m_mul2 X (m_mul1 X (m_ab X uab) x) y.

  (** G 48-57, 77-87.  (The cells of A and B hold elements of A and B; the other
      cases do not arise.) *)
  Definition mixed_step (tcomb : list Z) (s : car OC) (lcomb : list Z) : prog val (car OC) :=
    PRd (subscript A (ord e (eA e) tcomb lcomb)) (fun av =>
    PRd (subscript B (ord e (eB e) tcomb lcomb)) (fun bv =>
    PRet (match av, bv with VA x, VB y => m_add X s (product x y) | _, _ => s end))).
  (** G 45-57, 75-88: the link loop; 111-122: no links. *)
  Definition mixed_sum (tcomb : list Z) : prog val (car OC) :=
    match unique_link_dims e A with
    | [] => PRd (subscript A (ord e (eA e) tcomb [])) (fun av =>
            PRd (subscript B (ord e (eB e) tcomb [])) (fun bv =>
            PRet (match av, bv with VA x, VB y => m_to X (product x y) | _, _ => o0 end)))
    | dims => pfold (indices dims) (mixed_step tcomb) o0
    end.
  (** G 59-63, 90-94, 124-128: all in C's type. *)
  Definition mixed_store (ca : Z) (sum : car OC) : prog val unit :=
    let fin := PRd ca (fun v => PWr ca (VC (omul (asC v) cpref)) (PRd ca (fun v' => PWr ca (VC (oadd (asC v') sum)) (PRet tt)))) in
    if oeqb cpref o0 then PWr ca (VC o0) fin else fin.
  (** One iteration of the loops at G 66 and 109; the scalar case is one iteration. *)
  Definition mixed_body (tcomb : list Z) : prog val unit :=
    pbind (mixed_sum tcomb) (fun sum => mixed_store (subscript C (ord e (eC e) tcomb [])) sum).
End Mixed.
