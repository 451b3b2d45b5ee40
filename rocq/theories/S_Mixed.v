(** * S_Mixed: when mixed arithmetic is exact. *)
From Verif Require Import Base.
From Verif Require Import M_Mixed.

(** [jA], [jB], [jU]: what elements of A and B and the caller's prefactors are in
    the type of C.  The mixed operations are exact: converting everything to the
    type of C first and calculating there would give the same. *)
Record exact {OC : Ops} {TA TB TU TAB P1 P : Type} (X : @mixed OC TA TB TU TAB P1 P)
    (jA : TA -> car OC) (jB : TB -> car OC) (jU : TU -> car OC) (ucp uab : TU) : Prop := mkExact {
  ex_cp : m_cp X ucp = jU ucp;
  ex_add : forall s p, m_add X s p = oadd s (m_to X p);
  ex_mul : forall x y, m_to X (m_mul2 X (m_mul1 X (m_ab X uab) x) y) = omul (omul (jU uab) (jA x)) (jB y) }.
