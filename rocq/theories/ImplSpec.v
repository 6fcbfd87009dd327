(** What the rows of an implicit constraint must be. *)
From Coq Require Import ZArith List.
From Verif Require Import SegSpec EcsModel ImplModel.
Import ListNotations.
Open Scope Z_scope.

(** row i carries comparison type t *)
Definition row_is (l : list cmp) (i : Z) (t : cmp) : Prop := 0 <= i /\ nth_error l (Z.to_nat i) = Some t.
Definition mask_is (l : list bool) (i : Z) (b : bool) : Prop := 0 <= i /\ nth_error l (Z.to_nat i) = Some b.

(** consistency of all derived members with comparison types and mask *)
Definition rows_ok {F} (c : impl F) : Prop :=
  (forall i, covers (m_active c) i <-> mask_is (m_mask c) i true) /\
  (forall i, covers (m_inactive c) i <-> mask_is (m_mask c) i false) /\
  sorted_separated (m_active c) /\ sorted_separated (m_inactive c) /\
  (forall i, In i (m_ineq c) <-> row_is (m_cmp c) i Superior \/ row_is (m_cmp c) i Inferior) /\
  (forall i, covers (m_eq c) i <-> row_is (m_cmp c) i Equality) /\ sorted_separated (m_eq c).
Definition count_eq (l : list cmp) : nat := count_occ (fun a b : cmp => ltac:(decide equality)) l Equality.

(** constraints obtained through the interface *)
Inductive impl_reach {F} : impl F -> Prop :=
| ir_new f n comp mask : impl_reach (impl_new f n comp mask)
| ir_cmp c comp : impl_reach c -> impl_reach (impl_set_cmp c comp)
| ir_copy c : impl_reach c -> impl_reach (impl_copy c)
| ir_load c : impl_reach c -> impl_reach (impl_load (impl_saved c)).
(** sets of constraints built by successive additions *)
Inductive set_reach {F} : impl F -> list (impl F) -> Prop :=
| sr_new f : set_reach (set_new f) []
| sr_add s l c : set_reach s l -> impl_reach c -> set_reach (set_add s c) (l ++ [c]).

(** What equality of constraints compares: the class, the comparison types, the size
    of the right hand side, the functions, and for explicit constraints the address of
    the explicit function and the index sets, for locked joints the joint. *)
Definition same_constraint {F} (feq : F -> F -> bool) (a b : kcon F) : Prop :=
  m_cmp (kc_i a) = m_cmp (kc_i b) /\ m_rhs (kc_i a) = m_rhs (kc_i b) /\
  feq (m_fun (kc_i a)) (m_fun (kc_i b)) = true /\
  match kc_k a, kc_k b with
  | KImplicit, KImplicit => feq (m_fun (kc_i b)) (m_fun (kc_i a)) = true
  | KExplicit e, KExplicit e' => e = e'
  | KLocked _ l, KLocked _ l' => l = l' /\ feq (m_fun (kc_i b)) (m_fun (kc_i a)) = true
  | _, _ => False
  end.
