(** Model of class hpp::constraints::Implicit: rows, comparison types, equality,
    right hand side.

    Source: /repo/src/implicit.cc, /repo/include/hpp/constraints/implicit.hh,
            /repo/include/hpp/constraints/implicit-constraint-set.hh. *)
From Coq Require Import ZArith List Bool.
From Verif Require Import SegModel ViewModel EcsModel EcsRhsModel.
Import ListNotations.
Open Scope Z_scope.

(** Members of Implicit (implicit.hh): comparison_, size of rhs_, parameterSize_,
    function_ (abstract), mask_, activeRows_, inactiveRows_, inequalityIndices_,
    equalityIndices_. *)
Section Impl.
Context {F : Type}.

Record impl := mkimpl {
  m_cmp : list cmp; m_rhs : nat; m_psize : nat; m_fun : F; m_mask : list bool;
  m_active : list (Z * Z); m_inactive : list (Z * Z);
  m_ineq : list Z; m_eq : list (Z * Z) }.

(** implicit.cc:44-52, computeParameterSize *)
Fixpoint param_size (l : list cmp) : nat :=
  match l with
  | [] => O
  | Equality :: t => S (param_size t)
  | _ :: t => param_size t
  end.
(** implicit.cc:139-150, computeActiveRows: activeRows_ is appended to and never
    cleared, inactiveRows is local. *)
Definition active_rows (old : list (Z * Z)) (mask : list bool) : list (Z * Z) :=
  shrink (old ++ true_segs 0 mask).
Definition inactive_rows (mask : list bool) : list (Z * Z) := shrink (true_segs 0 (map negb mask)).
(** implicit.cc:152-163, computeIndices *)
Fixpoint ineq_rows (i : Z) (l : list cmp) : list Z :=
  match l with
  | [] => []
  | (Superior | Inferior) :: t => i :: ineq_rows (i + 1) t
  | _ :: t => ineq_rows (i + 1) t
  end.
Definition eq_segs (l : list cmp) : list (Z * Z) := normalise (eq_rows 0 l).

(** implicit.cc:114-136, constructor; the size of rhs_ is f's outputSize. *)
Definition impl_new (f : F) (n : nat) (comp : list cmp) (mask : list bool) : impl :=
  mkimpl comp n (param_size comp) f mask (active_rows [] mask) (inactive_rows mask)
    (ineq_rows 0 comp) (eq_segs comp).
(** implicit.cc:104-108, comparisonType(comp) *)
Definition impl_set_cmp (c : impl) (comp : list cmp) : impl :=
  mkimpl comp (m_rhs c) (param_size comp) (m_fun c) (m_mask c) (m_active c) (m_inactive c)
    (ineq_rows 0 comp) (eq_segs comp).
(** implicit.cc:165-179, copy constructor: every member is copied *)
Definition impl_copy (c : impl) : impl :=
  mkimpl (m_cmp c) (m_rhs c) (m_psize c) (m_fun c) (m_mask c) (m_active c) (m_inactive c) (m_ineq c) (m_eq c).
(** implicit.cc:246-261, serialize: saved members and what loading rebuilds (the
    loaded object is default constructed: its row lists are empty). *)
Definition impl_saved (c : impl) : list cmp * nat * F * list bool := (m_cmp c, m_rhs c, m_fun c, m_mask c).
Definition impl_load (s : list cmp * nat * F * list bool) : impl :=
  let '(comp, n, f, mask) := s in
  mkimpl comp n (param_size comp) f mask (active_rows [] mask) (inactive_rows mask)
    (ineq_rows 0 comp) (eq_segs comp).
(** implicit-constraint-set.hh:61-82, ImplicitConstraintSet::add on the members
    inherited from Implicit (rhs_ and parameterSize_ are not updated; the function
    set is updated in place). *)
Definition set_new (f : F) : impl := impl_new f 0 [] [].
Definition set_add (s : impl) (c : impl) : impl :=
  let comp := m_cmp s ++ m_cmp c in
  let mask := m_mask s ++ m_mask c in
  mkimpl comp (m_rhs s) (m_psize s) (m_fun s) mask (active_rows (m_active s) mask) (inactive_rows mask)
    (ineq_rows 0 comp) (eq_segs comp).

(** implicit.cc:181-188, isEqual(other, swapAndTest) and 40-43 operator==.  [feq a b]
    is "same pointer or *a == *b"; the virtual call of the second test is the same
    function for two objects of class Implicit. *)
Variable feq : F -> F -> bool.
Fixpoint cmps_eqb (a b : list cmp) : bool :=
  match a, b with
  | [], [] => true
  | x :: s, y :: t => cmp_eqb x y && cmps_eqb s t
  | _, _ => false
  end.
Definition is_equal1 (a b : impl) : bool :=
  if negb (cmps_eqb (m_cmp a) (m_cmp b)) then false
  else if negb (Nat.eqb (m_rhs a) (m_rhs b)) then false
  else if negb (feq (m_fun a) (m_fun b)) then false
  else true.
Definition is_equal (a b : impl) : bool := if is_equal1 a b then is_equal1 b a else false.

(** The classes derived from Implicit: Explicit (explicit.hh, members
    inputToOutput_ -- compared by address --, inputConf_, outputConf_,
    inputVelocity_, outputVelocity_) and LockedJoint (locked-joint.hh, derived from
    Explicit: jointName_, ranks, configSpace_; the name and the space are identified
    by numbers).  The classes of namespace explicit_ derive from Explicit without
    redefining isEqual. *)
Record expl := mkexpl { x_ptr : nat; x_in : list (Z * Z); x_out : list (Z * Z); x_inv : list (Z * Z); x_outv : list (Z * Z) }.
Record lock := mklock { k_name : nat; k_rq : Z; k_rv : Z; k_space : nat }.
Inductive kind := KImplicit | KExplicit (e : expl) | KLocked (e : expl) (l : lock).
Record kcon := mkkcon { kc_i : impl; kc_k : kind }.

Definition seg_eqb (a b : Z * Z) : bool := Z.eqb (fst a) (fst b) && Z.eqb (snd a) (snd b).
Fixpoint segs_eqb (a b : list (Z * Z)) : bool :=
  match a, b with
  | [], [] => true
  | x :: s, y :: t => seg_eqb x y && segs_eqb s t
  | _, _ => false
  end.
(** explicit.cc:131-135 *)
Definition expl_eqb (a b : expl) : bool :=
  Nat.eqb (x_ptr a) (x_ptr b) && segs_eqb (x_in a) (x_in b) && segs_eqb (x_out a) (x_out b) &&
  segs_eqb (x_inv a) (x_inv b) && segs_eqb (x_outv a) (x_outv b).
(** locked-joint.cc:202-205 *)
Definition lock_eqb (a b : lock) : bool :=
  Nat.eqb (k_name a) (k_name b) && Z.eqb (k_rq a) (k_rq b) && Z.eqb (k_rv a) (k_rv b) && Nat.eqb (k_space a) (k_space b).
(** the Explicit part of a constraint: dynamic_cast<const Explicit&> *)
Definition as_explicit (k : kind) : option expl :=
  match k with KImplicit => None | KExplicit e | KLocked e _ => Some e end.
(** virtual call a.isEqual(b, false): implicit.cc:181-188, explicit.cc:127-141,
    locked-joint.cc:198-211 *)
Definition eq_noswap (a b : kcon) : bool :=
  match kc_k a with
  | KImplicit => is_equal1 (kc_i a) (kc_i b)
  | KExplicit e => match as_explicit (kc_k b) with Some e' => expl_eqb e e' | None => false end
  | KLocked _ l =>
      match kc_k b with
      | KLocked _ l' => is_equal1 (kc_i a) (kc_i b) && lock_eqb l l'
      | _ => false
      end
  end.
(** virtual call a.isEqual(b, true), i.e. operator== *)
Definition eq_con (a b : kcon) : bool :=
  match kc_k a with
  | KImplicit => is_equal1 (kc_i a) (kc_i b) && eq_noswap b a
  | KExplicit e =>
      (is_equal1 (kc_i a) (kc_i b) && eq_noswap b a) &&
      match as_explicit (kc_k b) with Some e' => expl_eqb e e' && eq_noswap b a | None => false end
  | KLocked _ l =>
      match kc_k b with
      | KLocked _ l' => is_equal1 (kc_i a) (kc_i b) && lock_eqb l l' && eq_noswap b a
      | _ => false
      end
  end.
End Impl.
Arguments impl : clear implicits.
Arguments kcon : clear implicits.

(** implicit.cc:110-112, setInactiveRowsToZero; None = a row outside the vector *)
Section Rows.
Context {V : Type}.
Variable zero : V.
Fixpoint zero_rows_from (i : Z) (rows : list (Z * Z)) (v : list V) : list V :=
  match v with
  | [] => []
  | x :: t => (if existsb (fun s => (fst s <=? i) && (i <? send s)) rows then zero else x) :: zero_rows_from (i + 1) rows t
  end.
Definition zero_rows (rows : list (Z * Z)) (v : list V) : option (list V) :=
  if forallb (seg_inb (Z.of_nat (length v))) rows then Some (zero_rows_from 0 rows v) else None.

(** implicit.cc:212-220, rightHandSideFromConfig: exp of the equality rows of the
    logarithm of the value (same code as for explicit sets: [project]). *)
Definition rhs_from_config (c : imp V) (q : Z -> V) : option (list V) := project zero c (s_fun c q).
(** implicit.cc:222-229, checkRightHandSide; [same] = same space pointer;
    [nz x] = (x != 0) *)
Definition check_rhs (nz : V -> bool) (same : bool) (c : imp V) (rhs : list V) : bool :=
  same && forallb (fun p => match fst p with Equality => true | _ => negb (nz (snd p)) end) (combine (s_cmp c) (s_log c rhs)).
End Rows.
