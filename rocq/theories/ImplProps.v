(** Properties C24-C26: rows, right hand side and equality of implicit constraints. *)
From Coq Require Import ZArith List Bool.
From Verif Require Import SegSpec EcsModel EcsRhsModel EcsRhsSpec EcsRhsExamples ImplModel ImplSpec ImplProofs.
Import ListNotations.
Open Scope Z_scope.

(** C24: [impl_reach]: constructed, comparison types changed, copied, saved and loaded
    in any order; [rows_ok]: active, inactive, equality and inequality rows are those
    of the mask and of the comparison types. *)
Theorem C24_rows : forall (F : Type) (c : impl F), impl_reach c ->
  rows_ok c /\ m_psize c = count_eq (m_cmp c).
Proof. exact @impl_reach_ok. Qed.
Print Assumptions C24_rows.

(** Sets built by successive additions: rows match, but the parameter size stays 0. *)
Theorem C24_constraint_sets : forall (F : Type) (s : impl F) l, set_reach s l ->
  rows_ok s /\ m_cmp s = concat (map m_cmp l) /\ m_mask s = concat (map m_mask l) /\
  m_psize s = O /\ positive (m_active s).
Proof. exact @set_reach_ok. Qed.
Print Assumptions C24_constraint_sets.

Definition c24 : impl nat :=
  impl_load (impl_saved (impl_set_cmp (impl_new 7%nat 4 [EqualToZero; EqualToZero; EqualToZero; EqualToZero] [true; true; false; true])
    [Equality; Superior; Equality; Inferior])).
Example C24_case : impl_reach c24 /\ m_active c24 = [(0, 2); (3, 1)] /\ m_inactive c24 = [(2, 1)] /\
  m_eq c24 = [(0, 1); (2, 1)] /\ m_ineq c24 = [1; 3] /\ m_psize c24 = 2%nat.
Proof. split; [repeat constructor | vm_compute; auto 6]. Qed.
Example C24_set_case :
  let s := set_add (set_add (set_new 0%nat) c24) c24 in
  set_reach s [c24; c24] /\ m_active s = [(0, 2); (3, 3); (7, 1)] /\ m_inactive s = [(2, 1); (6, 1)] /\
  m_psize s = 0%nat /\ count_eq (m_cmp s) = 4%nat.
Proof.
  split; [|vm_compute; auto]. apply (sr_add _ [c24]); [|repeat constructor]. apply (sr_add _ []); repeat constructor.
Qed.

(** C25: [nz x] is the test x <> 0 *)
Theorem C25_from_config : forall (V : Type) (zero : V) (mem : imp V -> list V -> Prop) (okq : (Z -> V) -> Prop) (nz : V -> bool),
  nz zero = false -> forall (c : imp V) q, wf_imp zero mem okq c -> okq q ->
  exists r, rhs_from_config zero c q = Some r /\ mem c r /\
    s_log c r = keep_eq zero (s_cmp c) (s_log c (s_fun c q)) /\
    check_rhs nz true c r = true /\
    ((forall t, In t (s_cmp c) -> t = Equality) -> s_exp c (s_log c (s_fun c q)) = s_fun c q ->
     minus_refl zero mem c -> r = s_fun c q /\ s_minus c (s_fun c q) r = repeat zero (s_nv c)).
Proof. exact @rhs_from_config_spec. Qed.
Print Assumptions C25_from_config.

(** the check accepts exactly the right hand sides vanishing off the Equality rows *)
Theorem C25_check : forall (V : Type) (zero : V) (nz : V -> bool), nz zero = false ->
  forall (c : imp V) r, length (s_cmp c) = length (s_log c r) -> (forall x, nz x = false -> x = zero) ->
  (check_rhs nz true c r = true <->
   forall k t x, nth_error (s_cmp c) k = Some t -> nth_error (s_log c r) k = Some x -> t = Equality \/ x = zero).
Proof. exact @check_rhs_spec. Qed.
Print Assumptions C25_check.

Definition znz (x : Z) : bool := negb (x =? 0).
Example C25_case :
  let q := fun i => if i =? 0 then 3 else if i =? 1 then 8 else if i =? 2 then 7 else if i =? 3 then 4 else 0 in
  let c := clk 2 0 EqualToZero Equality in
  wf_imp 0 clk_mem clk_ok c /\ clk_ok q /\ s_fun c q = [4; 6] /\ rhs_from_config 0 c q = Some [0; 6] /\
  check_rhs znz true c [0; 6] = true /\ check_rhs znz true c [4; 6] = false /\
  s_minus (clk 2 0 Equality Equality) (s_fun c q) [4; 6] = [0; 0].
Proof. split; [apply clk_wf, clk_ok0|]. split; [unfold clk_ok; cbn; Lia.lia|]. vm_compute. auto 6. Qed.

(** C26: equality over the classes Implicit, Explicit, LockedJoint *)
Theorem C26_meaning : forall (F : Type) (feq : F -> F -> bool) (a b : kcon F),
  eq_con feq a b = true <-> same_constraint feq a b.
Proof. exact @eq_con_spec. Qed.
Print Assumptions C26_meaning.

Theorem C26_equivalence : forall (F : Type) (feq : F -> F -> bool),
  ((forall f g, feq f g = true -> feq g f = true) -> forall a b : kcon F, eq_con feq a b = eq_con feq b a) /\
  ((forall f, feq f f = true) -> forall a : kcon F, eq_con feq a a = true) /\
  ((forall f g h, feq f g = true -> feq g h = true -> feq f h = true) ->
    forall a b c : kcon F, eq_con feq a b = true -> eq_con feq b c = true -> eq_con feq a c = true).
Proof. exact @eq_con_equiv. Qed.
Print Assumptions C26_equivalence.

(** for plain implicit constraints symmetry needs nothing of the functions *)
Theorem C26_implicit_symmetric : forall (F : Type) (feq : F -> F -> bool),
  (forall a b : impl F, is_equal feq a b = is_equal feq b a) /\
  ((forall f, feq f f = true) -> forall a : impl F, is_equal feq a a = true) /\
  ((forall f g h, feq f g = true -> feq g h = true -> feq f h = true) ->
    forall a b c : impl F, is_equal feq a b = true -> is_equal feq b c = true -> is_equal feq a c = true).
Proof. exact @is_equal_equiv. Qed.
Print Assumptions C26_implicit_symmetric.

(** the mask is ignored *)
Theorem C26_mask_ignored : forall (F : Type) (feq : F -> F -> bool) (a : kcon F) mask act inact,
  (forall f, feq f f = true) ->
  let i := kc_i a in
  eq_con feq a (mkkcon (mkimpl (m_cmp i) (m_rhs i) (m_psize i) (m_fun i) mask act inact (m_ineq i) (m_eq i)) (kc_k a)) = true.
Proof. exact @eq_con_ignores. Qed.
Print Assumptions C26_mask_ignored.

Example C26_case :
  let e := mkexpl 1 [(0, 2)] [(2, 2)] [(0, 2)] [(2, 2)] in
  let e2 := mkexpl 2 [(0, 2)] [(2, 2)] [(0, 2)] [(2, 2)] in
  let i1 := impl_new 5%nat 2 [Equality; Equality] [true; true] in
  let i2 := impl_new 5%nat 2 [Equality; Equality] [true; false] in
  let i3 := impl_new 6%nat 2 [Equality; Equality] [true; true] in
  let k := mklock 3 2 2 9 in
  eq_con Nat.eqb (mkkcon i1 (KExplicit e)) (mkkcon i2 (KExplicit e)) = true /\
  m_active i1 <> m_active i2 /\
  eq_con Nat.eqb (mkkcon i1 (KExplicit e)) (mkkcon i1 (KExplicit e2)) = false /\
  eq_con Nat.eqb (mkkcon i1 KImplicit) (mkkcon i1 (KExplicit e)) = false /\
  eq_con Nat.eqb (mkkcon i1 (KExplicit e)) (mkkcon i1 (KLocked e k)) = false /\
  eq_con Nat.eqb (mkkcon i1 (KLocked e k)) (mkkcon i1 (KLocked e2 k)) = true /\
  eq_con Nat.eqb (mkkcon i1 (KLocked e k)) (mkkcon i3 (KLocked e k)) = false.
Proof. vm_compute. repeat split; congruence. Qed.
