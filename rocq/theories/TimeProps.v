(** Property C75: right hand sides that vary with time.

    [hier_at s gs t], [by_sub_at s gs t]: rightHandSideAt(t) of the two solvers, gs
    being the right hand side functions of the constraints in the order they were
    added; [varies gs k c g]: the k-th constraint, c, has function g and at least a row
    of type Equality. *)
From Coq Require Import ZArith List Bool Reals.
From Verif Require Import EcsModel EcsSpec EcsRhsModel EcsRhsSpec EcsRhsExamples ImplModel ImplSpec HierModel HierSpec HierExamples
  BySubModel BySubSpec BySubExamples FdModel TimeModel TimeSpec TimeProofs TimeExamples.
Import ListNotations.
Local Open Scope nat_scope.

(** Which functions are accepted, and what a constraint then returns. *)
Theorem C75_accepted : forall (F V : Type) (c : tcon F V) (f : tfun V),
  (set_fun c (Some f) = None <-> tf_in f <> 1 \/ tf_inv f <> 1 \/ tf_space f <> tc_space c \/ exists t, In t (m_cmp (tc_i c)) /\ t <> Equality) /\
  (forall c', set_fun c (Some f) = Some c' -> tc_fun c' = Some f /\ tc_i c' = tc_i c /\ tc_space c' = tc_space c /\ tc_out c' = tc_out c).
Proof. exact @set_fun_spec. Qed.
Print Assumptions C75_accepted.

Theorem C75_value : forall (F V : Type) (c : tcon F V) t,
  (forall f, tc_fun c = Some f -> snd (at_time c t) = tf_val f t) /\
  (tc_fun c = None -> at_time c t = (c, tc_out c)) /\
  tc_i (fst (at_time c t)) = tc_i c /\ tc_fun (fst (at_time c t)) = tc_fun c.
Proof. exact @at_time_spec. Qed.
Print Assumptions C75_value.

(** Whatever the calls made on a constraint, its function has the right sizes; all rows
    are of type Equality if the comparison types are not changed. *)
Theorem C75_function : forall (F V : Type) (i : impl F) space o (l : list (top V)) f,
  tc_fun (fold_left tstep l (new_con i space o)) = Some f ->
  tf_in f = 1 /\ tf_inv f = 1 /\ tf_space f = space /\
  (no_type_change l -> m_cmp (tc_i (fold_left tstep l (new_con i space o))) = m_cmp i /\ all_equality (m_cmp i)).
Proof. exact @run_good. Qed.
Print Assumptions C75_function.

(** They may be changed afterwards: the solver then sets a right hand side that is not
    zero along a row of type EqualToZero, that checkRightHandSide refuses. *)
Theorem C75_type_change_refuted : exists (l : list (top Z)) (c : ic nat Z) (f : tfun Z) s s' x,
  let k := fold_left tstep l (new_con (impl_new 1 2 [Equality; Equality] [true; true]) 5 [0; 0]%Z) in
  tc_fun k = Some f /\ ic_i c = tc_i k /\ nth_error (m_cmp (ic_i c)) 1 = Some EqualToZero /\
  hreach Nat.eqb 0%Z clk_mem clk_ok s [(c, 0)] /\ hier_at Nat.eqb s [Some (tf_val f)] 3%Z = Some s' /\
  get_rhs_of Nat.eqb s' (ic_f c) 2 = Some (Some x) /\ check_rhs (fun z => negb (Z.eqb z 0)) true (ic_s c) x = false.
Proof.
  exists late_ops, late_ic, f1, late_hs, (match hier_at Nat.eqb late_hs [Some g1] 3%Z with Some s => s | None => late_hs end), [3; 9]%Z.
  split; [reflexivity|]. split; [reflexivity|]. split; [reflexivity|]. split; [exact late_hreach|].
  split; [vm_compute; reflexivity|]. split; vm_compute; reflexivity.
Qed.
Print Assumptions C75_type_change_refuted.

(** Without a function, rightHandSideAt returns the last value evaluated, which is not
    a right hand side of the constraint. *)
Theorem C75_no_function_refuted : exists (c : imp Z) (q : Z -> Z) (k : tcon nat Z) r,
  wf_imp 0%Z clk_mem clk_ok c /\ clk_ok q /\ tc_fun k = None /\ m_cmp (tc_i k) = s_cmp c /\
  rhs_from_config 0%Z c q = Some r /\ check_rhs (fun z => negb (Z.eqb z 0)) true c r = true /\
  forall t, let v := snd (at_time (from_config k (s_fun c q)) t) in v = s_fun c q /\ v <> r /\
    check_rhs (fun z => negb (Z.eqb z 0)) true c v = false.
Proof.
  exists (clk 2 0 Equality EqualToZero), (fun i => (i + 1) mod 10)%Z, (new_con (impl_new 1 2 [Equality; EqualToZero] [true; true]) 5 [0; 0]%Z), [2; 0]%Z.
  split; [apply clk_wf, clk_ok0|]. split; [vm_compute; intuition discriminate|]. split; [reflexivity|]. split; [reflexivity|].
  split; [vm_compute; reflexivity|]. split; [reflexivity|]. intros t. cbn. split; [reflexivity|]. split; [discriminate|reflexivity].
Qed.
Print Assumptions C75_no_function_refuted.

(** The hierarchical solver: each constraint that varies gets the value of its
    function, nothing else changes. *)
Theorem C75_solver : forall (F V : Type) (feq : F -> F -> bool) (zero : V) (mem : imp V -> list V -> Prop) (okq : (Z -> V) -> Prop),
  equivalence feq -> forall (s : hs F V) adds gs t, hreach feq zero mem okq s adds -> length gs = length adds ->
  (forall k c p g, nth_error adds k = Some (c, p) -> varies gs k c g -> length (g t) = s_nq (ic_s c)) ->
  exists s', hier_at feq s gs t = Some s' /\ hreach feq zero mem okq s' adds /\
    (forall k c p g, nth_error adds k = Some (c, p) -> varies gs k c g -> get_rhs_of feq s' (ic_f c) (s_nq (ic_s c)) = Some (Some (g t))) /\
    (forall k c p, nth_error adds k = Some (c, p) -> (forall g, ~ varies gs k c g) ->
       get_rhs_of feq s' (ic_f c) (s_nq (ic_s c)) = get_rhs_of feq s (ic_f c) (s_nq (ic_s c))) /\
    hcons s' = hcons s /\ prio s' = prio s /\ iqm s' = iqm s /\ ivm s' = ivm s /\ last_optional s' = last_optional s /\
    map l_cons (lvls s') = map l_cons (lvls s) /\ map l_cmp (lvls s') = map l_cmp (lvls s).
Proof. exact @hier_at_spec. Qed.
Print Assumptions C75_solver.

(** The right hand sides do not depend on the times used before. *)
Theorem C75_history : forall (F V : Type) (feq : F -> F -> bool) (zero : V) (mem : imp V -> list V -> Prop) (okq : (Z -> V) -> Prop),
  equivalence feq -> forall (s : hs F V) adds gs t u, hreach feq zero mem okq s adds -> length gs = length adds ->
  (forall v k c p g, nth_error adds k = Some (c, p) -> varies gs k c g -> length (g v) = s_nq (ic_s c)) ->
  exists s1 s2 s3, hier_at feq s gs t = Some s1 /\ hier_at feq s1 gs u = Some s2 /\ hier_at feq s gs u = Some s3 /\
  forall k c p, nth_error adds k = Some (c, p) -> get_rhs_of feq s2 (ic_f c) (s_nq (ic_s c)) = get_rhs_of feq s3 (ic_f c) (s_nq (ic_s c)).
Proof. exact @hier_history. Qed.
Print Assumptions C75_history.

(** The solver by substitution, when no two constraints have the same function. *)
Theorem C75_substitution : forall (F V : Type) (feq : F -> F -> bool) (zero : V) (iadd : Z -> Z -> Z) (mem : imp V -> list V -> Prop)
  (okq : (Z -> V) -> Prop), equivalence feq -> forall (P : con V (list V) -> Prop) (n m : Z), family n m P ->
  forall (s : bs F V) l gs t, breach feq zero iadd mem okq P n m s l -> distinct_functions feq l -> length gs = length l ->
  (forall k a g, nth_error l k = Some a -> varies gs k (bc_c (fst a)) g -> mem (ic_s (bc_c (fst a))) (g t)) ->
  exists s', by_sub_at feq zero s gs t = Some s' /\ breach feq zero iadd mem okq P n m s' l /\
    (forall k a g, nth_error l k = Some a -> varies gs k (bc_c (fst a)) g -> bget_of feq s' (fst a) = Some (Some (stored zero a (g t)))) /\
    (forall k a, nth_error l k = Some a -> (forall g, ~ varies gs k (bc_c (fst a)) g) -> bget_of feq s' (fst a) = bget_of feq s (fst a)) /\
    bs_ex s' = bs_ex s /\ bs_cons s' = bs_cons s /\ bs_free s' = bs_free s.
Proof. exact @by_sub_at_spec. Qed.
Print Assumptions C75_substitution.

(** Otherwise the value may go to another constraint: the one treated explicitly varies
    and keeps its right hand side, the other does not vary and gets the value. *)
Theorem C75_substitution_refuted : exists (s s' : bs nat Z) l c d p g,
  breach Nat.eqb 0%Z Z.add clk_mem clk_ok clkP 6 6 s l /\ l = [(c, Explicitly); (d, Numerically p)] /\
  varies [Some g; None] 0 (bc_c c) g /\ by_sub_at Nat.eqb 0%Z s [Some g; None] 3%Z = Some s' /\
  rhsl (bs_e s') = rhsl (bs_e s) /\ ~ In (g 3%Z) (rhsl (bs_e s)) /\
  get_rhs_of Nat.eqb (bs_h s) (bc_f d) 2 = Some (Some [0; 0]%Z) /\ get_rhs_of Nat.eqb (bs_h s') (bc_f d) 2 = Some (Some (g 3%Z)).
Proof.
  exists (fst shadow), (match by_sub_at Nat.eqb 0%Z (fst shadow) [Some g1; None] 3%Z with Some s => s | None => fst shadow end), (snd shadow), e4, e4', 0, g1.
  split; [exact shadow_breach|]. split; [vm_compute; reflexivity|]. split; [split; [reflexivity|cbn; auto]|].
  split; [vm_compute; reflexivity|]. split; [vm_compute; reflexivity|].
  split; [vm_compute; intros [H|[]]; discriminate|]. split; vm_compute; reflexivity.
Qed.
Print Assumptions C75_substitution_refuted.

(** A solver extracted on the interval from t1 to t2 has at time t the right hand sides
    of the original one at time t1 + t, or t1 - t when the interval is reversed. *)
Theorem C75_extract : forall (F : Type) (feq : F -> F -> bool) (s : hs F R) (fs : list (option (nat * rfun))) t1 t2 t,
  hier_at feq s (map (option_map (fun f => on_coords (fst f) (extract (snd f) t1 t2))) fs) t =
  hier_at feq s (map (option_map (fun f => on_coords (fst f) (snd f))) fs) (if gtb t1 t2 then t1 - t else t1 + t)%R.
Proof. exact @hier_extract. Qed.
Print Assumptions C75_extract.
Theorem C75_extract_substitution : forall (F : Type) (feq : F -> F -> bool) zero (s : bs F R) (fs : list (option (nat * rfun))) t1 t2 t,
  by_sub_at feq zero s (map (option_map (fun f => on_coords (fst f) (extract (snd f) t1 t2))) fs) t =
  by_sub_at feq zero s (map (option_map (fun f => on_coords (fst f) (snd f))) fs) (if gtb t1 t2 then t1 - t else t1 + t)%R.
Proof. exact @by_sub_extract. Qed.
Print Assumptions C75_extract_substitution.

Example C75_case :
  hreach Nat.eqb 0%Z clk_mem clk_ok set_hs ex_adds /\ map (fun a => m_cmp (ic_i (fst a))) ex_adds = [[Equality; Superior]; [Equality; Equality]; [Inferior; Equality]] /\
  get_rhs_whole set_hs = [0; 0; 5; 0; 0; 0]%Z /\
  option_map get_rhs_whole (hier_at Nat.eqb set_hs [None; Some g1; Some g2] 4%Z) = Some [4; 6; 5; 0; 8; 7]%Z.
Proof. split; [exact set_hreach|]. vm_compute. auto. Qed.
Example C75_substitution_case :
  breach Nat.eqb 0%Z Z.add clk_mem clk_ok clkP 6 6 bst bhow /\ distinct_functions Nat.eqb bhow /\
  bhow = [(e4, Explicitly); (n40, Numerically 0); (e2, Explicitly); (n44, Numerically 1)] /\
  bget_whole bst = [0; 0; 0; 0; 0; 0; 0; 0]%Z /\
  option_map bget_whole (by_sub_at Nat.eqb 0%Z bst [Some g1; Some g2; Some g2; None] 4%Z) = Some [8; 7; 0; 0; 4; 6; 8; 0]%Z.
Proof. split; [exact bst_breach|]. split; [exact bhow_distinct|]. split; [exact bhow_eq|]. vm_compute. auto. Qed.
Example C75_accepted_case :
  (exists c, set_fun (new_con (impl_new 1 2 [Equality; Equality] [true; true]) 5 [0; 0]%Z) (Some f1) = Some c /\ snd (at_time c 4%Z) = [4; 6]%Z) /\
  set_fun (new_con (impl_new 1 2 [Equality; Superior] [true; true]) 5 [0; 0]%Z) (Some f1) = None /\
  set_fun (new_con (impl_new 1 2 [Equality; Equality] [true; true]) 4 [0; 0]%Z) (Some f1) = None.
Proof. split; [eexists; split; reflexivity|]. split; reflexivity. Qed.
