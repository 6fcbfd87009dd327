(** Property C90: satisfaction of one constraint of the solver by substitution. *)
From Coq Require Import ZArith List Bool Floats.SpecFloat.
From Verif Require Import EcsModel EcsSpec EcsRhsModel EcsRhsSpec EcsRhsExamples NanModel ImplModel HierModel HierSpec HierErrProofs BySubModel BySubSpec BySubExamples
  AccModel AccSpec AccExamples OneConModel OneConProofs OneConExamples.
Import ListNotations.
Local Open Scope nat_scope.

(** The solver is satisfied exactly when each constraint is, provided an explicit
    constraint shares its function with no other one and no numerical one is an inequality. *)
Theorem C90_per_constraint : forall (F V : Type) (feq : F -> F -> bool) (zero : V) (iadd : Z -> Z -> Z) (mem : imp V -> list V -> Prop)
  (okq : (Z -> V) -> Prop), equivalence feq -> forall (P : con V (list V) -> Prop) (n m : Z), family n m P ->
  forall (sqn : list V -> spec_float) (add sub : V -> V -> V) (neg : V -> V) (ltb : V -> V -> bool) (s : bs F V) l ineq sqthr d q,
  breach feq zero iadd mem okq P n m s l -> (last_optional (bs_h s) = true -> numeric_ones l <> []) ->
  flt fzero sqthr = true -> flt fzero (fmul d d) = true ->
  (forall c p, In (c, Numerically p) l -> forall t, In t (s_cmp (ic_s (bc_c c))) -> t <> Superior /\ t <> Inferior) ->
  (forall b c p, In (b, Numerically p) l -> In (c, Explicitly) l -> feq (bc_f b) (bc_f c) = false) ->
  (forall i j b c, nth_error (explicit_ones l) i = Some b -> nth_error (explicit_ones l) j = Some c -> feq (bc_f b) (bc_f c) = true -> i = j) ->
  (forall c h b error e, In (c, h) l -> bcon_sat feq zero sqn s c sqthr d q error = Some (b, true, e) -> isnan (sqn e) = false) ->
  let ok c := forall error, length error = s_nv (ic_s (bc_c c)) -> exists e, bcon_sat feq zero sqn s c sqthr d q error = Some (true, true, e) in
  (bsat zero add sub neg ltb sqn sqthr d ineq s q = Some true <->
   (forall c p, In (c, Numerically p) l -> p < counted (bs_h s) (numeric_ones l) -> ok c) /\ (forall c, In (c, Explicitly) l -> ok c)).
Proof. exact @all_tests. Qed.
Print Assumptions C90_per_constraint.

(** what is computed: the error of the constraint in the implicit part or in the explicit set *)
Theorem C90_numeric : forall (F V : Type) (feq : F -> F -> bool) (zero : V) (iadd : Z -> Z -> Z) (mem : imp V -> list V -> Prop)
  (okq : (Z -> V) -> Prop), equivalence feq -> forall (P : con V (list V) -> Prop) (n m : Z), family n m P ->
  forall (sqn : list V -> spec_float) (s : bs F V) l c p sqthr d q error, breach feq zero iadd mem okq P n m s l ->
  In (c, Numerically p) l -> length error = s_nv (ic_s (bc_c c)) ->
  exists r, get_rhs_of feq (bs_h s) (bc_f c) (s_nq (ic_s (bc_c c))) = Some (Some r) /\ length r = s_nq (ic_s (bc_c c)) /\
  let e := masked zero (m_mask (ic_i (bc_c c))) (s_minus (ic_s (bc_c c)) (s_fun (ic_s (bc_c c)) q) r) in
  bcon_sat feq zero sqn s c sqthr d q error = Some (flt (sqn e) sqthr, true, e) /\
  hcon_sat feq zero sqn (bs_h s) (bc_c c) sqthr q = Some (flt (sqn e) sqthr, true, e).
Proof. exact @numeric_test. Qed.
Print Assumptions C90_numeric.

Theorem C90_explicit : forall (F V : Type) (feq : F -> F -> bool) (zero : V) (iadd : Z -> Z -> Z) (mem : imp V -> list V -> Prop)
  (okq : (Z -> V) -> Prop), equivalence feq -> forall (P : con V (list V) -> Prop) (n m : Z), family n m P ->
  forall (sqn : list V -> spec_float) (s : bs F V) l c i sqthr d q error, breach feq zero iadd mem okq P n m s l ->
  nth_error (explicit_ones l) i = Some c ->
  (forall b p, In (b, Numerically p) l -> feq (bc_f b) (bc_f c) = false) ->
  (forall j b, j < i -> nth_error (explicit_ones l) j = Some b -> feq (bc_f b) (bc_f c) = false) ->
  length error = s_nv (ic_s (bc_c c)) ->
  exists r, nth_error (rhsl (bs_e s)) i = Some r /\
  let e := s_minus (ic_s (bc_c c)) (s_fun (ic_s (bc_c c)) q) r in
  bcon_sat feq zero sqn s c sqthr d q error = Some (flt (sqn e) (fmul d d), true, e).
Proof. exact @explicit_test. Qed.
Print Assumptions C90_explicit.

(** a constraint the function of which is not in the solver *)
Theorem C90_unknown : forall (F V : Type) (feq : F -> F -> bool) (zero : V) (iadd : Z -> Z -> Z) (mem : imp V -> list V -> Prop)
  (okq : (Z -> V) -> Prop) (P : con V (list V) -> Prop) (n m : Z), family n m P ->
  forall (sqn : list V -> spec_float) (s : bs F V) l c sqthr d q error, breach feq zero iadd mem okq P n m s l ->
  (forall b h, In (b, h) l -> feq (bc_f b) (bc_f c) = false) -> length error = s_nv (ic_s (bc_c c)) ->
  bcon_sat feq zero sqn s c sqthr d q error = Some (false, false, error).
Proof. exact @unknown_test. Qed.
Print Assumptions C90_unknown.

(** An explicit constraint and an implicit one with the same function: each is reported
    satisfied, with a null error, and the solver is not. *)
Theorem C90_shared_function_refuted : exists (s : bs nat Z) l c b p q,
  breach Nat.eqb 0%Z Z.add clk_mem clk_ok clkP 6 6 s l /\ l = [(c, Explicitly); (b, Numerically p)] /\ bc_f b = bc_f c /\
  bcon_sat Nat.eqb 0%Z zsqn s c (fl 1) (fl 1) q [0; 0]%Z = Some (true, true, [0; 0]%Z) /\
  bcon_sat Nat.eqb 0%Z zsqn s b (fl 1) (fl 1) q [0; 0]%Z = Some (true, true, [0; 0]%Z) /\
  bsat 0%Z Z.add Z.sub Z.opp Z.ltb zsqn (fl 1) (fl 1) 0%Z s q = Some false.
Proof. exact shared_refuted. Qed.
Print Assumptions C90_shared_function_refuted.

Example C90_case :
  breach Nat.eqb 0%Z Z.add clk_mem clk_ok clkP 6 6 mixed_set (snd mixed) /\ snd mixed = [(e4, Explicitly); (n40, Numerically 0)] /\
  bcon_sat Nat.eqb 0%Z zsqn mixed_set n40 (fl 30) (fl 5) (fun i => i) [9; 9]%Z = Some (true, true, [4; 0]%Z) /\
  bcon_sat Nat.eqb 0%Z zsqn mixed_set e4 (fl 30) (fl 5) (fun i => i) [9; 9]%Z = Some (false, true, [-5; -1]%Z) /\
  bcon_sat Nat.eqb 0%Z zsqn mixed_set e4 (fl 30) (fl 6) (fun i => i) [9; 9]%Z = Some (true, true, [-5; -1]%Z) /\
  bcon_sat Nat.eqb 0%Z zsqn mixed_set e2 (fl 30) (fl 6) (fun i => i) [9; 9]%Z = Some (false, false, [9; 9]%Z).
Proof. split; [exact mixed_set_breach|]. vm_compute. auto 10. Qed.
