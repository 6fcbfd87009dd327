(** Properties C12-C17: sets of explicit constraints (class ExplicitConstraintSet).

    [family n m P]: the constraints offered to the set (those satisfying P) have one
    contiguous output, intervals inside the configuration (size n) and velocity
    (size m), inputs in increasing order, and configuration and velocity intervals
    describing the same joints.  [reach]: states obtained from the empty set by any
    sequence of calls to add with members of P. *)
From Coq Require Import ZArith List Permutation.
From Verif Require Import SegModel SegSpec EcsModel EcsSpec EcsOrderProofs EcsFinalProofs EcsOverflowProofs.
Import ListNotations.
Open Scope Z_scope.

(** C12 *)
Theorem C12_add_iff_acceptable : forall (V Rh : Type) iadd (P : con V Rh -> Prop) n m,
  family n m P -> forall (st : ecs V Rh) c, reach iadd P n m st -> P c ->
  exists fuel0, forall fuel, (fuel0 <= fuel)%nat ->
  (acceptable (data st) c -> exists st', add iadd fuel st c = (st', Added (length (data st))) /\
     data st' = data st ++ [c] /\ rhsl st' = rhsl st ++ [c_rhs0 c]) /\
  (~ acceptable (data st) c ->
    add iadd fuel st c = (st, Refused) \/ add iadd fuel st c = (st, Thrown)).
Proof. exact @add_iff. Qed.
Print Assumptions C12_add_iff_acceptable.

Theorem C12_outcomes : forall (V Rh : Type) iadd (P : con V Rh -> Prop) n m,
  family n m P -> forall (st st' : ecs V Rh) c fuel r, reach iadd P n m st -> P c ->
  add iadd fuel st c = (st', r) ->
  r <> Undef /\
  (forall k, r = Added k -> k = length (data st) /\ acceptable (data st) c /\ data st' = data st ++ [c]) /\
  ((forall k, r <> Added k) -> st' = st) /\
  (r = Refused \/ r = Thrown -> ~ acceptable (data st) c) /\
  (r = Thrown -> meet (c_in c) (c_out c)).
Proof. exact @add_any_fuel. Qed.
Print Assumptions C12_outcomes.

(** the exception announced for overlapping input and output is not always thrown *)
Theorem C12_overlap_exception_refuted :
  exists (c : con Z Z), meet (c_in c) (c_out c) /\ wf_con 6 6 c /\
    snd (add Z.add 100 (init 6 6) c) = Refused.
Proof. exact self_overlap_not_thrown. Qed.
Print Assumptions C12_overlap_exception_refuted.

Example C12_case : family 6 6 (fun c => In c exs) /\
  snd (run Z.add 20 (init 6 6) [exB; exA; exC; exD; exE; mk [(1, 1)] (1, 1) EqualToZero])
    = [Added 0; Added 1; Refused; Refused; Refused; Thrown].
Proof. split; [exact ex_family | vm_compute; reflexivity]. Qed.

(** C13 *)
Theorem C13_no_double_output_no_cycle : forall (V Rh : Type) iadd (P : con V Rh -> Prop) n m,
  family n m P -> forall (st : ecs V Rh), reach iadd P n m st ->
  (forall k1 k2 c1 c2 i, nth_error (data st) k1 = Some c1 -> nth_error (data st) k2 = Some c2 ->
     covers (c_out c1) i -> covers (c_out c2) i -> k1 = k2) /\
  (forall k1 k2 c1 c2 i, nth_error (data st) k1 = Some c1 -> nth_error (data st) k2 = Some c2 ->
     covers (c_outv c1) i -> covers (c_outv c2) i -> k1 = k2) /\
  (forall c i, In c (data st) -> covers (c_out c) i -> ~ needs (data st) c i).
Proof. exact @no_double_no_cycle. Qed.
Print Assumptions C13_no_double_output_no_cycle.

Theorem C13_add_terminates : forall (V Rh : Type) iadd (P : con V Rh -> Prop) n m,
  family n m P -> forall (st : ecs V Rh) c, reach iadd P n m st -> P c ->
  exists fuel0, forall fuel, (fuel0 <= fuel)%nat -> snd (add iadd fuel st c) <> NoFuel.
Proof. exact @loop_check_terminates. Qed.
Print Assumptions C13_add_terminates.

(** without consistency between configuration and velocity intervals add can
    recurse forever *)
Theorem C13_inconsistent_intervals_refuted :
  exists (c1 c2 : con Z Z) st, wf_con 4 4 c1 /\ wf_con 4 4 c2 /\
    add Z.add 10 (init 4 4) c1 = (st, Added 0) /\ acceptable (data st) c2 /\
    forall fuel, add Z.add fuel st c2 = (st, NoFuel).
Proof. exact inconsistent_endless. Qed.
Print Assumptions C13_inconsistent_intervals_refuted.

(** C14 *)
Theorem C14_index_sets : forall (V Rh : Type) iadd (P : con V Rh -> Prop) n m,
  family n m P -> forall (st : ecs V Rh), reach iadd P n m st ->
  (forall i, covers (outArgs st) i <-> output (data st) i) /\
  (forall i, covers (notOutArgs st) i <-> 0 <= i < n /\ ~ output (data st) i) /\
  (forall i, covers (inArgs st) i <-> input (data st) i /\ ~ output (data st) i) /\
  (forall i, covers (outDers st) i <-> outputv (data st) i) /\
  (forall i, covers (notOutDers st) i <-> 0 <= i < m /\ ~ outputv (data st) i) /\
  (forall i, covers (inDers st) i <-> inputv (data st) i /\ ~ outputv (data st) i) /\
  Forall sorted_separated [outArgs st; notOutArgs st; inArgs st; outDers st; notOutDers st; inDers st].
Proof. exact @index_sets. Qed.
Print Assumptions C14_index_sets.

Theorem C14_unsorted_inputs_refuted :
  exists (c : con Z Z) st i, add Z.add 100 (init 6 6) c = (st, Added 0) /\
    input [c] i /\ ~ output [c] i /\ ~ covers (inArgs st) i /\ ~ covers (inDers st) i.
Proof. exact unsorted_inputs_lost. Qed.
Print Assumptions C14_unsorted_inputs_refuted.

Example C14_case : reach Z.add (fun c => In c exs) 6 6 ex_st /\
  outArgs ex_st = [(4, 2)] /\ notOutArgs ex_st = [(0, 4)] /\ inArgs ex_st = [(0, 3)].
Proof. split; [exact ex_reach | vm_compute; auto]. Qed.

(** C15 *)
Theorem C15_computation_order : forall (V Rh : Type) iadd (P : con V Rh -> Prop) n m,
  family n m P -> forall (st : ecs V Rh), reach iadd P n m st ->
  Permutation (order st) (seq 0 (length (data st))) /\
  (forall l1 k l2 c d k', order st = l1 ++ k :: l2 ->
     nth_error (data st) k = Some c -> nth_error (data st) k' = Some d ->
     meet (c_in c) (c_out d) \/ meet (c_inv c) (c_outv d) -> In k' l1).
Proof. exact @order_spec. Qed.
Print Assumptions C15_computation_order.

Example C15_case : reach Z.add (fun c => In c exs) 6 6 ex_st /\ data ex_st = [exB; exA] /\ order ex_st = [1; 0]%nat.
Proof. split; [exact ex_reach | split; [reflexivity | vm_compute; reflexivity]]. Qed.

(** C16 *)
Theorem C16_solve : forall (V Rh : Type) iadd (P : con V Rh -> Prop) n m,
  family n m P -> forall (st : ecs V Rh) rl q, reach iadd P n m st ->
  length rl = length (data st) -> (forall c, In c (data st) -> sized c) ->
  exists q', solve (with_rhs st rl) q = Some q' /\
    solution (combine (data st) rl) q q' /\
    (forall q2, solution (combine (data st) rl) q q2 -> forall i, q2 i = q' i).
Proof. exact @solve_spec. Qed.
Print Assumptions C16_solve.

Theorem C16_solve_depends_on_inputs_only : forall (V Rh : Type) iadd (P : con V Rh -> Prop) n m,
  family n m P -> forall (st : ecs V Rh) rl q1 q2 r1 r2, reach iadd P n m st ->
  length rl = length (data st) -> (forall c, In c (data st) -> sized c) ->
  (forall i, ~ output (data st) i -> q1 i = q2 i) ->
  solve (with_rhs st rl) q1 = Some r1 -> solve (with_rhs st rl) q2 = Some r2 -> forall i, r1 i = r2 i.
Proof. exact @solve_inputs_only. Qed.
Print Assumptions C16_solve_depends_on_inputs_only.

Theorem C16_solve_twice : forall (V Rh : Type) iadd (P : con V Rh -> Prop) n m,
  family n m P -> forall (st : ecs V Rh) rl q r1 r2, reach iadd P n m st ->
  length rl = length (data st) -> (forall c, In c (data st) -> sized c) ->
  solve (with_rhs st rl) q = Some r1 -> solve (with_rhs st rl) r1 = Some r2 -> forall i, r2 i = r1 i.
Proof. exact @solve_twice. Qed.
Print Assumptions C16_solve_twice.

Theorem C16_solve_independent_of_add_order : forall (V Rh : Type) iadd (P : con V Rh -> Prop) n m,
  family n m P -> forall (st1 st2 : ecs V Rh) rl1 rl2 q r1 r2,
  reach iadd P n m st1 -> reach iadd P n m st2 ->
  length rl1 = length (data st1) -> length rl2 = length (data st2) ->
  (forall c, In c (data st1) -> sized c) ->
  Permutation (combine (data st1) rl1) (combine (data st2) rl2) ->
  solve (with_rhs st1 rl1) q = Some r1 -> solve (with_rhs st2 rl2) q = Some r2 -> forall i, r1 i = r2 i.
Proof. exact @solve_add_order. Qed.
Print Assumptions C16_solve_independent_of_add_order.

(** exB first, exA second: q4 = q0 + q1 + rhs_A, q5 = q2 + q4 + rhs_B *)
Example C16_case : reach Z.add (fun c => In c exs) 6 6 ex_st /\ (forall c, In c (data ex_st) -> sized c) /\
  option_map (fun q' => map q' [0; 1; 2; 3; 4; 5]) (solve (with_rhs ex_st [100; 1000]) (fun i => i)) =
  Some [0; 1; 2; 3; 1001; 1103].
Proof. split; [exact ex_reach | split; [exact ex_sized | vm_compute; reflexivity]]. Qed.

(** C17 *)
Theorem C17_dependencies : forall (V Rh : Type) iadd (P : con V Rh -> Prop) n m,
  family n m P -> exact_add iadd -> forall (st : ecs V Rh) k c j,
  reach iadd P n m st -> nth_error (data st) k = Some c ->
  0 <= deps st k j /\ (0 < deps st k j <-> needsv (data st) c j /\ ~ outputv (data st) j).
Proof. exact @deps_spec. Qed.
Print Assumptions C17_dependencies.

Theorem C17_dof_dependencies : forall (V Rh : Type) iadd (P : con V Rh -> Prop) n m,
  family n m P -> exact_add iadd -> forall (st : ecs V Rh) junk,
  reach iadd P n m st -> 0 < cardinal (inDers st) ->
  length (dof_deps junk st) = length (indices (outDers st)) /\
  forall p i, nth_error (indices (outDers st)) p = Some i ->
  exists row, nth_error (dof_deps junk st) p = Some row /\ length row = length (indices (inDers st)) /\
  forall x j, nth_error (indices (inDers st)) x = Some j ->
  exists v, nth_error row x = Some v /\ 0 <= v /\
    (0 < v <-> exists c, In c (data st) /\ covers (c_outv c) i /\ needsv (data st) c j).
Proof. exact @dof_deps_spec. Qed.
Print Assumptions C17_dof_dependencies.

(** without any free input the number of rows is the size of the velocity *)
Theorem C17_dof_dependencies_no_input_refuted :
  exists (st : ecs Z Z) (c : con Z Z), add Z.add 10 (init 3 3) c = (st, Added 0) /\ wf_con 3 3 c /\
    length (dof_deps (fun _ => []) st) <> length (indices (outDers st)).
Proof. exact dof_deps_no_input. Qed.
Print Assumptions C17_dof_dependencies_no_input_refuted.

(** with the 32-bit counters of the code a dependency is lost in a chain of 33
    constraints of dimension two, and another count is negative *)
Theorem C17_dependencies_overflow_refuted :
  exists st : ecs Z Z, reach iadd32 islink chain_dim chain_dim st /\
    nth_error (data st) 32 = Some (link 32) /\
    needsv (data st) (link 32) 0 /\ ~ outputv (data st) 0 /\ deps st 32%nat 0 = 0 /\ deps st 31%nat 0 < 0.
Proof. exact overflow_loses_dependency. Qed.
Print Assumptions C17_dependencies_overflow_refuted.

Example C17_case : reach Z.add (fun c => In c exs) 6 6 ex_st /\ exact_add Z.add /\
  map (deps ex_st 0) [0; 1; 2; 3; 4; 5] = [1; 1; 1; 0; 0; 0] /\
  dof_deps (fun _ => []) ex_st = [[1; 1; 0]; [1; 1; 1]].
Proof. split; [exact ex_reach | split; [intros x y; reflexivity | vm_compute; auto]]. Qed.
