# Formal model of hpp-constraints

## Method

* The code in /repo is read as text. Each function is transcribed by hand into a total Gallina function; each definition cites file and lines.
* `…Model.v` files hold definitions only, `…Spec.v` the independent specifications, `…Proofs.v` (and helper files) lemmas, `…Examples.v`/`…Cases.v` concrete instances, `…Props.v` only the property theorems, each closed by `exact` and followed by `Print Assumptions`.
* Undefined behaviour and failed assertions are explicit outcomes (`None` or an error constructor), never a default value.
* Calls into other libraries (pinocchio Lie groups and kinematics, Eigen SVD, qpOASES, coal) are Section variables or records, with the laws they are assumed to satisfy as hypotheses of the theorems.
* `double` is Coq's `R` (or any ordered field) where rounding is not the point, an abstract value type where the property is combinatorial, and an IEEE number with NaN (Coq's SpecFloat) where comparison semantics matters.
* Where the English expectation fails in the code, the failing case is a theorem named `…_refuted` and the property says exactly where it holds and where it does not.

## Trusted base

* The kernel of Coq 8.16.1 (`coqchk -o` with `-norec` for each file of this development accepts them all, installed libraries being taken as compiled; besides the axioms below its summary names sealed definitions of the standard library and of mathcomp, which have bodies and are not axioms).
* The reading of the C++ code: the definitions in the `…Model.v` files are a hand translation.
* The axioms listed by `Print Assumptions`; all come from Coq's standard library. Codes used below:
  * `closed`: no axiom.
  * `R0`: `ClassicalDedekindReals.sig_forall_dec`.
  * `R1`: `R0` and `FunctionalExtensionality.functional_extensionality_dep` (both used by the construction of the reals).
  * `R2`: `R1` and `ClassicalDedekindReals.sig_not_dec`.
  * `R3`: `R2` and `Classical_Prop.classic` (through lemmas of the standard library on trigonometry and limits).
  * `R4`: `R3` and `Epsilon.epsilon_statement` of Coq.Logic.Epsilon (choice operator, needed to use mathcomp's matrices over the reals).
* No axiom, parameter, admitted proof or disabled check in the development. Section variables are all closed by their sections, so that they are quantified in the theorems.
* Build: `coq_makefile -f _CoqProject -o Makefile && make -j4` in `rocq/`.
* Outside the model everywhere: memory allocation, exceptions of the standard library, threads, logging, 64-bit overflow of sizes, floating point rounding (except where IEEE numbers are used), numerical rank decisions of Eigen.

## Properties: what is modelled, how it is proved

The full statements are in `properties.jsonl`. After each theorem: the axioms listed by `Print Assumptions`, with the codes of "Trusted base".

### C01 Normalising a list of index intervals is exact and canonical

Status: proved.

Model: SegModel.sort (std::sort with the order of the code: insertion sort, the result is the same up to equal elements), shrink.

Proof: Spec `covers`. Induction on lists; uniqueness of the canonical form from the first missing index.

* SegProps.v (closed): `C01_normalise_exact`, `C01_normalise_canonical`, `C01_shrink_alone_any_order`, `C01_shrink_without_sort_refuted`

### C02 The number of indices reported for an index set is the number of distinct indices

Status: proved.

Model: SegModel.cardinal.

Proof: Spec: length of the enumeration of the indices; NoDup on normalised lists.

* SegProps.v (closed): `C02_cardinal`

### C03 Set difference of intervals removes exactly the requested indices

Status: proved.

Model: SegModel.difference (4 overloads); std::lower_bound/upper_bound as partition points that are undefined (None) on an unpartitioned range.

Proof: Induction; the None outcome is shown unreachable on sorted separated operands.

* SegProps.v (closed): `C03_difference_seg_seg`, `C03_difference_segs_seg`, `C03_difference_seg_segs`, `C03_difference_segs_segs`

### C04 Sorted insertion of intervals

Status: proved.

Model: SegModel.add (2 overloads).

Proof: Permutation and Sorted.

* SegProps.v (closed): `C04_add_segment`, `C04_add_list`, `C04_add_unsorted_list_refuted`

### C05 Union of two intervals

Status: proved.

Model: SegModel.sum.

Proof: Case analysis over Z (lia).

* SegProps.v (closed): `C05_sum`

### C06 Overlap test of two intervals

Status: proved.

Model: SegModel.overlap.

Proof: Exact characterisation and a refutation of the documented test.

* SegProps.v (closed): `C06_overlap_characterised`, `C06_overlap_complete_refuted`

### C07 Splitting off the first indices of an interval list

Status: proved.

Model: SegModel.split.

Proof: Spec: firstn / skipn of the enumeration.

* SegProps.v (closed): `C07_split`, `C07_split_within_cardinal`

### C08 Extracting a range of positions of an interval list

Status: proved.

Model: SegModel.extract; assertion failure is an outcome.

Proof: Spec: sublist of the enumeration; the failing case is a refutation.

* SegProps.v (closed): `C08_extract`, `C08_extract_empty_end_refuted`

### C09 Converting a boolean mask to intervals

Status: proved.

Model: SegModel.fromLogicalExpression.

Proof: Induction on the mask.

* SegProps.v (closed): `C09_from_logical`

### C10 Block views read and write exactly the selected entries

Status: proved.

Model: ViewModel: block copy loops; every access checks the bounds (None).

Proof: Entry by entry semantics through enumerations of rows and columns, frame property for the others.

* ViewProps.v (closed): `C10_read`, `C10_write`, `C10_write_frame`, `C10_read_back`, `C10_out_of_bounds_undefined`, `C10_view_to_view`, `C10_view_to_view_refuted`, `C10_vector_read`, `C10_vector_write`

### C11 Arithmetic between two block views

Status: proved.

Model: ViewModel: binary operations between views.

Proof: As C10; refutation for different block structures.

* ViewProps.v (closed): `C11_view_op_matrix`, `C11_matrix_op_view`, `C11_view_op_view_same_blocks`, `C11_view_op_view_refuted`

### C12 Acceptance of an explicit constraint

Status: proved. Acceptance is exact; the exception announced for self-overlap is not always the way of refusing (refutation theorem).

Model: EcsModel.add: checks in code order; breadth-first detection of loops on fuel.

Proof: Spec: reachability in the dependency graph. Fuel exhaustion is excluded by theorem (C13).

* EcsProps.v (closed): `C12_add_iff_acceptable`, `C12_outcomes`, `C12_overlap_exception_refuted`

### C13 An explicit constraint set is always acyclic with disjoint outputs

Status: proved. Termination needs configuration and velocity intervals that describe the same joints; refutation without it.

Model: EcsModel.

Proof: Invariant over lists of additions; termination by a rank function.

* EcsProps.v (closed): `C13_no_double_output_no_cycle`, `C13_add_terminates`, `C13_inconsistent_intervals_refuted`

### C14 Index sets published by an explicit constraint set

Status: proved. Exact for sorted inputs; refutation for unsorted inputs.

Model: EcsModel: index sets rebuilt by add.

Proof: Invariant over lists of additions, from C01 and C03.

* EcsProps.v (closed): `C14_index_sets`, `C14_unsorted_inputs_refuted`

### C15 Constraints are evaluated in dependency order

Status: proved.

Model: EcsModel.computeOrder (recursion on fuel).

Proof: Permutation and topological order from acyclicity.

* EcsProps.v (closed): `C15_computation_order`

### C16 Solving explicit constraints

Status: proved.

Model: EcsModel.solve over abstract values.

Proof: Unique solution by induction on the computation order.

* EcsProps.v (closed): `C16_solve`, `C16_solve_depends_on_inputs_only`, `C16_solve_twice`, `C16_solve_independent_of_add_order`

### C17 Dependency matrix of an explicit constraint set

Status: proved. Exact with unbounded counters; refuted with the 32-bit counters of the code.

Model: EcsModel dependency counters, `int` addition is a parameter: exact or 32-bit wrapping.

Proof: Equivalence with reachability for exact counters; computation of a chain for the overflow.

* EcsProps.v (closed): `C17_dependencies`, `C17_dof_dependencies`, `C17_dof_dependencies_no_input_refuted`, `C17_dependencies_overflow_refuted`

### C18 Jacobian of the explicit resolution

Status: proved.

Model: EcsJacModel over an abstract semiring.

Proof: Chain rule rows and uniqueness by induction on the order; derivative along curves over R.

* EcsProps2.v (closed): `C18_jacobian`
* EcsProps2.v (R1): `C18_jacobian_is_derivative`

### C19 Right hand sides of an explicit constraint set: set then get

Status: proved.

Model: EcsRhsModel, Lie group operations abstract with their laws as hypotheses.

Proof: State invariants.

* EcsProps2.v (closed): `C19_set_one`, `C19_set_get_by_constraint`, `C19_unknown_constraint`, `C19_set_all`, `C19_write_back`, `C19_assertion_one`, `C19_assertion_all`, `C19_assertion_write_back`, `C19_assertions_agree_refuted`

### C20 Right hand side computed from a configuration

Status: proved.

Model: EcsRhsModel.

Proof: log/exp laws and the mask of parameterised components.

* EcsProps2.v (closed): `C20_configuration_solved`, `C20_projected_value`, `C20_residual_left`

### C21 Explicit constraint satisfaction test

Status: proved.

Model: EcsRhsModel over R and over IEEE numbers (NanModel, Coq SpecFloat).

Proof: Computation of the max loop, with NaN.

* EcsProps2.v (closed): `C21_is_satisfied`, `C21_one_constraint`, `C21_no_residual_after_solve`, `C21_satisfied_without_residual`, `C21_nan_refuted`, `C21_tiny_threshold_refuted`

### C22 Meaning of comparison types

Status: proved.

Model: ImplModel.compare and NanModel.

Proof: Case analysis over R.

* HierProps.v (R1): `C22_comparison`
* HierProps.v (closed): `C22_nan_refuted`

### C23 Masked rows never contribute to the error

Status: proved.

Model: ImplModel: row pipeline of computeValue.

Proof: Row by row.

* HierProps.v (R1): `C23_masked_rows`
* HierProps.v (closed): `C23_level_error`, `C23_unsatisfiable_refuted`

### C24 Active and inactive rows of a constraint partition its rows

Status: proved.

Model: ImplModel: rows, comparison types, copy and load.

Proof: Invariant over operations.

* ImplProps.v (closed): `C24_rows`, `C24_constraint_sets`

### C25 Right hand side of an implicit constraint

Status: proved.

Model: ImplModel: right hand side.

Proof: Row by row.

* ImplProps.v (closed): `C25_from_config`, `C25_check`

### C26 Equality of constraints

Status: proved.

Model: ImplModel: equality of the three classes.

Proof: Equivalence relation from that of functions.

* ImplProps.v (closed): `C26_meaning`, `C26_equivalence`, `C26_implicit_symmetric`, `C26_mask_ignored`

### C27 Layout of constraints in the solver

Status: proved.

Model: HierModel.add.

Proof: Invariant over lists of additions.

* HierProps.v (closed): `C27_layout`

### C28 Per-constraint right hand side in the solver: set then get

Status: proved. Holds except for shadowed explicit constraints (C28_substitution_refuted).

Model: HierModel, BySubModel: right hand sides.

Proof: Frame property on segments.

* BySubProps.v (closed): `C28_substitution_numeric`, `C28_substitution_explicit`, `C28_substitution_unknown`, `C28_substitution_refuted`
* HierProps.v (closed): `C28_set_get`, `C28_unknown`

### C29 Whole right hand side vector of the solver

Status: proved. Proved where it holds, refuted for several non-empty levels (C29_refuted) and for mixed explicit/numerical constraints (C29_substitution_refuted).

Model: HierModel, BySubModel; out of bounds is an outcome.

Proof: As C28; refutations by computation.

* BySubProps.v (closed): `C29_substitution`, `C29_substitution_refuted`
* HierProps.v (closed): `C29_one_level`, `C29_levels`, `C29_refuted`

### C30 Adding a constraint keeps previously set right hand sides

Status: proved. The user's expectation is refuted for numerical constraints; what the code does is proved for both solvers.

Model: HierModel.update, BySubModel.

Proof: Computation of update on every state.

* BySubProps.v (closed): `C30_substitution`
* HierProps.v (closed): `C30_add_resets`, `C30_update_resets`, `C30_survive_refuted`

### C31 Satisfaction test of the solver

Status: proved.

Model: HierModel.computeError over IEEE numbers.

Proof: Max loop with NaN; unsigned underflow is an outcome.

* HierProps.v (closed): `C31_satisfied`, `C31_nan_refuted`, `C31_underflow_refuted`

### C32 Per-constraint satisfaction agrees with the global one

Status: proved.

Model: HierModel.isConstraintSatisfied.

Proof: From C31.

* HierProps.v (closed): `C32_per_constraint`, `C32_test`, `C32_unknown`, `C32_inequality_refuted`

### C33 Saturation clamps inside the bounds

Status: proved.

Model: SatModel over an abstract order (no totality: NaN).

Proof: Component by component.

* SatProps.v (R1): `C33_bounds`, `C33_idempotent`, `C33_base`, `C33_device`, `C33_joint_flags`, `C33_columns`
* SatProps.v (closed): `C33_in_place`, `C33_flag_lost_refuted`, `C33_nan_refuted`
* SatProps.v (R0): `C33_gradient`

### C34 Status returned by the iterative solver

Status: proved.

Model: SolveModel: the loop with the numerical steps as parameters.

Proof: Induction on the number of iterations; the fuel is the iteration bound of the code.

* SolveProps.v (closed): `C34_result`, `C34_success_satisfied`, `C34_zero_threshold_refuted`

### C35 Line searches

Status: proved.

Model: LineModel over R.

Proof: Real analysis (tanh, geometric sequences).

* LineProps.v (closed): `C35_constant`
* LineProps.v (R1): `C35_fixed_sequence`, `C35_fixed_sequence_increases`, `C35_backtracking`, `C35_backtracking_trials`, `C35_slope`
* LineProps.v (R2): `C35_error_norm_range`
* LineProps.v (R3): `C35_error_norm_default`, `C35_error_norm_refuted`

### C36 Constrained variables are never moved by a descent step

Status: proved. Proved; C36_fresh_refuted shows the size before the first update.

Model: HierModel/BySubModel: dq_, dqSmall_, free variables.

Proof: Invariant over operations.

* BySubProps.v (closed): `C36_zero_outside`, `C36_free_set`, `C36_expand`, `C36_fresh_refuted`

### C37 Rows of the reduced Jacobian

Status: proved.

Model: BySubModel: rows of the reduced Jacobian.

Proof: Set equality with the dependency relation (C17).

* BySubProps.v (closed): `C37_hierarchical`, `C37_substitution`

### C38 Hierarchy of the descent direction

Status: proved. exact arithmetic; decompositions as a relation, which every real matrix meets (C38_decomposition); sigma_ only for the index read.

Model: DescentModel.v: mathcomp matrices over any real field; the SVD is any decomposition

Proof: Least squares in nested affine spaces; projector recursion. Existence of decompositions over the reals: SvdBox.v (a Lipschitz function on a cube has a maximum), SvdExist.v (a vector where the quotient is largest, then induction on the size), SvdMain.v

* DescentProps.v (closed): `C38_lexicographic`, `C38_level_by_level`, `C38_priority`, `C38_minimal_norm`, `C38_one_level`, `C38_previous_direction_refuted`, `C38_total`, `C38_sigma_one_level`, `C38_sigma_refuted`, `C38_case`
* SvdProps.v (R4): `C38_decomposition`, `C38_defined`, `C38_function`

### C39 Merging solvers and submanifold test

Status: proved.

Model: BySubModel: merge, contains, definesSubmanifoldOf.

Proof: List inclusion; C31 for the configurations accepted by both solvers (SubmProofs).

* BySubProps.v (closed): `C39_merge`, `C39_merge_substitution`, `C39_submanifold`
* SubmProps.v (closed): `C39_submanifold_functions`, `C39_submanifold_solutions`, `C39_submanifold_direction_refuted`, `C39_submanifold_comparison_refuted`, `C39_submanifold_rhs_refuted`, `C39_submanifold_optional_refuted`, `C39_submanifold_substitution`

### C40 Extracting a sub-interval of a solver

Status: proved. proved with refutations of independence for BySubstitution; pointers as indices in lists of objects.

Model: HeapModel: constraints and spaces as objects in a heap.

Proof: Frame property over programs.

* HeapProps.v (closed): `C40_hierarchical`, `C40_by_substitution`, `C40_aliased_refuted`, `C40_second_refuted`

### C41 Adding constraints to the solver by substitution

Status: proved.

Model: BySubModel.add.

Proof: From C12.

* BySubProps.v (closed): `C41_add`, `C41_state`

### C42 Success of the solver by substitution

Status: proved.

Model: SolveModel: impl_solve with oracles.

Proof: Induction on iterations.

* SolveProps.v (closed): `C42_outcome`, `C42_explicit_satisfied`, `C42_hypothesis`, `C42_satisfied_start_refuted`

### C43 Optimisation never degrades the constraints

Status: proved.

Model: SolveModel: optimising loop.

Proof: Induction with the invariant "best so far".

* SolveProps.v (closed): `C43_outcome`, `C43_best_lost_refuted`, `C43_exception_refuted`

### C44 Reduced Jacobian after substitution is the total derivative

Status: proved. Sizes, values (with the total Jacobian of C18) and, in vector spaces, the derivative along curves; rows left out are shown not to vary with free variables. The Jacobians of the constraints and floating point are not modelled here.

Model: RedModel.

Proof: From C18 and C10; derivative along curves.

* RedProps.v (R1): `C44_total`, `C44_derivative`, `C44_dropped_rows`

### C45 Velocity variables involved in the implicit part

Status: proved. Proved without empty level; C45_empty_level and C45_refuted show the undefined case.

Model: BySubModel.implicitDof.

Proof: From C37.

* BySubProps.v (closed): `C45_implicit_dof`, `C45_empty_level`, `C45_refuted`

### C46 Projection of a velocity on the kernel

Status: proved. exact arithmetic; the reduced Jacobian is a parameter (C44).

Model: DescentModel.project_kernel.

Proof: Orthogonal projection.

* DescentProps.v (closed): `C46_projection`, `C46_bypass`, `C46_tangent_refuted`, `C46_case`

### C47 Saving and loading a solver

Status: proved. Proved for the fields the archive handles; C47_jacobian_refuted shows the loaded solver that cannot compute its Jacobian.

Model: BySubModel: save and load of the fields of the archive.

Proof: Composition on every reachable state.

* BySubProps.v (closed): `C47_save_load`, `C47_kept`, `C47_jacobian_kept`, `C47_jacobian_refuted`

### C48 Extracted functions

Status: proved. the real number model ignores rounding.

Model: FdModel: extracted function.

Proof: Derivative of the composition with start +/- t.

* FunProps.v (R1): `C48_value`, `C48_derivative`, `C48_derivative_refuted`

### C49 Function sets stack their members

Status: proved.

Model: FunModel: function sets.

Proof: Induction on members.

* FunProps.v (closed): `C49_stack`, `C49_merge`

### C50 Finite differences

Status: proved. over the reals, rounding errors of the values in the bound of C50_accuracy, binary64 arithmetic for C50_float_refuted; the Lie group integration is an arbitrary function, except in C50_robot_step_refuted.

Model: FdModel: finite differences over R. FdFloatModel: one variable, IEEE binary64 (SpecFloat). FdRobotModel: integration on a chain of a rotation and two translations.

Proof: Exactness on quadratics, limits by derivable_pt_lim; FdAccProofs: Taylor bounds by monotonicity, binary64 case by computation; FdRobotProofs: the same bounds along the motion of a velocity variable, and the closed form of both differences for the cube on the chain.

* FdAccProps.v (R3): `C50_accuracy`
* FdAccProps.v (closed): `C50_float_refuted`, `C50_float_step`
* FdRobotProps.v (R3): `C50_robot_accuracy`
* FdRobotProps.v (R2): `C50_robot_step_refuted`
* FunProps.v (R1): `C50_affine`, `C50_quadratic`, `C50_converges`, `C50_other_columns`, `C50_robot`

### C51 Active variables of a relative transformation

Status: proved. setActiveParameters, relPoseConfVariables/relPoseVelVariables, contact inputs; poses in an abstract group. Floats and the numerical joint transforms are not modelled.

Model: TreeModel: array of parents, activation flags, inputs of the explicit relative pose.

Proof: Paths in the tree; the relative transform in an abstract group.

* TreeProps.v (closed): `C51_active`, `C51_relative_pose`, `C51_agree`, `C51_loop_refuted`, `C51_intervals`, `C51_independent`, `C51_inputs_suffice`, `C51_contact`, `C51_contact_inputs`, `C51_contact_inputs_refuted`

### C52 Explicit relative pose satisfies the implicit relative pose

Status: proved.

Model: RTModel.

Proof: Group identities; exp/log of SE(3) with their laws on their domain.

* RTProps.v (R1): `C52_output`, `C52_rhs_roundtrip`, `C52_explicit_rhs`
* RTProps.v (R3): `C52_explicit_rhs_refuted`

### C53 Jacobian of transformation functions

Status: proved.

Model: GTModel.

Proof: Derivatives of rigid motions (SE3Proofs, GTJac, GTDeriv), log Jacobian from C70.

* GTProps.v (R3): `C53_value`, `C53_jacobian`, `C53_null_joint_refuted`
* GTProps.v (R0): `C53_setters`
* GTProps.v (R1): `C53_reference`, `C53_reference_inverse`, `C53_reference_refuted`

### C54 Jacobian of the explicit relative transformation

Status: proved.

Model: RTModel.

Proof: Derivatives of rigid motions; refutations by explicit motions.

* RTProps.v (R1): `C54_jacobian`, `C54_jacobian_output`, `C54_parent_angular`, `C54_parent_linear`
* RTProps.v (R3): `C54_parent_refuted`, `C54_r3xso3_refuted`

### C55 Symbolic expressions have exact Jacobians

Status: proved. one column of the Jacobian; FunctionExp and JointFrame: see C78; exact real arithmetic, isZero exact.

Model: SymModel: expressions as trees with addresses and a store.

Proof: Induction on trees; derivatives over R.

* SymProps.v (R1): `C55_derivative`, `C55_function_value`, `C55_function_jacobian`, `C55_com_between_feet_value`, `C55_com_between_feet_jacobian`
* SymProps.v (R2): `C55_rotation_refuted`, `C55_point_refuted`, `C55_case`

### C56 Cached symbolic values are up to date

Status: proved. MatrixOfExpressions: see C61; each PointCom has its own center of mass computation.

Model: SymModel.

Proof: Invariant on the store over all evaluations.

* SymProps.v (R1): `C56_value`, `C56_cross`, `C56_jacobian`, `C56_point_refuted`, `C56_com_refuted`, `C56_uninitialised_refuted`, `C56_stale_refuted`, `C56_case`

### C57 Contact right hand side encoding

Status: proved. distances between surfaces are parameters (C58 for the polygon distance); real arithmetic.

Model: ContactModel.

Proof: Euclidean division on reals; minimum over pairs.

* ContactProps.v (R1): `C57_selection`, `C57_round_trip`, `C57_cell`, `C57_beyond_refuted`, `C57_point`, `C57_negative_refuted`, `C57_explicit`, `C57_pairs_differ`, `C57_overlap_refuted`
* ContactProps.v (R2): `C57_radius`, `C57_case`
* ContactProps.v (closed): `C57_pose`

### C58 Signed distance to a convex polygon

Status: proved.

Model: ShapeModel.

Proof: Plane geometry over R: convex hull by half planes, exit point of a segment, projections.

* ShapeProps.v (R2): `C58_polygon_frame`, `C58_inside_test`, `C58_signed_distance`, `C58_reverse`, `C58_inside_test_in_world`, `C58_signed_distance_in_world`, `C58_intersection`, `C58_closest_pair`, `C58_point_frame`, `C58_segment_frame`, `C58_segment_distance_refuted`, `C58_segment_reverse_refuted`, `C58_assertions_check_convexity_refuted`, `C58_closest_point_refuted`, `C58_closest_point`, `C58_aligned_frame_refuted`

### C59 Distance functions do not depend on evaluation history

Status: proved. forward kinematics and nearest point computation are parameters.

Model: DistModel: cache and shared robot.

Proof: State machine; derivative of a norm.

* DistProps.v (R2): `C59_points_value`, `C59_points_derivative`, `C59_points_derivative_origin`, `C59_bodies_derivative`, `C59_objects_derivative`, `C59_history_refuted`, `C59_no_second_refuted`
* DistProps.v (R1): `C59_bodies_value`, `C59_jacobian_alone`, `C59_jacobian_other_configuration`

### C60 Static stability by quadratic programming: Jacobian

Status: proved.

Model: QPModel: qpOASES is any minimiser.

Proof: Optimality conditions of a cone program, envelope theorem.

* QPProps.v (R1): `C60_value_is_smallest_unbalance`, `C60_twice_jacobian_is_derivative`
* QPProps.v (R3): `C60_jacobian_is_derivative_refuted`, `C60_jacobian_without_value_refuted`

### C61 Derivative of the pseudo-inverse

Status: proved. Golub-Pereyra formula, from Wedin's exact identity; any ordered field, any sizes; the decomposition at each point is arbitrary. Refuted parts: C61_rank_jump_refuted, C61_negative_force_refuted, C61_copy_refuted. Examples: PinvExamples.example_static (hypotheses of the Jacobian theorem on a path with u = (3,-4)).

Model: PinvModel (svd.hh, pseudo-inverse and its Jacobian, StaticStability), MoeModel (flags).

Proof: Wedin identity, boundedness of the pseudo-inverse at constant rank by a Neumann series, rank = trace of the projector for the converse.

* PinvProps.v (closed): `C61_pseudo_inverse`, `C61_differentiable_iff`, `C61_pinv_jacobian`, `C61_rank_jump_refuted`, `C61_static_value`, `C61_negative_force_refuted`, `C61_static_jacobian`, `C61_cache`, `C61_copy_refuted`

### C62 Locked joints

Status: proved.

Model: LockModel: the three constructors, then EcsModel.

Proof: Disjoint intervals of joints.

* ExplProps.v (closed): `C62_whole`, `C62_partial_refuted`, `C62_extra_refuted`, `C62_ranks`

### C63 Equality of functions

Status: proved. comparisons of scalars decide equality (no NaN).

Model: EqModel: isEqual of each class.

Proof: Case analysis; refutations by pairs.

* FunProps.v (closed): `C63_symmetric`, `C63_reflexive`, `C63_sound`, `C63_constant`, `C63_transformation`, `C63_contact`, `C63_lost_constraint`

### C64 Explicit constraint as an implicit function

Status: proved. the blocks of the other output spaces are abstract here, see C77; the difference and sum of the output space are assumed inverse of each other where used.

Model: ImplFunModel.

Proof: Blocks of columns; derivative in vector spaces.

* ExplProps.v (closed): `C64_equivalence`, `C64_after_solve`, `C64_active`, `C64_blocks`, `C64_several_factors_refuted`
* ExplProps.v (R1): `C64_vector_space`

### C65 Functions of a subset of the parameters

Status: proved.

Model: FunModel.

Proof: Frame property on columns.

* FunProps.v (closed): `C65_subset`, `C65_subset_active`, `C65_columns_refuted`

### C66 Affine functions

Status: proved. over the reals.

Model: FdModel: affine functions.

Proof: Derivative over R.

* FunProps.v (R1): `C66_derivative`, `C66_active`

### C67 Difference of a function at two places and functions with saturated variables

Status: proved.

Model: FunModel.

Proof: Columns of the two intervals.

* FunDiffProps.v (closed): `C67_difference`, `C67_difference_active`, `C67_overlap_jacobian_refuted`, `C67_overlap_active_refuted`, `C67_active_set`, `C67_saturated_active_refuted`

### C68 Copies of a solver and constraints added afterwards

Status: proved. HierarchicalIterative/BySubstitution objects reduced to the members involved in sharing.

Model: HeapModel.

Proof: Invariant over programs.

* HeapProps.v (closed): `C68_copy`, `C68_add`, `C68_add_explicit`, `C68_settled`, `C68_run`, `C68_copy_spoiled_refuted`, `C68_offset_refuted`

### C69 Logarithm of rotations

Status: proved.

Model: LogModel.

Proof: Rodrigues formula, trigonometry over R.

* LogProps.v (R3): `C69_log_rotation`, `C69_log_small`, `C69_log_half_turn`, `C69_half_turn_refuted`

### C70 Jacobian of the logarithm of rotations

Status: proved.

Model: LogModel.

Proof: Derivative of the Rodrigues formula inverted.

* LogProps.v (R3): `C70_JlogSO3`, `C70_computeJlog`

### C71 Logarithm of rigid-body transforms

Status: proved.

Model: LogModel.

Proof: Screw motions; derivative of the six coordinates.

* LogProps.v (R3): `C71_logSE3`, `C71_JlogSE3`

### C72 Relative position of the center of mass

Status: proved.

Model: RelComModel over kins of GTModel plus the center of mass and its Jacobian; a write in a row and a read of the mask are checked (None).

Proof: Derivative of a product of a transposed rotation and a vector; rows by the mask.

* RelComProps.v (R1): `C72_value`, `C72_jacobian`
* RelComProps.v (R0): `C72_world_refuted`, `C72_short_mask_refuted`, `C72_long_mask_refuted`

### C73 Weighted distance to a goal configuration

Status: proved.

Model: ConfModel: difference to the goal and its derivative are parameters (Lie group operation of pinocchio); flags of joints as lists.

Proof: Sums over R; rotations: LogModel and C70 for the instance that refutes the general claim.

* ConfProps.v (R1): `C73_distance`, `C73_value`, `C73_jacobian`, `C73_jacobian_vector`, `C73_weights`, `C73_inactive_value`, `C73_inactive_column`
* ConfProps.v (R3): `C73_rotation_refuted`
* ConfProps.v (R0): `C73_mask`

### C74 Contact of convex shapes: value, Jacobian, contact points

Status: proved.

Model: ContactJacModel on ShapeModel, ContactModel and GTModel: exceptions and undefined behaviour are different outcomes; the temporary matrix is a parameter; isIdentity and isZero of Eigen are parameters that may miss but not err.

Proof: LogAxis: the logarithm keeps the first axis exactly if the rotation does; ContactNear: a strictly closest pair stays selected near by, so the value is locally one expression, differentiated with C53 and C70.

* ContactJacProps.v (R2): `C74_built`, `C74_frame`, `C74_contact_points`, `C74_points_refuted`
* ContactJacProps.v (R3): `C74_value`, `C74_zero`, `C74_jacobian`, `C74_extra_refuted`, `C74_line_refuted`, `C74_null_refuted`, `C74_thin_floor`, `C74_thin_floor_refuted`

### C75 Right hand sides that vary with time

Status: proved.

Model: TimeModel.v: members rhsFunction_ and output_ of Implicit with the calls rightHandSideFunction, comparisonType, rightHandSideFromConfig and rightHandSideAt; the loop of HierarchicalIterative::rightHandSideAt over constraints_, instantiated with the setter of each solver (the method is virtual). Spaces are compared by a number. The returned reference on output_ is a value: a later call that changes it is not seen.

Proof: A generic lemma on the loop (each call changes one constraint and leaves the others) instantiated with C28 for the hierarchical solver and for the solver by substitution; the invariant of the accepted function by induction on sequences of calls; refutations by computation on clocks; extraction through C48.

* TimeProps.v (closed): `C75_accepted`, `C75_value`, `C75_function`, `C75_type_change_refuted`, `C75_no_function_refuted`, `C75_solver`, `C75_history`, `C75_substitution`, `C75_substitution_refuted`
* TimeProps.v (R1): `C75_extract`, `C75_extract_substitution`

### C76 Saving and loading functions and constraints

Status: proved.

Model: SerModel.v: archive as a list of tokens, one writer and one reader per class, the reader starting from the members of the default constructor; devices, joints, spaces, names and functions behind shared pointers are numbers (their serialization belongs to other libraries)

Proof: SerProofs.v: each reader undoes its writer and leaves the rest of the archive; the members that are not written are traced to the evaluations that read them

* SerProps.v (R0): `C76_functions`, `C76_constraint_refuted`, `C76_bounds_refuted`
* SerProps.v (closed): `C76_implicit_function`, `C76_constraint`
* SerProps.v (R3): `C76_transformation`, `C76_transformation_refuted`

### C77 Jacobian of the implicit form of an explicit constraint

Status: proved.

Model: VisModel.v: blocks of JacobianVisitor for SE(3), R^3 x SO(3) and the generic case used for SO(3), quaternions as Eigen reads them, differences with the logarithms of LogModel.v; the layout is if_jacobian of ImplFunModel.v; PlanModel.v: the generic case for vector spaces, SO(2), R^2 x SO(2) and SE(2), differences of pinocchio over the reals

Proof: VisProofs.v: row of the Jacobian as sum over outputs and inputs, velocity of the relative placement, then C70 and C71. The refutation turns about x from a quarter turn about z: the second coordinate of the logarithm has derivative pi/2, the Jacobian gives 0. PlanProofs.v: derivative of the angle of a plane rotation through asin or acos, and of the logarithm of SE(2) at the identity; the refutation slides along its own x axis a quarter turn away: derivative pi/4 of the second coordinate, 0 in the Jacobian

* PlanProps.v (R1): `C77_vector`
* PlanProps.v (R3): `C77_so2`, `C77_r2so2`, `C77_se2`, `C77_se2_refuted`
* VisProps.v (R3): `C77_se3`, `C77_r3so3`, `C77_so3`, `C77_so3_refuted`

### C78 Functions given by an expression, frame of a joint

Status: proved.

Model: SfModel.v: SymbolicFunction with its mask, JointFrame and FunctionExp with the flags of the base class; out of bounds accesses give None

Proof: SfProofs.v: loops over the mask by induction, cache flags, then C70 for the rotation

* SfProps.v (R3): `C78_value`, `C78_jacobian`, `C78_joint_frame`, `C78_function`, `C78_mask_refuted`, `C78_function_refuted`, `C78_cache`

### C79 Manipulability

Status: proved.

Model: ManModel.v: active columns, floor, sum of logarithms, Jacobian by the finite differences of FdModel.v; RField.v makes the reals a field of mathcomp, with the choice operator of Coq.Logic.Epsilon

Proof: ManProofs.v: determinant of the Gram matrix from the decomposition, logarithm of a product

* ManProps.v (R3): `C79_value`
* ManProps.v (R4): `C79_determinant`, `C79_singular`, `C79_rows_refuted`
* ManProps.v (R1): `C79_jacobian`

### C80 Results of all levels in one vector, satisfaction with errors

Status: proved.

Model: AccModel.v: assignments to segments of the vector passed, with their size checks, over the solver of HierModel.v and BySubModel.v

Proof: AccProofs.v: induction over the levels; rows of each constraint by the layout invariant of C27, errors by C31, explicit ones by C21

* AccProps.v (closed): `C80_value`, `C80_value_size_refuted`, `C80_residual_error`, `C80_dimension`, `C80_reduced_jacobian`, `C80_satisfied_error`, `C80_satisfied`, `C80_minus_one_refuted`, `C80_error_size`, `C80_error_size_refuted`, `C80_active_parameters`

### C81 Integration of a step and projection of a configuration

Status: proved.

Model: IntModel.v: addition in the configuration space (any function), the calls of clamp in place, the explicit resolution of EcsModel.v; ProjModel.v: the projection of DescentModel.v between subtraction, addition and saturation of vectors

Proof: IntProofs.v: C33 in place, then C16; ProjProofs.v: C46, norm split between free and other variables

* IntProps.v (closed): `C81_integrate`, `C81_integrate_explicit`, `C81_output_bounds_refuted`, `C81_report_refuted`
* ProjProps.v (closed): `C81_project`, `C81_project_none`, `C81_project_bound_refuted`, `C81_project_explicit_refuted`, `C81_project_case`

### C82 Affine constraints are solved

Status: proved.

Model: AffModel.v: the loops of SolveModel.v, descent direction of DescentModel.v and line searches of LineModel.v on levels A q = b; residual as the maximum over the constraints; RReal.v: the reals as an ordered field of mathcomp

Proof: AffProofs.v: lexicographic minimum (C38) of feasible levels has no error, errors scaled by 1 - a, invariant along the iterates of C34; AffMain.v: one step, least norm, translation of least squares; AffBySub.v: invariant of the loop, levels reduced to the free variables; AffLine.v: factors of the line searches; AffBack.v: factor of backtracking as a function of the share of the largest error in the total

* AffProps.v (closed): `C82_solved`, `C82_full_step`, `C82_infeasible`, `C82_by_substitution`, `C82_scale_refuted`
* AffProps.v (ClassicalDedekindReals.sig_forall_dec+Epsilon.epsilon_statement+FunctionalExtensionality.functional_extensionality_dep): `C82_constant`, `C82_fixed_sequence`, `C82_backtracking`, `C82_backtracking_full`, `C82_backtracking_refuted`
* AffProps.v (ClassicalDedekindReals.sig_forall_dec+ClassicalDedekindReals.sig_not_dec+Epsilon.epsilon_statement+FunctionalExtensionality.functional_extensionality_dep): `C82_error_norm`

### C83 Regular constraints are solved from a nearby configuration

Status: proved. exact arithmetic, the Lie group structure of the configuration space is not included; the curvature and the bound of the inverse are given.

Model: NewtModel.v: as AffModel.v, the error and the Jacobian of a level being any functions of the configuration; NewtSpec.v: ball, solvability and curvature of the equations, equations after substitution

Proof: NewtProofs.v: the direction is the solution of least norm of the linearised equations (C38), convexity of squares for the residual, geometric sum for the distance covered, then the iterates of C34; NewtBySub.v: invariant of the loop; NewtLine.v: factors of the line searches

* NewtProps.v (closed): `C83_converges`, `C83_by_substitution`
* NewtProps.v (ClassicalDedekindReals.sig_forall_dec+Epsilon.epsilon_statement+FunctionalExtensionality.functional_extensionality_dep): `C83_cycle_refuted`, `C83_backtracking`
* NewtProps.v (ClassicalDedekindReals.sig_forall_dec+ClassicalDedekindReals.sig_not_dec+Epsilon.epsilon_statement+FunctionalExtensionality.functional_extensionality_dep): `C83_error_norm`

### C84 oneStep is an iteration of solve, when the norm is known and no bound is reached

Status: proved.

Model: OneModel.v: oneStep on the parameters of SolveModel.v, the norm kept in the solver and the data of the levels being arguments of the line search; equations in one and two variables

Proof: OneProofs.v: induction on the loop of impl_solve, the number of calls being the number of configurations visited; computation of the counterexamples

* OneProps.v (closed): `C84_result`, `C84_iterates`, `C84_norm_free`
* OneProps.v (R1): `C84_saturation_refuted`, `C84_backtracking_refuted`
* OneProps.v (R3): `C84_error_norm_refuted`
* OneProps.v (R2): `C84_searches`

### C85 Inequality constraints: bounds are solved in one step, agreeing constraints get closer, others may cycle

Status: proved.

Model: IneqModel.v: error and Jacobian left by compare (HierModel.v) on affine rows, loop of NewtModel.v; the constant of an inequality is in the row

Proof: IneqProofs.v, IneqMain.v: the direction is the combination of the rows (least norm), so its product with q - z is at most minus its squared norm for z feasible; sum over the iterations. IneqBounds.v: two violated bounds with a common point are orthogonal. IneqExamples.v, IneqCases.v: computation with explicit singular values

* IneqProps.v (closed): `C85_closer`, `C85_closest`, `C85_ends`, `C85_bounds`
* IneqProps.v (ClassicalDedekindReals.sig_forall_dec+Epsilon.epsilon_statement+FunctionalExtensionality.functional_extensionality_dep): `C85_feasible_refuted`

### C86 Optimisation of the last level: exact with full steps or from a solution, never solves from elsewhere with the default line search

Status: proved.

Model: OptModel.v: bsolve of SolveModel.v with optimisation on the levels of AffModel.v and NewtModel.v, E the residual of the required levels, C the squared error of the last one; FixedSequence of LineModel.v

Proof: OptMain.v: the direction is orthogonal to the error of the optional level left after it (parabola), so the excess of cost is multiplied by (1-a)^2; OptLoop.v: invariants of the loop. OptProofs.v: positions on the line with halved scaling. OptExamples.v, OptCases.v: computation with explicit singular values

* OptProps.v (closed): `C86_full_step`, `C86_from_solution`, `C86_line`
* OptProps.v (ClassicalDedekindReals.sig_forall_dec+Epsilon.epsilon_statement+FunctionalExtensionality.functional_extensionality_dep): `C86_fixed_sequence`, `C86_default_refuted`, `C86_regular_refuted`

### C87 A solution where the constraints are smooth and independent attracts the solvers

Status: proved. exact arithmetic, the Lie group structure of the configuration space is not included; the factors m of the line searches are those of C82 and C83.

Model: NewtModel.v (C83): nsolve, nbsolve; nothing new

Proof: NearMat.v: matrices close to one with a right inverse have bounded solutions; NearBall.v: mean value theorem gives curvature, stretch, regularity and residual in a ball; NearMain.v: choice of the constants of C83; NearSolve.v. NearExamples.v: the circle x^2 + y^2 = 2 with an explicit decomposition, y = x^2 with y = 2

* NearProps.v (R4): `C87_attracts`, `C87_by_substitution`

### C88 Resolution under bounds on the variables

Status: proved. exact arithmetic; bounds on the variables of a vector space; the statement says where the result does not extend, each with a refutation.

Model: LimModel.v: clamp (SatModel.v, C33) at each variable, saturated configuration, flags, columns withdrawn from each level by computeSaturation, integrate, the four line searches with it; loop hsolve of SolveModel.v, directions of DescentModel.v on the Jacobians left. Simplified: vector space, iq2iv_ the identity, all rows active, integrate of a vector space is the sum

Proof: LimProofs.v: hsolve_sat by induction on the loop; direction of one row, sign of the error kept, each iteration that does not solve the equation withdraws one more variable for good; LimMain.v: the loop, the configuration where all variables are withdrawn has least error; LimScalar.v: one variable. LimExamples.v: the line searches, the cycle, equal bounds, two levels, the unit square with both outcomes (decompositions by C38_function)

* LimProps.v (closed): `C88_within`
* LimProps.v (ClassicalDedekindReals.sig_forall_dec+ClassicalDedekindReals.sig_not_dec+Epsilon.epsilon_statement+FunctionalExtensionality.functional_extensionality_dep): `C88_searches`
* LimProps.v (ClassicalDedekindReals.sig_forall_dec+Epsilon.epsilon_statement+FunctionalExtensionality.functional_extensionality_dep): `C88_start_refuted`, `C88_one_row`, `C88_several_rows_refuted`, `C88_equal_bounds_refuted`
* LimProps.v (R4): `C88_priority_refuted`

### C89 Resolution by substitution under bounds

Status: proved. exact arithmetic; bounds on the variables of a vector space; the bounds of explicit variables are refuted.

Model: LimModel.v, section Sub: integrate of BySubstitution (saturation of x and y, then the explicit constraints), columns withdrawn according to the flags of the free variables, the four line searches with it; loop bsolve of SolveModel.v. Simplified as for C88; in C89_one_row the explicit constraint is affine

Proof: LimSub.v: bsolve_in, a property of what the line search and the explicit constraints leave holds along the loop; one equation reduced to the free variables, whose step is the one of C88; LimSubEx.v: y = 2 x1 out of bounds, y = x1 + x2 with both outcomes

* LimSubProps.v (closed): `C89_within`
* LimSubProps.v (ClassicalDedekindReals.sig_forall_dec+ClassicalDedekindReals.sig_not_dec+Epsilon.epsilon_statement+FunctionalExtensionality.functional_extensionality_dep): `C89_searches`
* LimSubProps.v (ClassicalDedekindReals.sig_forall_dec+Epsilon.epsilon_statement+FunctionalExtensionality.functional_extensionality_dep): `C89_one_row`, `C89_explicit_bounds_refuted`

### C90 Per-constraint satisfaction, solver by substitution

Status: proved. squared norms are any function of the error; residuals not NaN for the equivalence.

Model: OneConModel.v: bcon_sat, the test on the hierarchical solver (HierModel.v) then on the explicit set (EcsRhsModel.v), with both assertions on the size of the error vector

Proof: OneConProofs.v: from C32 for the numerical part, the verdict of the explicit set (C21) and the invariant of reachable solvers (BySubProofs.v); OneConExamples.v: two constraints with one function

* OneConProps.v (closed): `C90_per_constraint`, `C90_numeric`, `C90_explicit`, `C90_unknown`, `C90_shared_function_refuted`

### C91 Vectors of comparison types

Status: proved.

Model: CmpModel.v: operators * and <<, one evaluation function over a store of vector variables, conversion of int to size_t and maximal size of a vector; memory is assumed sufficient up to this size

Proof: CmpProofs.v: induction on the operands

* CmpProps.v (closed): `C91_value`, `C91_negative`, `C91_equal`, `C91_variable_kept_refuted`

### C92 Center of mass between the feet

Status: proved. exact real arithmetic; the mask is read as by a std::vector without check.

Model: CbfModel.v: mask, sizes, rows and columns written, around the rows of SymModel.v; the Jacobian is a list of columns, each with its own state of the expressions

Proof: CbfProofs.v: rows and derivatives from the results of C55; decomposition of the center of mass on the vector between the feet and the axis; explicit postures for the failures

* CbfProps.v (R1): `C92_value`, `C92_between`, `C92_sloped_refuted`, `C92_height_refuted`, `C92_jacobian`, `C92_extra_refuted`, `C92_short_mask`, `C92_long_mask_refuted`

### C93 Static equilibrium of a robot in contact

Status: proved.

Model: EquiModel: the expressions built by the constructors (shared objects of SymModel), evaluation and Jacobian of the matrix, element by element. The programs solved by qpOASES and the singular value decomposition are those of C60 and C61. EquiSpec: forces, moments, convex hull.

Proof: Distinct addresses and safety of the expressions, then C55 and C56 for each element in the history of evaluations; transport of moments; for vertical normals the equations of the forces are those of convex combinations; Cramer for three contacts.

* EquiProps.v (R1): `C93_matrix`, `C93_force_data`, `C93_no_contact_refuted`, `C93_jacobian`, `C93_force_jacobian`, `C93_equilibrium`, `C93_support`, `C93_downward`, `C93_qp`, `C93_three_contacts`, `C93_span_refuted`
* EquiProps.v (closed): `C93_nb_contacts`

### C94 Pairs of joints reported as constrained

Status: proved.

Model: RelPoseModel.v: the pairs computed by the transformation, contact, explicit, implicit and locked joint classes, on the models of C24 (Implicit), C53 (transformations) and of the contact. A robot is the list of its joints with name, rank, number of variables and parent; Device::getJointAtConfigRank of hpp-pinocchio is taken to be the joint that has the variable. Indices are natural numbers, a null joint has index 0.

Proof: RelPoseProofs.v: the logarithm computed by logSO3 is injective on rotations of less than a half turn, also in the branch of small angles; frames cancel out, so that equal placements of the frames are equal relative poses of the joints. RelPoseContact.v: the distances of surfaces and the selection of the pair of surfaces do not change in a common rigid motion. Forward kinematics is any family of placements where a joint is moved on its parent by its own variables. The refutations are in RelPoseCases.v.

* RelPoseProps.v (R3): `C94_transformation`, `C94_contact`, `C94_constrained`, `C94_half_turn_refuted`, `C94_inequality_refuted`
* RelPoseProps.v (closed): `C94_reported`, `C94_constant`, `C94_locked_part`, `C94_extra_name_refuted`
* RelPoseProps.v (R1): `C94_constant_joint`, `C94_segment_refuted`, `C94_locked`, `C94_partial_name_refuted`

### C95 Bounds of the step along the kernel of the contact matrix

Status: proved.

Model: BoundModel.v: both functions over the reals, maxCoeff and minCoeff of Eigen with the first index reached.

Proof: BoundProofs.v: extrema of lists, sign of u + lambda v on each side of - u / v, derivative of a quotient.

* BoundProps.v (R1): `C95_defined`, `C95_bounds`, `C95_upper_refuted`, `C95_derivative`

## Code covered and code left out

| File | Modelled | Left out |
|---|---|---|
| src/matrix-view.cc, matrix-view.hh, impl/matrix-view*.hh | interval algebra, views, assignments, sums of views | expression template machinery, printing |
| src/explicit-constraint-set.cc | all | printing |
| src/implicit.cc, implicit.hh, implicit-constraint-set.hh | rows, comparison types, right hand side, also varying with time, equality, copy, sets, pairs of joints constrained | printing |
| comparison-types.hh | all operators | printing |
| src/explicit.cc, src/locked-joint.cc | constructors, output values, equality, pairs of joints constrained | printing |
| src/explicit/implicit-function.cc | value, Jacobian layout, blocks for all output spaces, active parameters, pairs of joints | floating point branches of the difference in SO2 and SE2 |
| src/explicit/relative-pose.cc, relative-transformation.cc, input-configurations.hh | value, Jacobian, right hand sides, inputs | |
| src/explicit/convex-shape-contact.cc | pose computed, inputs | |
| src/solver/hierarchical-iterative.cc, by-substitution.cc and headers | constraints, layout, right hand sides, errors, values and errors of all levels, saturation, line searches, loops, reduced Jacobian, descent direction, integration, projections, resolution of affine constraints, local convergence, attraction by regular solutions, resolution under bounds, affine inequalities, optimisation of the last level, single steps, copies, save and load | statistics, printing, singular values read for tracing (only the index) |
| src/generic-transformation.cc, helper.hh, tools.hh | value, Jacobian, active variables, logarithms | printing |
| src/convex-shape-contact.cc, convex-shape.hh | selection, encoding of right hand sides, polygons, values, Jacobians, contact points, pairs of joints | printing |
| symbolic-calculus.hh, symbolic-function.hh | all expressions; caches; matrices of expressions; functions given by an expression | printing |
| src/static-stability.cc, qp-static-stability.cc | all | checks that only print a message |
| src/distance-between-*.cc | all | |
| src/differentiable-function.cc, differentiable-function-set.hh, function/*.hh, affine-function.hh, active-set-differentiable-function.hh, extracted-function.hh | values, Jacobians, active parameters, finite differences, equality | printing |
| serialize methods of functions, constraints, solvers, src/serialization.hh, serialization.hh | what is saved, loaded, lost | archives of Boost, devices, joints and spaces (other libraries) |
| src/com-between-feet.cc | all | |
| src/relative-com.cc, configuration-constraint.cc | all | printing, equality of configurations |
| src/manipulability.cc | value, Jacobian, comparison | Eigen's decomposition (any singular value decomposition) |

## Findings

The theorems named `…_refuted` are defects or unexpected behaviours of the code; the property statements say in words what they show. They are listed here by property.

* C01 (Normalising a list of index intervals is exact and canonical): `C01_shrink_without_sort_refuted`
* C04 (Sorted insertion of intervals): `C04_add_unsorted_list_refuted`
* C06 (Overlap test of two intervals): `C06_overlap_complete_refuted`
* C08 (Extracting a range of positions of an interval list): `C08_extract_empty_end_refuted`
* C10 (Block views read and write exactly the selected entries): `C10_view_to_view_refuted`
* C11 (Arithmetic between two block views): `C11_view_op_view_refuted`
* C12 (Acceptance of an explicit constraint): `C12_overlap_exception_refuted`
* C13 (An explicit constraint set is always acyclic with disjoint outputs): `C13_inconsistent_intervals_refuted`
* C14 (Index sets published by an explicit constraint set): `C14_unsorted_inputs_refuted`
* C17 (Dependency matrix of an explicit constraint set): `C17_dof_dependencies_no_input_refuted`, `C17_dependencies_overflow_refuted`
* C19 (Right hand sides of an explicit constraint set: set then get): `C19_assertions_agree_refuted`
* C21 (Explicit constraint satisfaction test): `C21_nan_refuted`, `C21_tiny_threshold_refuted`
* C22 (Meaning of comparison types): `C22_nan_refuted`
* C23 (Masked rows never contribute to the error): `C23_unsatisfiable_refuted`
* C28 (Per-constraint right hand side in the solver: set then get): `C28_substitution_refuted`
* C29 (Whole right hand side vector of the solver): `C29_substitution_refuted`, `C29_refuted`
* C30 (Adding a constraint keeps previously set right hand sides): `C30_survive_refuted`
* C31 (Satisfaction test of the solver): `C31_nan_refuted`, `C31_underflow_refuted`
* C32 (Per-constraint satisfaction agrees with the global one): `C32_inequality_refuted`
* C33 (Saturation clamps inside the bounds): `C33_flag_lost_refuted`, `C33_nan_refuted`
* C34 (Status returned by the iterative solver): `C34_zero_threshold_refuted`
* C35 (Line searches): `C35_error_norm_refuted`
* C36 (Constrained variables are never moved by a descent step): `C36_fresh_refuted`
* C38 (Hierarchy of the descent direction): `C38_previous_direction_refuted`, `C38_sigma_refuted`
* C39 (Merging solvers and submanifold test): `C39_submanifold_direction_refuted`, `C39_submanifold_comparison_refuted`, `C39_submanifold_rhs_refuted`, `C39_submanifold_optional_refuted`
* C40 (Extracting a sub-interval of a solver): `C40_aliased_refuted`, `C40_second_refuted`
* C42 (Success of the solver by substitution): `C42_satisfied_start_refuted`
* C43 (Optimisation never degrades the constraints): `C43_best_lost_refuted`, `C43_exception_refuted`
* C45 (Velocity variables involved in the implicit part): `C45_refuted`
* C46 (Projection of a velocity on the kernel): `C46_tangent_refuted`
* C47 (Saving and loading a solver): `C47_jacobian_refuted`
* C48 (Extracted functions): `C48_derivative_refuted`
* C50 (Finite differences): `C50_float_refuted`, `C50_robot_step_refuted`
* C51 (Active variables of a relative transformation): `C51_loop_refuted`, `C51_contact_inputs_refuted`
* C52 (Explicit relative pose satisfies the implicit relative pose): `C52_explicit_rhs_refuted`
* C53 (Jacobian of transformation functions): `C53_reference_refuted`, `C53_null_joint_refuted`
* C54 (Jacobian of the explicit relative transformation): `C54_parent_refuted`, `C54_r3xso3_refuted`
* C55 (Symbolic expressions have exact Jacobians): `C55_rotation_refuted`, `C55_point_refuted`
* C56 (Cached symbolic values are up to date): `C56_point_refuted`, `C56_com_refuted`, `C56_uninitialised_refuted`, `C56_stale_refuted`
* C57 (Contact right hand side encoding): `C57_beyond_refuted`, `C57_negative_refuted`, `C57_overlap_refuted`
* C58 (Signed distance to a convex polygon): `C58_segment_distance_refuted`, `C58_segment_reverse_refuted`, `C58_assertions_check_convexity_refuted`, `C58_closest_point_refuted`, `C58_aligned_frame_refuted`
* C59 (Distance functions do not depend on evaluation history): `C59_history_refuted`, `C59_no_second_refuted`
* C60 (Static stability by quadratic programming: Jacobian): `C60_jacobian_is_derivative_refuted`, `C60_jacobian_without_value_refuted`
* C61 (Derivative of the pseudo-inverse): `C61_rank_jump_refuted`, `C61_negative_force_refuted`, `C61_copy_refuted`
* C62 (Locked joints): `C62_partial_refuted`, `C62_extra_refuted`
* C64 (Explicit constraint as an implicit function): `C64_several_factors_refuted`
* C65 (Functions of a subset of the parameters): `C65_columns_refuted`
* C67 (Difference of a function at two places and functions with saturated variables): `C67_overlap_jacobian_refuted`, `C67_overlap_active_refuted`, `C67_saturated_active_refuted`
* C68 (Copies of a solver and constraints added afterwards): `C68_copy_spoiled_refuted`, `C68_offset_refuted`
* C69 (Logarithm of rotations): `C69_half_turn_refuted`
* C72 (Relative position of the center of mass): `C72_world_refuted`, `C72_short_mask_refuted`, `C72_long_mask_refuted`
* C73 (Weighted distance to a goal configuration): `C73_rotation_refuted`
* C74 (Contact of convex shapes: value, Jacobian, contact points): `C74_points_refuted`, `C74_extra_refuted`, `C74_line_refuted`, `C74_null_refuted`, `C74_thin_floor_refuted`
* C75 (Right hand sides that vary with time): `C75_type_change_refuted`, `C75_no_function_refuted`, `C75_substitution_refuted`
* C76 (Saving and loading functions and constraints): `C76_transformation_refuted`, `C76_constraint_refuted`, `C76_bounds_refuted`
* C77 (Jacobian of the implicit form of an explicit constraint): `C77_se2_refuted`, `C77_so3_refuted`
* C78 (Functions given by an expression, frame of a joint): `C78_mask_refuted`, `C78_function_refuted`
* C79 (Manipulability): `C79_rows_refuted`
* C80 (Results of all levels in one vector, satisfaction with errors): `C80_value_size_refuted`, `C80_minus_one_refuted`, `C80_error_size_refuted`
* C81 (Integration of a step and projection of a configuration): `C81_output_bounds_refuted`, `C81_report_refuted`, `C81_project_bound_refuted`, `C81_project_explicit_refuted`
* C82 (Affine constraints are solved): `C82_scale_refuted`, `C82_backtracking_refuted`
* C83 (Regular constraints are solved from a nearby configuration): `C83_cycle_refuted`
* C84 (oneStep is an iteration of solve, when the norm is known and no bound is reached): `C84_saturation_refuted`, `C84_backtracking_refuted`, `C84_error_norm_refuted`
* C85 (Inequality constraints: bounds are solved in one step, agreeing constraints get closer, others may cycle): `C85_feasible_refuted`
* C86 (Optimisation of the last level: exact with full steps or from a solution, never solves from elsewhere with the default line search): `C86_default_refuted`, `C86_regular_refuted`
* C88 (Resolution under bounds on the variables): `C88_start_refuted`, `C88_several_rows_refuted`, `C88_equal_bounds_refuted`, `C88_priority_refuted`
* C89 (Resolution by substitution under bounds): `C89_explicit_bounds_refuted`
* C90 (Per-constraint satisfaction, solver by substitution): `C90_shared_function_refuted`
* C91 (Vectors of comparison types): `C91_variable_kept_refuted`
* C92 (Center of mass between the feet): `C92_sloped_refuted`, `C92_height_refuted`, `C92_extra_refuted`, `C92_long_mask_refuted`
* C93 (Static equilibrium of a robot in contact): `C93_no_contact_refuted`, `C93_span_refuted`
* C94 (Pairs of joints reported as constrained): `C94_half_turn_refuted`, `C94_inequality_refuted`, `C94_segment_refuted`, `C94_partial_name_refuted`, `C94_extra_name_refuted`
* C95 (Bounds of the step along the kernel of the contact matrix): `C95_upper_refuted`
