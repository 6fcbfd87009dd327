{"id": "C01", "title": "Normalising a list of index intervals is exact and canonical", "statement": "Sorting then shrinking a list of intervals (what every index-set object does when rows or columns are updated) keeps exactly the same set of indices, returns intervals that are sorted and pairwise separated by at least one missing index, is idempotent, and any two lists of non-empty intervals that cover the same indices normalise to the same list. Shrinking alone (without the sort) always returns separated increasing intervals and never adds an index, but may lose indices when the list is not sorted.", "quantifier": "every list of intervals with non-negative lengths, in any order, with overlaps, duplicates and empty intervals", "why_tests_cant": "The number of interval arrangements (nested, touching, empty, duplicated, any order, any length) is unbounded; unit tests only try a handful of literals.", "anchors": ["src/matrix-view.cc: BlockIndex::sort, BlockIndex::shrink", "include/hpp/constraints/matrix-view.hh: MatrixBlocks::updateRows/updateIndices"]}
{"id": "C02", "title": "The number of indices reported for an index set is the number of distinct indices", "statement": "The cardinal of a list of intervals equals the length of the enumeration of its indices; for a normalised list it equals the number of distinct covered indices, and it is never changed by sorting.", "quantifier": "every list of intervals with non-negative lengths", "why_tests_cant": "Universally quantified counting statement; a test checks finitely many lists.", "anchors": ["src/matrix-view.cc: BlockIndex::cardinal", "include/hpp/constraints/matrix-view.hh: MatrixBlocks::nbIndices"]}
{"id": "C03", "title": "Set difference of intervals removes exactly the requested indices", "statement": "Each of the four difference overloads (interval/interval, list/interval, interval/list, list/list) returns intervals (of positive length if those of the first operand are) covering exactly the indices of the first operand that are not in the second; the order of the first operand is preserved, so sorted separated operands give sorted separated results; the binary searches inside are only ever applied to sequences on which they are defined.", "quantifier": "every pair of operands: the first a sorted disjoint list where the list/interval overload is called directly, anything for the others; the second any list in any order", "why_tests_cant": "Boundary coincidences between arbitrarily many intervals cannot be enumerated; the precondition of the binary search is invisible to tests.", "anchors": ["src/matrix-view.cc: BlockIndex::difference (4 overloads)"]}
{"id": "C04", "title": "Sorted insertion of intervals", "statement": "Inserting an interval or a sorted list of intervals into a sorted list yields a sorted list that is a permutation of the concatenation (no interval lost or duplicated). If the inserted list is not sorted the result is still a permutation but may be unsorted.", "quantifier": "every sorted receiver and every inserted interval or list", "why_tests_cant": "Needs all lists of all lengths; iterator advance after insertion is only observable on adversarial orders.", "anchors": ["src/matrix-view.cc: BlockIndex::add (2 overloads)"]}
{"id": "C05", "title": "Union of two intervals", "statement": "The sum of two intervals covers exactly the union of their indices, is symmetric in its arguments, and returns one interval exactly when the two touch or overlap.", "quantifier": "every pair of intervals with non-negative lengths", "why_tests_cant": "All relative positions at all offsets.", "anchors": ["src/matrix-view.cc: BlockIndex::sum"]}
{"id": "C06", "title": "Overlap test of two intervals", "statement": "overlap(a,b) never reports an overlap between intervals that share no index; it reports every shared index except when a lies strictly inside b (starts after b starts and ends before b ends), where it answers false. Hence it is not symmetric and is not the documented test 'do the two intervals share an index'.", "quantifier": "every pair of intervals with non-negative lengths", "why_tests_cant": "A universally quantified equivalence; the failing relative position is exactly the one existing tests do not include.", "anchors": ["src/matrix-view.cc: BlockIndex::overlap", "src/explicit-constraint-set.cc: ExplicitConstraintSet::add"]}
{"id": "C07", "title": "Splitting off the first indices of an interval list", "statement": "split(l,n) with 0 <= n <= cardinal(l) returns a list whose enumeration is exactly the first n indices of l and leaves in l exactly the remaining ones, in order; with n larger than the cardinal the result is the whole list and l becomes empty.", "quantifier": "every interval list with non-negative lengths and every n", "why_tests_cant": "Unbounded lists; the in-place modification interacts with iteration.", "anchors": ["src/matrix-view.cc: BlockIndex::split", "src/explicit/implicit-function.cc: ImplicitFunction::computeJacobianBlocks"]}
{"id": "C08", "title": "Extracting a range of positions of an interval list", "statement": "extract(l,s,n) with 0 <= s, 0 <= n and s+n <= cardinal(l) returns the intervals enumerating positions s..s+n-1 of l whenever s < cardinal(l); when s = cardinal(l) (so n = 0), although the documented precondition holds, the function reaches its 'failed to extract' assertion.", "quantifier": "every interval list with non-negative lengths, every start and length", "why_tests_cant": "Unbounded lists and positions; the failing corner is one specific boundary.", "anchors": ["src/matrix-view.cc: BlockIndex::extract"]}
{"id": "C09", "title": "Converting a boolean mask to intervals", "statement": "The interval list built from a boolean array covers exactly the positions holding true, and is sorted and separated.", "quantifier": "every boolean array of every size", "why_tests_cant": "Exponentially many masks.", "anchors": ["include/hpp/constraints/impl/matrix-view.hh: BlockIndex::fromLogicalExpression", "src/explicit/input-configurations.hh: vectorOfBoolToIntervals", "src/implicit.cc: Implicit::computeActiveRows"]}
{"id": "C10", "title": "Block views read and write exactly the selected entries", "statement": "Reading a vector or matrix through a block view returns, at position (i,j), the entry of the i-th selected row and j-th selected column; assigning through a view writes exactly the selected entries and leaves every other entry unchanged; with pairwise disjoint intervals reading back what was assigned returns it. Assigning a view to a view cut in blocks of the same sizes copies the entry of the i-th selected row and j-th selected column of the one to that of the other and changes nothing else; for the same rows cut in other blocks the assignment is not defined (an assertion of the code or of Eigen fails). No access outside the viewed object happens when every selected index is inside its bounds.", "quantifier": "every vector/matrix size, every list of row and column intervals", "why_tests_cant": "Views are used with arbitrary interval structures; frame conditions ('every other entry unchanged') are universally quantified.", "anchors": ["include/hpp/constraints/matrix-view.hh: MatrixBlockView, MatrixBlocks::rview/lview, eval_matrix_block_view_to", "include/hpp/constraints/impl/matrix-view.hh"]}
{"id": "C11", "title": "Arithmetic between two block views", "statement": "The sum or difference of a view and a plain expression is entrywise the sum or difference of the gathered values. For two views it is correct only if both views have the same block structure: the blocks of the left view are used to read the right one.", "quantifier": "every pair of views of equal size", "why_tests_cant": "The wrong case needs two views with different interval structure, which tests built from a single index set never produce.", "anchors": ["include/hpp/constraints/impl/matrix-view-operation.hh: CwiseBinaryOp specialisations"]}
{"id": "C12", "title": "Acceptance of an explicit constraint", "statement": "Adding a constraint to an explicit constraint set succeeds (returns the rank of the constraint) exactly when all its comparison types are Equality or EqualToZero, none of its output variables is already an output of the set, and none of its output variables is needed, directly or through the constraints already in the set, to compute its own inputs. If it is refused (returns -1 or throws) the set is unchanged.", "quantifier": "every history of additions and every candidate constraint with a contiguous output", "why_tests_cant": "Depends on the transitive dependency structure of arbitrary histories; 'unchanged when refused' ranges over the whole state.", "anchors": ["src/explicit-constraint-set.cc: ExplicitConstraintSet::add"]}
{"id": "C13", "title": "An explicit constraint set is always acyclic with disjoint outputs", "statement": "After any sequence of additions, no variable is computed by two constraints of the set and no constraint depends, even indirectly, on its own outputs; consequently the addition terminates for every candidate whose configuration and velocity intervals describe the same joints (without this an accepted candidate can recurse forever).", "quantifier": "every finite sequence of add calls from an empty set", "why_tests_cant": "Invariant over unbounded histories plus termination.", "anchors": ["src/explicit-constraint-set.cc: ExplicitConstraintSet::add"]}
{"id": "C14", "title": "Index sets published by an explicit constraint set", "statement": "After any sequence of additions outArgs is the set of output variables of the accepted constraints and notOutArgs is exactly its complement in the configuration; inArgs is exactly the set of input variables that are not outputs, provided each constraint lists its input intervals in increasing order. If some constraint lists its input intervals out of order, inArgs can lose variables. The same holds for the velocity index sets.", "quantifier": "every finite sequence of add calls, every configuration size", "why_tests_cant": "The index sets are maintained incrementally; correctness for every history requires an invariant, and the failing case needs an unusual (unsorted) but accepted description.", "anchors": ["src/explicit-constraint-set.cc: ExplicitConstraintSet::add, inArgs, outArgs, notOutArgs, inDers, outDers, notOutDers"]}
{"id": "C15", "title": "Constraints are evaluated in dependency order", "statement": "After any sequence of additions the computation order is a permutation of the constraints in which every constraint appears after all those computing one of its inputs.", "quantifier": "every finite sequence of add calls", "why_tests_cant": "Recursive ordering on arbitrary dependency graphs.", "anchors": ["src/explicit-constraint-set.cc: ExplicitConstraintSet::computeOrder"]}
{"id": "C16", "title": "Solving explicit constraints", "statement": "After solve, every constraint of the set holds (its outputs are the value of its function at its inputs composed with its right hand side), all variables that are not outputs are unchanged, the result is the only configuration with these two properties, hence it does not depend on the values the outputs had before, nor on the order in which the constraints were added, and solving twice changes nothing.", "quantifier": "every explicit constraint set reachable by additions, every configuration, every right hand side", "why_tests_cant": "Universally quantified over dependency graphs, configurations and addition orders.", "anchors": ["src/explicit-constraint-set.cc: ExplicitConstraintSet::solve, solveExplicitConstraint"]}
{"id": "C17", "title": "Dependency matrix of an explicit constraint set", "statement": "With exact counters inOutDependencies()(i,j) is positive exactly when velocity variable j is a free variable from which the i-th constraint's outputs depend directly or through other constraints; inOutDofDependencies() has one row per output velocity variable and one column per free input variable, with positive entry exactly in the same case (if there is no free input it has one empty row per velocity variable instead). The counters are 32-bit path counts: a chain of 33 constraints of dimension two overflows them, one dependency then reads 0 and another is negative.", "quantifier": "every reachable explicit constraint set", "why_tests_cant": "Reachability in arbitrary graphs, and a layout statement over arbitrary interval structures.", "anchors": ["src/explicit-constraint-set.cc: computeOrder, inOutDofDependencies"]}
{"id": "C18", "title": "Jacobian of the explicit resolution", "statement": "The matrix returned by the explicit constraint set's jacobian is the identity on non-output velocity variables, its output rows satisfy the chain rule J_out = F_in J_in for every constraint, it is zero outside input columns, and it is the only matrix with these properties ; for vector space configurations it is the derivative of the resolution map along any curve.", "quantifier": "every reachable explicit constraint set and every family of constraint Jacobians", "why_tests_cant": "A unique-solution statement over arbitrary dependency graphs and arbitrary matrices.", "anchors": ["src/explicit-constraint-set.cc: ExplicitConstraintSet::jacobian, computeJacobian"]}
{"id": "C19", "title": "Right hand sides of an explicit constraint set: set then get", "statement": "Setting the right hand side of one constraint stores the projection of the given value on the parameterised (Equality) components, leaves all other constraints' right hand sides unchanged and is read back; setting the whole vector of right hand sides and reading it back gives the projected vector; writing back what was read is the identity on states reached through the API. The assertions on values hold for what was read; for a whole vector they always hold; for one constraint they fail exactly when a component of the logarithm that is not parameterised is not below the threshold, so that a value accepted in a whole vector may be rejected for one constraint.", "quantifier": "every reachable set, every right hand side vector", "why_tests_cant": "Round trips over all Lie group values and all histories.", "anchors": ["src/explicit-constraint-set.cc: rightHandSide (3 overloads), getRightHandSide, rightHandSideSize"]}
{"id": "C20", "title": "Right hand side computed from a configuration", "statement": "After computing all right hand sides from a configuration with every component parameterised, that configuration satisfies all explicit constraints and solve leaves it unchanged; with some components EqualToZero only the parameterised components of the residual are absorbed.", "quantifier": "every reachable set and every configuration", "why_tests_cant": "Fixed-point statement for all configurations and graphs.", "anchors": ["src/explicit-constraint-set.cc: rightHandSideFromInput"]}
{"id": "C21", "title": "Explicit constraint satisfaction test", "statement": "isSatisfied answers true exactly when the squared norm of each constraint's residual is a number below the squared threshold (or NaN) and fills the error vector with the concatenated residuals; after solve it answers true whenever the square of the threshold is a positive double (a threshold whose square underflows to zero is never met). A NaN residual is ignored by the maximum: a configuration whose residual is NaN for every constraint is reported satisfied.", "quantifier": "every reachable set, configuration, threshold, including NaN residuals", "why_tests_cant": "Universally quantified; NaN propagation through max is not exercised by tests.", "anchors": ["src/explicit-constraint-set.cc: isSatisfied (2 overloads), isConstraintSatisfied"]}
{"id": "C22", "title": "Meaning of comparison types", "statement": "With inequality threshold t >= 0, the error component of a Superior (Inferior) row computed by the solver is zero exactly when the value is >= t (<= -t), is otherwise the value shifted by t towards feasibility, has the sign of the violation, and its Jacobian row is zeroed exactly when satisfied; Equality and EqualToZero rows are never altered.", "quantifier": "every value vector, Jacobian, comparison vector and threshold", "why_tests_cant": "Real-valued boundary behaviour on all rows simultaneously.", "anchors": ["src/solver/hierarchical-iterative.cc: compare, applyComparison"]}
{"id": "C23", "title": "Masked rows never contribute to the error", "statement": "A row excluded by the constraint's mask must contribute zero error whatever the configuration. This holds for equality rows and for inequality rows when the inequality threshold is zero; for a positive inequality threshold a masked inequality row gets the constant error of absolute value equal to the threshold, so the constraint can never be satisfied at error thresholds not larger than the inequality threshold.", "quantifier": "every mask, comparison vector, configuration and threshold", "why_tests_cant": "The order of masking and comparison only matters for one combination of options.", "anchors": ["src/solver/hierarchical-iterative.cc: computeValue", "src/implicit.cc: setInactiveRowsToZero"]}
{"id": "C24", "title": "Active and inactive rows of a constraint partition its rows", "statement": "After construction, changing comparison types, copying and loading, the active and inactive rows of a constraint are disjoint, cover all rows and match the mask; the equality and inequality row lists match the comparison types, and parameterSize is the number of Equality components. Sets of constraints built by additions satisfy the same, except that their parameterSize stays 0.", "quantifier": "every mask and every sequence of comparison type changes and reloads", "why_tests_cant": "Exponentially many masks, unbounded histories.", "anchors": ["src/implicit.cc: computeActiveRows, computeIndices, comparisonType, serialize"]}
{"id": "C25", "title": "Right hand side of an implicit constraint", "statement": "The right hand side computed from a configuration keeps exactly the Equality components of the (logarithm of the) function value and is zero on all others, hence is accepted by the right hand side check; with all components Equality it makes the residual vanish at that configuration.", "quantifier": "every constraint, configuration and comparison vector", "why_tests_cant": "Universally quantified over Lie group values and comparison vectors.", "anchors": ["src/implicit.cc: rightHandSideFromConfig, checkRightHandSide"]}
{"id": "C26", "title": "Equality of constraints", "statement": "Two constraints are equal only if they have the same class (implicit, explicit, locked joint), the same comparison types, right hand side size and equal functions; explicit constraints must moreover share the same explicit function object and index sets, locked joints the same joint. When function equality is an equivalence, so is equality of constraints. The mask and the right hand side value are ignored, so two constraints that differ only by their active rows are considered the same constraint.", "quantifier": "every pair and triple of constraints of the implicit, explicit and locked-joint classes", "why_tests_cant": "Equivalence laws over all objects; the ignored attribute is visible only by a two-object comparison.", "anchors": ["src/implicit.cc: isEqual, operator==", "src/explicit.cc: Explicit::isEqual", "src/locked-joint.cc: LockedJoint::isEqual", "src/differentiable-function.cc: operator=="]}
{"id": "C27", "title": "Layout of constraints in the solver", "statement": "After any sequence of additions every constraint owns, in the output, right hand side and error vectors of its priority level, a segment of the size of its output; segments of different constraints of a level are disjoint and cover the level in insertion order; adding a constraint whose function is already present throws and changes nothing.", "quantifier": "every sequence of add calls with arbitrary priorities (including gaps)", "why_tests_cant": "Invariant over histories.", "anchors": ["src/solver/hierarchical-iterative.cc: add, contains", "src/differentiable-function-set.cc (add)"]}
{"id": "C28", "title": "Per-constraint right hand side in the solver: set then get", "statement": "Setting the right hand side of a constraint and reading it back returns the same value (for a constraint treated explicitly, without its components along rows that are not of type Equality) and does not change the right hand side of any other constraint, whatever the priorities; setting one for an unknown constraint returns false and changes nothing. In the solver by substitution this fails for a constraint treated explicitly when a numerical constraint has the same function: setting then reports success but changes the right hand side of the numerical constraint only.", "quantifier": "every solver reachable by additions, every pair of constraints, every value", "why_tests_cant": "Aliasing/frame statement over all histories.", "anchors": ["src/solver/hierarchical-iterative.cc: rightHandSide(constraint), getRightHandSide, rightHandSideFromConfig(constraint)"]}
{"id": "C29", "title": "Whole right hand side vector of the solver", "statement": "Reading the right hand side vector and writing it back changes nothing. This holds for solvers with one priority level and fails as soon as a level other than the last has an output: the write uses offsets of the global vector inside each level's own vector (out of bounds access). For the solver by substitution it holds, with at most one level, when there are no explicit constraints or no numerical ones; with both kinds the explicit part is read from the head instead of the tail of the vector and the right hand sides of explicit constraints change.", "quantifier": "every solver reachable by additions", "why_tests_cant": "Only fails for particular level structures, as undefined behaviour that a test may not see.", "anchors": ["src/solver/hierarchical-iterative.cc: rightHandSide(vectorIn_t), rightHandSide()", "src/solver/by-substitution.cc: rightHandSide(vectorIn_t)"]}
{"id": "C30", "title": "Adding a constraint keeps previously set right hand sides", "statement": "A user expects the right hand sides set so far to survive the addition of another constraint or a change of free variables. They do not: any addition of an implicit constraint or change of free variables resets the right hand sides of all implicit constraints to neutral, while right hand sides of explicit constraints survive.", "quantifier": "every history of additions and right hand side settings", "why_tests_cant": "Interaction between two calls separated by arbitrary histories.", "anchors": ["src/solver/hierarchical-iterative.cc: update, add", "src/solver/by-substitution.cc: add, explicitConstraintSetHasChanged"]}
{"id": "C31", "title": "Satisfaction test of the solver", "statement": "isSatisfied answers true exactly when the maximum over non-optional constraints of the squared residual is below the squared threshold, the optional last level being ignored. Residuals that are NaN are ignored (never larger in the maximum), so a configuration with NaN residuals is reported satisfied. With the last level optional and no level at all the loop bound underflows.", "quantifier": "every solver, configuration and threshold, including NaN values", "why_tests_cant": "IEEE semantics of max and unsigned underflow on an unusual state.", "anchors": ["src/solver/hierarchical-iterative.cc: computeError, computeValue", "include/hpp/constraints/solver/hierarchical-iterative.hh: isSatisfied"]}
{"id": "C32", "title": "Per-constraint satisfaction agrees with the global one", "statement": "For equality constraints, all constraints of all levels being individually satisfied is equivalent to the solver being satisfied. A constraint whose function is equal to none in the solver is reported not found and not satisfied. For inequality constraints the per-constraint test does not apply the comparison type: it reports 'not satisfied' for configurations where the inequality strictly holds.", "quantifier": "every solver, configuration and threshold", "why_tests_cant": "Equivalence of two code paths over all states.", "anchors": ["src/solver/hierarchical-iterative.cc: isConstraintSatisfied, computeError"]}
{"id": "C33", "title": "Saturation clamps inside the bounds", "statement": "Clamping returns a value within [lower, upper] when lower <= upper, leaves values strictly inside unchanged, reports -1/1/0 accordingly, and returns true exactly when some component reached a bound; it is idempotent. Without bounds nothing is changed and no flag is set, as with bounds when every variable is strictly inside. When several configuration variables map to the same velocity variable only the flag of the last one is kept.", "quantifier": "every configuration and bounds, every index map", "why_tests_cant": "Real-valued and map-dependent.", "anchors": ["src/solver/hierarchical-iterative.cc: saturation::clamp, Bounds::saturate, Device::saturate"]}
{"id": "C34", "title": "Status returned by the iterative solver", "statement": "The iterative solver always terminates, performing at most the maximal number of iterations; SUCCESS is returned exactly when the residual of the returned configuration is at most the threshold; otherwise INFEASIBLE, MAX_ITERATION_REACHED or ERROR_INCREASED is returned in the documented situation and no uninitialised status is ever returned; with a zero threshold a SUCCESS configuration is not reported satisfied by isSatisfied.", "quantifier": "every solver, start configuration, descent direction, line search and sequence of errors", "why_tests_cant": "Ranges over all numeric behaviours of the descent step.", "anchors": ["include/hpp/constraints/solver/impl/hierarchical-iterative.hh: solve"]}
{"id": "C35", "title": "Line searches", "statement": "Each line search moves along the descent direction by a step factor in (0,1]: constant 1; the fixed sequence starts at .2, increases strictly and stays below .95 for every number of iterations; the error-norm-based factor stays strictly between alphaMin and 1, is .98 when the residual equals the squared threshold and decreases strictly with the error when alphaMin is less than .96 (for alphaMin between .96 and .98 it increases); backtracking terminates, returns true only if the Armijo decrease condition holds at the returned configuration, for the first trial step at which it holds, and otherwise applies its small fixed factor.", "quantifier": "every error sequence, every number of iterations, every parameter in range", "why_tests_cant": "Sequences of unbounded length and real-valued functions.", "anchors": ["include/hpp/constraints/solver/impl/hierarchical-iterative.hh: lineSearch", "src/solver/hierarchical-iterative.cc: Backtracking, FixedSequence, ErrorNormBased constructors"]}
{"id": "C36", "title": "Constrained variables are never moved by a descent step", "statement": "The descent direction is zero on every velocity variable that is not free, through any sequence of updates, changes of free variables, computed steps and scalings; once a constraint was added or free variables were set it has the size of the velocity, and its free components are those computed on the reduced problem, in order. On a solver that was just constructed it has size 0.", "quantifier": "every free variable set and every descent step", "why_tests_cant": "Frame condition over arbitrary index sets and histories.", "anchors": ["src/solver/hierarchical-iterative.cc: expandDqSmall, update", "include/hpp/constraints/solver/hierarchical-iterative.hh: freeVariables"]}
{"id": "C37", "title": "Rows of the reduced Jacobian", "statement": "A row of a constraint is kept in the reduced Jacobian exactly when it is active in the mask and the constraint depends on at least one free variable - or, in the solver by substitution, on an output of the explicit set that depends on a free variable; rows are kept in order and reducedDimension is their number.", "quantifier": "every constraint list, mask, dependency pattern and free variable set", "why_tests_cant": "Combinatorial in masks, dependency patterns and levels.", "anchors": ["src/solver/hierarchical-iterative.cc: computeActiveRowsOfJ", "src/solver/by-substitution.cc: computeActiveRowsOfJ"]}
{"id": "C38", "title": "Hierarchy of the descent direction", "statement": "Every real matrix has a singular value decomposition, so that the computation has a result on all levels. With an exact singular value decomposition at each level, the direction minimises the linearised residual of each level among the minimisers of the previous levels, so lower levels never change the residuals of higher ones; with level by level solving, this holds for a prefix of the levels whose last one has a residual above the threshold. The direction has minimal norm when the first level has at least one row. When it has none and there are several levels, the direction left by the previous call is the starting point, so the result depends on the history and is not of minimal norm. The singular value read for sigma_ is inside the vector with one level; with several levels the rank reached at another configuration can be larger than the number of singular values and the read is out of bounds.", "quantifier": "every number of levels, every Jacobian and error", "why_tests_cant": "Linear algebra over all matrices and depths.", "anchors": ["src/solver/hierarchical-iterative.cc: computeDescentDirection"]}
{"id": "C39", "title": "Merging solvers and submanifold test", "statement": "After merge every constraint of the other solver is contained in the receiver, and the receiver then defines a submanifold of the other; definesSubmanifoldOf is reflexive and transitive. It is true exactly if each function constrained in the argument is also constrained in the receiver; so, contrary to the header, a configuration satisfying the argument need not satisfy the receiver, while a configuration satisfying the receiver satisfies the argument as soon as constraints with the same function have the same formulation, comparison types, mask and right hand side and are not at an optional level of the receiver (for the solver by substitution: if moreover they are explicit in both solvers or in none). None of these is compared, and the conclusion fails if the comparison types or the right hand sides differ or if the level is optional. Only constraints of the other solver that the receiver does not contain are added. Merging throws exactly if the receiver contains a constraint with the same function but which is not equal (hierarchical solver); the solver by substitution throws only for such a constraint or for an explicit constraint whose input overlaps its own output.", "quantifier": "every pair and triple of solvers", "why_tests_cant": "Quantified over pairs of arbitrary solvers.", "anchors": ["src/solver/hierarchical-iterative.cc: merge, contains, definesSubmanifoldOf"]}
{"id": "C40", "title": "Extracting a sub-interval of a solver", "statement": "For every program on a family of solvers, extract on a hierarchical solver adds one solver and changes no existing constraint, space or solver; the new solver has new constraints, one for each constraint of the original in the same order, equal to it except that the right hand side function, when there is one, is restricted to the interval, and its levels hold those copies. For the solver by substitution the result is the same but the original does not stay untouched: its list of constraints, levels and indices are unchanged, its explicit constraints become those of the returned solver, with the same functions and comparison types. Hence the two are not independent: changing the comparison type of a constraint of the result changes the one the original's explicit constraints use, while changing the original's own constraint no longer does, and a second extract returns a solver whose explicit constraints belong to the first result.", "quantifier": "every solver and interval", "why_tests_cant": "Aliasing between two objects after an operation; needs a before/after comparison of the source.", "anchors": ["src/solver/by-substitution.cc: extract, copy constructor", "src/solver/hierarchical-iterative.cc: extract, copy constructor"]}
{"id": "C41", "title": "Adding constraints to the solver by substitution", "statement": "add returns false and changes nothing if an equal constraint is contained; otherwise the constraint is afterwards contained, treated explicitly when the explicit set accepts it and numerically otherwise, or add throws without changing anything, because the explicit function reads its own output or because the constraint would be treated numerically and a numerical constraint has the same function; the free variables always are the complement of the explicit outputs.", "quantifier": "every sequence of additions of explicit and implicit constraints", "why_tests_cant": "Invariant over histories of two cooperating components.", "anchors": ["src/solver/by-substitution.cc: add, explicitConstraintSetHasChanged"]}
{"id": "C42", "title": "Success of the solver by substitution", "statement": "When solve returns SUCCESS without optimisation, the returned configuration satisfies all explicit constraints exactly, and the residual of the implicit constraints at the returned configuration is at most a quarter of the squared threshold, or it was already below the threshold at the projected start and has not increased. When the start satisfies the constraints the result is SUCCESS with a residual not larger, except when an explicit function is undefined or no row can be reduced and the residual lies between a quarter of and the full squared threshold: INFEASIBLE is then returned for a satisfying configuration.", "quantifier": "every solver, start configuration, descent step, line search", "why_tests_cant": "All numeric behaviours of the step; multi-branch early exits.", "anchors": ["include/hpp/constraints/solver/impl/by-substitution.hh: impl_solve"]}
{"id": "C43", "title": "Optimisation never degrades the constraints", "statement": "When optimising, the loop terminates after at most the maximal number of iterations and, unless an explicit function is undefined at a visited configuration, every returned configuration satisfies the explicit constraints; if the projected start satisfies the implicit constraints, or a visited satisfying configuration has a smaller cost than the projected start, the returned configuration satisfies them and has the smallest cost of all visited satisfying configurations, not larger than the cost of the start. SUCCESS is never returned. It is not true that a satisfying configuration is returned whenever one was visited: its cost is compared with that of the unsatisfying start. While no satisfying configuration has been visited the descent direction is computed only once.", "quantifier": "every solver with optional last level, every step behaviour", "why_tests_cant": "Ranges over all iterate sequences.", "anchors": ["include/hpp/constraints/solver/impl/by-substitution.hh: impl_solve"]}
{"id": "C44", "title": "Reduced Jacobian after substitution is the total derivative", "statement": "The reduced Jacobian used by the solver by substitution equals the derivative of the implicit residual composed with the explicit resolution with respect to the free variables: J_free + J_out * dE, restricted to active rows.", "quantifier": "every implicit Jacobian and explicit constraint set", "why_tests_cant": "Matrix identity over arbitrary index structures.", "anchors": ["src/solver/by-substitution.cc: updateJacobian"]}
{"id": "C45", "title": "Velocity variables involved in the implicit part", "statement": "implicitDof returns exactly the free velocity variables on which some implicit constraint depends, directly or through explicit constraints, provided that each priority level has a constraint. With a level without constraint the call combines arrays of different sizes (undefined behaviour).", "quantifier": "every solver by substitution", "why_tests_cant": "Reachability over arbitrary graphs. The intermediate reset of one entry must not drop an index.", "anchors": ["src/solver/by-substitution.cc: implicitDof"]}
{"id": "C46", "title": "Projection of a velocity on the kernel", "statement": "The projected velocity is zero on the variables that are not free, its free part is in the kernel of the reduced Jacobian and is the closest one to the free part of the argument, the projection is idempotent and does not increase the norm. Without constraint or with an empty reduced Jacobian the argument is returned unchanged, including on explicit outputs. Since outputs are set to zero, the result is not tangent to the implicit and explicit constraints: even a velocity that satisfies them is projected onto one that does not.", "quantifier": "every velocity, solver and Jacobian", "why_tests_cant": "Linear algebra over all matrices; special case bypasses the projection.", "anchors": ["src/solver/by-substitution.cc: projectVectorOnKernel"]}
{"id": "C47", "title": "Saving and loading a solver", "statement": "A solver that is saved and loaded contains the same constraints with the same priorities in the same order, the same explicit resolution order, free variables, error and inequality thresholds, number of iterations and optional-level flag; right hand sides come back neutral, the explicit error threshold is not restored, the solve-level-by-level option is left uninitialised, and the matrix holding the Jacobian of the explicit resolution comes back empty, so that a loaded solver whose explicit constraints have inputs writes out of bounds when it computes its Jacobian.", "quantifier": "every solver", "why_tests_cant": "Round trip over all states.", "anchors": ["src/solver/hierarchical-iterative.cc: load, save", "src/solver/by-substitution.cc: load, save"]}
{"id": "C48", "title": "Extracted functions", "statement": "The function extracted on an interval has value f(start + t), or f(start - t) when the interval is reversed. Its Jacobian is the derivative of that value when the interval is reversed or when the original function is returned; in the other case the derivative is evaluated at t - start instead of start + t, so that it is right exactly when both derivatives agree.", "quantifier": "every function, interval and parameter", "why_tests_cant": "Universally quantified over functions; only visible for start different from zero and non-affine functions.", "anchors": ["src/differentiable-function.cc: ExtractedFunction::impl_compute, impl_jacobian, extract"]}
{"id": "C49", "title": "Function sets stack their members", "statement": "The value and output sizes of a function set are the concatenation and sums of those of its members in insertion order, and the active parameters are the unions of those of the members. For the Jacobian each member is given exactly its own rows of the matrix, and every row belongs to one member. Merging a set into another gives the set of the members of both, in this order.", "quantifier": "every list of functions", "why_tests_cant": "Unbounded lists, frame conditions.", "anchors": ["include/hpp/constraints/differentiable-function-set.hh: DifferentiableFunctionSet::add, impl_compute, impl_jacobian"]}
{"id": "C50", "title": "Finite differences", "statement": "Central and forward finite differences return the exact Jacobian of every affine function. For functions that are quadratic in the variable, central differences are exact and forward differences have an error proportional to the step; for differentiable functions both converge to the partial derivative when the step goes to zero. If the values are computed within delta, forward differences are within M2 h / 2 + 2 delta / h of the partial derivative and central differences within M3 h^2 / 6 + delta / h, h the step, M2 and M3 bounds of the second and third derivatives. The step is eps |x_i|, or eps if x_i is 0, so this bound grows without limit when x_i goes to 0: in double precision, with the default eps, both differences of x + 1 are 0 at x = 2^-60 (the default eps is 2^-26). Columns of inactive variables are set to zero and columns beyond those of the variables are not written. On a robot the differences are those of the values at configurations integrated from the given one, with the same bounds along the motion of the velocity variable; the step of velocity variable i is taken from the configuration variable of index i, which belongs to another joint as soon as a joint with more configuration than velocity variables comes before: for an unbounded rotation followed by two translations, the error on the cube of the second translation at 1 exceeds any bound, whatever eps, when the first translation is far away.", "quantifier": "every affine/quadratic function and step", "why_tests_cant": "All functions and steps over the reals.", "anchors": ["src/differentiable-function.cc: finiteDifferenceForward, finiteDifferenceCentral"]}
{"id": "C51", "title": "Active variables of a relative transformation", "statement": "The configuration variables reported active for a relative transformation are exactly those of the joints on the kinematic path between the two joints, i.e. ancestors of exactly one of them (for contacts: of some pair of a floor and an object); the relative transform does not depend on any other variable. The explicit relative pose computes its inputs by another algorithm: they are the variables of the path between the first joint and the parent of the second one, they determine the pose of the first joint in that parent, and with the variables of the second joint they form the active variables when the second joint does not carry the first one; when it does, the output is among the inputs. Explicit contacts only look at the joint of the first object: with objects on several joints some active variables are neither inputs nor outputs.", "quantifier": "every kinematic tree and pair of joints", "why_tests_cant": "All trees; equivalence of two algorithms and a semantic independence statement.", "anchors": ["src/generic-transformation/helper.hh: setActiveParameters", "src/explicit/input-configurations.hh: relPoseConfVariables, relPoseVelVariables"]}
{"id": "C52", "title": "Explicit relative pose satisfies the implicit relative pose", "statement": "The pose computed by the explicit relative pose constraint for the free-flying joint is the one, and the only one, for which the implicit relative transformation has the given right hand side as value, for every frames, joints and right hand side (where the exponential inverts the logarithm). Converting an implicit right hand side to explicit and back is the identity; explicit to implicit and back gives log(exp(v)), so that full turns are lost.", "quantifier": "every rigid-body transform", "why_tests_cant": "Group identities over SE(3).", "anchors": ["src/explicit/relative-pose.cc: outputValue, implicitToExplicitRhs, explicitToImplicitRhs", "src/explicit/relative-transformation.cc: impl_compute"]}
{"id": "C53", "title": "Jacobian of transformation functions", "statement": "After any sequence of setters, the value of a position, orientation or transformation function is the part selected by the mask of the placement of frame 2 in frame 1 (logarithm of the rotation, or quaternion if the output space contains SO(3)). The Jacobian is written only within its bounds, has zero columns for the extra degrees of freedom, and is the derivative of that value along every motion of the two joints (for an SO(3) output the last rows give the angular velocity of frame 2 in itself), provided one of the joints is set; if neither is, computing the Jacobian dereferences a null pointer. The joints and frames are those last set; setting a reference puts frame 1 there and frame 2 on joint 2, so the pose is the identity exactly where the placement of joint 2 in joint 1 is the reference; reading the reference back gives its inverse.", "quantifier": "every pose, frame, velocity", "why_tests_cant": "Continuous quantification; finite-difference tests only sample.", "anchors": ["src/generic-transformation/helper.hh", "include/hpp/constraints/tools.hh"]}
{"id": "C54", "title": "Jacobian of the explicit relative transformation", "statement": "Without a parent of the free-flying joint, the Jacobian of the explicit relative transformation gives the velocity of its value, and the Jacobian of the output value of the relative pose gives the velocity of the pose computed from the right hand side. With a parent joint it does not: the angular rows are the opposite of the angular velocity and the linear rows are the derivative of the translation where the parent and joint 1 are not turned, but wrong elsewhere even for joints that only translate. For a free-flying joint with velocity in R^3 x SO(3), which the constraint accepts, the linear rows are not the derivative of the translation.", "quantifier": "every pose, frame, velocity, with and without parent joint", "why_tests_cant": "Continuous quantification; the failing branch is not covered.", "anchors": ["src/explicit/relative-transformation.cc: impl_jacobian"]}
{"id": "C55", "title": "Symbolic expressions have exact Jacobians", "statement": "For each expression built from sums, differences, scalar and vector products, multiples, products by transposed rotations, points and vectors attached to joints and the center of mass, the Jacobian read after invalidation is the derivative of the vector the expression denotes, along every motion of the robot; a function given by such an expression returns the denoted vector and its derivative whatever was evaluated before; the rows computed by ComBetweenFeet are the specified ones and its Jacobian rows are their derivatives. This fails for products by a rotation that is not transposed (wrong sign) and when an operand of a vector product is a point attached to a joint away from its origin.", "quantifier": "every expression tree and every motion", "why_tests_cant": "Induction over expression trees.", "anchors": ["include/hpp/constraints/symbolic-calculus.hh"]}
{"id": "C56", "title": "Cached symbolic values are up to date", "statement": "After the robot moves and an expression is invalidated, every value, vector product matrix and Jacobian read from its objects, shared or not, is that of the current configuration, whatever was evaluated before and in whatever order. Before the first invalidation the flags are indeterminate; invalidating an expression leaves stale another one sharing a sub-expression; when an operand of a vector product is a point attached to a joint, evaluating the Jacobian changes the value computed next; when it is the center of mass the value depends on uninitialised memory.", "quantifier": "every sequence of configuration changes, invalidations and reads", "why_tests_cant": "History property of a memoising structure.", "anchors": ["include/hpp/constraints/symbolic-calculus.hh: CalculusBase"]}
{"id": "C57", "title": "Contact right hand side encoding", "statement": "The pair of surfaces selected has the smallest distance, the first one in case of equality; with no floor or no object the indices are not initialised. For surface contacts decoding the right hand side returns the pair of surfaces and the relative pose, moved by the margin, exactly when the in-plane coordinates are in [-M, M) (or the center is outside the floor); the radius M is large enough for every point of the convex hull of a floor. Point contacts lose two angles, negative rows cannot be decoded. The pose computed by the explicit constraint has the given right hand side as value provided the same pair is selected there; values of distinct pairs differ, so with overlapping floors the explicit solution may violate the implicit constraint.", "quantifier": "every number of surfaces, every pair and position", "why_tests_cant": "Arithmetic coding over unbounded indices and reals.", "anchors": ["src/convex-shape-contact.cc: ConvexShapeContactComplement, ConvexShapeContactHold", "src/explicit/convex-shape-contact.cc"]}
{"id": "C58", "title": "Signed distance to a convex polygon", "statement": "For every convex polygon in space (vertices in order, any placement of its joint) the surface passes its assertions, its frame is a rotation whose first axis is the normal, the inside test answers true exactly for points of the convex hull of the vertices, and the signed distance of a point of the plane is positive exactly outside, its absolute value being the distance to the sides, and outside the distance to the polygon. The intersection of the surface with a line not parallel to its plane is their only common point. reverse() turns the normal and changes neither test. The pair selected by a contact constraint minimises the distance in space between center of object and floor polygon. This fails in the following cases: the signed distance to a surface with two points reads out of bounds; reverse() on two points keeps the direction and sets the length to one; the assertions accept a pentagram; closestPointToSegment uses the opposite vector and so returns the point of the segment closest to the image of the given point through the first end; alignedPositionInJoint may return a matrix that is not a rotation.", "quantifier": "every polygon and point", "why_tests_cant": "Real geometry, all polygons.", "anchors": ["include/hpp/constraints/convex-shape.hh: distanceLocal, isInsideLocal"]}
{"id": "C59", "title": "Distance functions do not depend on evaluation history", "statement": "Distance between points of bodies and between bodies. For every sequence of calls on the function object and of uses of the robot by other code, the value at a configuration is the one for this configuration. The Jacobian at a configuration is also the same whatever was called before as long as no other code uses the robot in between, or when the previous call was for another configuration, and it is the derivative of the value along every motion of the joints at which the distance is not zero (for bodies, with nearest points fixed to the bodies, separated or in penetration). It is not when the configuration is the one of the previous call and other code has moved the robot: the Jacobian then mixes the two configurations. Between points without second joint the value is the distance to the origin and not to the second point, while the Jacobian uses the second point, so that it is the derivative only if the second point is the origin.", "quantifier": "every sequence of evaluations interleaved with robot configuration changes", "why_tests_cant": "History and aliasing property.", "anchors": ["src/distance-between-bodies.cc", "src/distance-between-points-in-bodies.cc"]}
{"id": "C60", "title": "Static stability by quadratic programming: Jacobian", "statement": "The value of static stability by quadratic programming, computed after any history of calls, is the smallest squared norm of the unbalanced wrench over nonnegative contact forces: it is reached, is a lower bound, is nonnegative and is zero exactly when nonnegative forces balance gravity. Where it is differentiable, twice the Jacobian is its derivative, provided that the last value was computed in the same configuration. The Jacobian is not the derivative itself (a factor two is missing), and after a value in another configuration it mixes the matrix of that configuration with the derivatives in the current one, because impl_jacobian does not compute the value of phi_.", "quantifier": "every contact set and motion", "why_tests_cant": "Continuous quantification.", "anchors": ["src/qp-static-stability.cc: impl_jacobian"]}
{"id": "C61", "title": "Derivative of the pseudo-inverse", "statement": "The matrix computed from the singular value decomposition is the unique Moore-Penrose pseudo-inverse and the projectors are those on its kernel, span, and the same for the inverse. If the matrix of expressions is differentiable along a motion, its pseudo-inverse is differentiable exactly when the rank is locally constant, and then computePseudoInverseJacobian returns the derivative of the pseudo-inverse times the right hand side. In StaticStability the last rows of the value are the smallest resultant, zero iff gravity is in the span of the contact directions, the forces of the first rows give that resultant, and the Jacobian is the derivative of the value where the rank is locally constant, no least norm force is zero, and either all are positive or one is below minus the precision. This fails at a rank jump; the forces returned may be negative although nonnegative forces balance gravity. Caches: after a move and an invalidation, value, decomposition and pseudo-inverse are those of the current configuration; a copy of a matrix whose pseudo-inverse was computed has an empty pseudo-inverse flagged valid.", "quantifier": "every matrix and variation", "why_tests_cant": "Matrix identities over all sizes.", "anchors": ["include/hpp/constraints/symbolic-calculus.hh: MatrixOfExpressions::computePseudoInverseJacobian", "include/hpp/constraints/svd.hh"]}
{"id": "C62", "title": "Locked joints", "statement": "Locked joints built on distinct whole joints are all accepted by a set of explicit constraints; the variables that remain free are exactly those of the other joints and the extra variables, and solving writes in each locked joint the sum of its value and its right hand side (initially zero) and nothing else. The constructors for partially locked joints and extra configuration variables pass the output configuration interval as input velocity interval, so that the constraint they build has no output, its rank in configuration is read out of bounds (the rank in velocity is that of the joint, whatever the index) and adding it to a set is undefined.", "quantifier": "every robot joint layout, index and value", "why_tests_cant": "All layouts; argument exchange is type-correct so compilers do not see it.", "anchors": ["src/locked-joint.cc: LockedJoint constructors"]}
{"id": "C63", "title": "Equality of functions", "statement": "Function equality is symmetric for every pair of functions. It is reflexive except for constant functions, which are equal exactly when their values differ, and contacts with more objects than floors, for which it reads out of bounds. For identity, affine, configuration, points, subset, active-set and manipulability functions equal means identical in all members; transformation functions are compared without their joints and frames, and contacts without their objects, so that the solver by substitution drops a constraint on other joints as one it already contains.", "quantifier": "every pair of functions", "why_tests_cant": "Laws over all objects.", "anchors": ["src/differentiable-function.cc: operator==", "include/hpp/constraints/affine-function.hh: ConstantFunction::isEqual"]}
{"id": "C64", "title": "Explicit constraint as an implicit function", "statement": "The implicit function built from an explicit constraint takes a value r exactly when the configuration satisfies the explicit constraint with right hand side r, and has the right hand sides as values after explicit resolution. Its active parameters are those of the inputs and outputs. When the output space has one factor its Jacobian has the blocks of the visitor in the columns of the outputs and of the inputs and zeros elsewhere, and for vector spaces it is the derivative of the value. When the output space has two factors of positive dimension the Jacobian is written out of bounds.", "quantifier": "every function, index sets and configuration", "why_tests_cant": "Over all Lie group values and interval structures.", "anchors": ["src/explicit/implicit-function.cc"]}
{"id": "C65", "title": "Functions of a subset of the parameters", "statement": "A function applied to an interval of the parameters has the value of the function on that interval; it hands exactly the columns of that interval to the function for the Jacobian and leaves all the other columns as they were, so that the result depends on the previous contents of the matrix. Active parameters are those of the function shifted to the interval.", "quantifier": "every function, interval, argument and matrix", "why_tests_cant": "The tests use matrices set to zero and one interval.", "anchors": ["include/hpp/constraints/function/of-parameter-subset.hh: OfParameterSubset"]}
{"id": "C66", "title": "Affine functions", "statement": "The derivative of an affine function along every direction is its matrix applied to the direction, and a parameter is active exactly when changing it changes the value for some argument.", "quantifier": "every matrix, vector, direction and parameter", "why_tests_cant": "Tests check a few random matrices at a few points.", "anchors": ["include/hpp/constraints/affine-function.hh: AffineFunction"]}
{"id": "C67", "title": "Difference of a function at two places and functions with saturated variables", "statement": "The difference of a function between two intervals of the parameters has the difference of the two values as value; when the two intervals do not overlap its Jacobian has the columns computed by the function on the first interval, the opposite of those computed on the second one, and leaves the other columns as they were, and its active parameters are those of the function shifted to both intervals. When the intervals overlap, the Jacobian is wrong and active parameters may be flagged inactive. A function with saturated variables has the value and the Jacobian of the original function, except that the columns of the saturated variables, and only them, are zero; these variables are nevertheless flagged active.", "quantifier": "every function, pair of intervals, list of saturated intervals, argument and matrix", "why_tests_cant": "Tests use one function with two fixed joints; overlapping intervals and stale matrices are not exercised.", "anchors": ["include/hpp/constraints/function/difference.hh: Difference::impl_compute, impl_jacobian", "src/function/difference.cc: Difference::Difference", "include/hpp/constraints/active-set-differentiable-function.hh: ActiveSetDifferentiableFunction"]}
{"id": "C68", "title": "Copies of a solver and constraints added afterwards", "statement": "For every program that creates constraints and solvers, copies them, extracts from them and adds constraints: a copy holds new constraints with the contents of the originals, at the same levels; when a constraint is added to a solver, this solver is evaluated in spaces of its own that have the dimension of its constraints, no other solver object changes, and, if the solver was consistent before, the recorded index of the constraint is the total size of the constraints of its level; a consistent solver that uses its own spaces is not disturbed by any operation on the others, and any consistent solver stays so as long as nothing is added to a solver created before it. The last restriction is needed: a copy keeps pointers to the spaces of the original, so that adding a constraint to the original makes the copy's vectors and spaces disagree, and a constraint then added to the copy is recorded at the index of the original.", "quantifier": "every program on solvers (list of operations) and every constraint size", "why_tests_cant": "The effect appears only for particular interleavings of copies and additions, in an object that the operation does not mention.", "anchors": ["src/solver/hierarchical-iterative.cc: copy constructor, add, update", "include/hpp/constraints/implicit-constraint-set.hh: copy constructor, add", "include/hpp/constraints/differentiable-function-set.hh: add", "src/solver/by-substitution.cc: copy constructor, add"]}
{"id": "C69", "title": "Logarithm of rotations", "statement": "For a rotation matrix of angle theta equal to 0 or between 1e-6 and pi excluded, logSO3 returns theta and a vector r of norm theta whose exponential is the matrix: the rotation that starts from the identity and turns at the constant velocity r is there at time 1. This holds in both branches of the code. Below 1e-6 the vector is the logarithm multiplied by sin theta / theta. For half turns, theta = pi, the vector has the right norm but the signs of its coordinates are lost: its exponential is the matrix exactly when the off-diagonal coefficients are not negative.", "quantifier": "every rotation matrix", "why_tests_cant": "the branches depend on real thresholds and half turns are a set of measure zero that random rotations never reach", "anchors": ["include/hpp/constraints/tools.hh:60-93 (logSO3)"]}
{"id": "C70", "title": "Jacobian of the logarithm of rotations", "statement": "Along every differentiable curve of rotations, at angles equal to 0 or between 1e-6 and pi excluded, the derivative of the vector returned by logSO3 is JlogSO3 times the angular velocity in the moving frame, and computeJlog times the angular velocity in the fixed frame.", "quantifier": "every curve of rotations, every velocity", "why_tests_cant": "tests compare with finite differences at sampled rotations, up to a tolerance larger than wrong terms of high order", "anchors": ["include/hpp/constraints/tools.hh:129-155 (JlogSO3)", "src/generic-transformation/helper.hh:165-190 (computeJlog)"]}
{"id": "C71", "title": "Logarithm of rigid-body transforms", "statement": "For a transform whose rotation has an angle equal to 0 or in [1e-2, pi), logSE3 returns the velocity, linear part first, expressed in the moving frame, of the constant screw motion that reaches the transform in unit time. Along every differentiable curve of transforms, at angles equal to 0 or between 1e-6 and pi and different from 1e-2, where the formulas change, the derivative of the six coordinates is JlogSE3 times the velocity of the body in its own frame.", "quantifier": "every curve of rigid-body transforms", "why_tests_cant": "tests compare with finite differences at sampled transforms", "anchors": ["include/hpp/constraints/tools.hh:164-230 (logSE3, JlogSE3)"]}
{"id": "C72", "title": "Relative position of the center of mass", "statement": "RelativeCom, created with a joint and a mask of three flags, computes the coordinates selected by the mask of the position of the center of mass in the frame of the joint minus the reference. Its Jacobian has one row per selected coordinate, is the derivative of the value along every differentiable motion of the robot, and is zero in the columns of the extra degrees of freedom. Three cases are not handled: a null joint, which print() displays as the world, is dereferenced; a mask of less than three flags is read out of bounds; with more than three flags the output has rows that are never written.", "quantifier": "every motion of the robot, every joint, reference and mask", "why_tests_cant": "tests compare with finite differences at sampled configurations for the mask with three true flags", "anchors": ["src/relative-com.cc:48-101 (constructor)", "src/relative-com.cc:121-190 (impl_compute, impl_jacobian)"]}
{"id": "C73", "title": "Weighted distance to a goal configuration", "statement": "ConfigurationConstraint returns half the weighted squared norm of the difference to the goal: with non-negative weights it is zero exactly where every coordinate of the difference with a non-zero weight is zero, positive elsewhere. Its Jacobian is the derivative of the value where the derivative of the difference only mixes velocity coordinates of equal weight, in particular on vector spaces for any weights; for a rotation and a mask that selects one of the three coordinates it is wrong (the weights multiply the wrong side of the derivative of the difference). Weights of the wrong size are rejected; the flags of the configuration and velocity variables of a joint are cleared exactly if all its weights are zero; the value does not depend on the variables with a cleared flag and their columns in the Jacobian are zero. In a mask the missing flags count as true; a false flag beyond the number of degrees of freedom is written out of bounds.", "quantifier": "every robot, goal, weights, mask and motion", "why_tests_cant": "the defect for rotations appears only with weights that differ inside one joint; sampled tests use uniform weights", "anchors": ["src/configuration-constraint.cc:43-127 (constructor, weights, impl_compute, impl_jacobian)"]}
{"id": "C74", "title": "Contact of convex shapes: value, Jacobian, contact points", "statement": "Floors that are convex polygons and objects that are convex polygons, segments or points are accepted. The contact function takes a pair of floor and object closest in space and returns, in the frame of the floor turned over (first axis opposite to the normal, last axis along the first side, origin at the mean of the vertices): the coordinate of the object along the first axis plus the margin; the two others, or zeros if the object projects strictly inside the floor; two coordinates of the logarithm of the relative rotation, or zeros for a point. The complement returns the coordinates left out, with an offset that encodes the pair, and the hold function both. The value is zero exactly when the object is above the inside of the closest floor at the height of the margin and, for a polygon, the normals are opposite. Where one pair is strictly closest, the projection is not on a side, one joint is not null and the angle is zero or between 1e-6 and pi, the Jacobians of the three functions are the derivatives of their values, whatever the temporary matrices contain. computeContactPoints returns exactly the pairs where the projection of the object is in the floor and the floor is less than the margin above the object. This is not contact: an object at any height above the floor is reported for any margin. Further defects: the columns of extra degrees of freedom are uninitialised; a segment has a value but its Jacobian throws; with two null joints the value is defined and the Jacobian dereferences a null pointer; a floor of one or two points is accepted but every evaluation reads out of bounds.", "quantifier": "every list of floors and objects, configuration, motion, margin and content of the temporary matrix", "why_tests_cant": "a test compares values and finite differences at sampled configurations of one scene; the switch between pairs, objects far above a floor, null joints, segments and uninitialised columns are not sampled", "anchors": ["src/convex-shape-contact.cc:58-68 (constructor)", "src/convex-shape-contact.cc:88-111 (addObject, addFloor)", "src/convex-shape-contact.cc:131-166 (computeContactPoints)", "src/convex-shape-contact.cc:168-340 (values, Jacobians, selection, type)", "src/convex-shape-contact.cc:405-437 (complement)", "src/convex-shape-contact.cc:492-507 (hold)", "include/hpp/constraints/convex-shape.hh:87-388"]}
{"id": "C75", "title": "Right hand sides that vary with time", "statement": "A right hand side function is accepted exactly when it takes one real variable, has values in the output space of the constraint and every row is of type Equality; otherwise the constraint is unchanged. rightHandSideAt(t) on a solver gives to each constraint that has a function and at least one row of type Equality the value of its function at t (for a constraint treated explicitly, without its components along other rows), and changes neither the other right hand sides nor anything else, whatever the times used before; a solver extracted on an interval has at time t the right hand sides of the original one at the corresponding time. This needs, for the solver by substitution, that no two constraints have the same function: otherwise the value may be given to another constraint. Changing comparison types after the function is set is not checked and gives right hand sides that the check refuses; without a function, rightHandSideAt of a constraint returns the last value evaluated, which need not be a right hand side.", "quantifier": "all constraints and sequences of calls on them, all solvers reached through the interface, all families of right hand side functions, all times and intervals", "why_tests_cant": "The test sets one affine function on one constraint at two times; independence between constraints of several levels and kinds, and from previous times, quantifies over all solvers and functions.", "anchors": ["src/implicit.cc:54-93", "src/implicit.cc:104-108", "src/solver/hierarchical-iterative.cc:589-598", "src/solver/by-substitution.cc:331-338", "include/hpp/constraints/implicit.hh:192-204"]}
{"id": "C76", "title": "Saving and loading functions and constraints", "statement": "Affine, constant, identity, relative center of mass and explicit relative transformation functions, and the implicit form of an explicit constraint, come back from an archive with the same members, value and Jacobian, and what follows them in the archive is intact. A transformation function comes back with the same joints, frames, mask and Jacobian but without the rows selected by its mask: evaluating it is undefined as soon as it has one row. A constraint comes back with the same comparison types, rows, function, right hand side and right hand side function, but computing its right hand side from a configuration or from the right hand side function is undefined. Box constraints come back with their bounds but saturation reads out of bounds.", "quantifier": "every function, mask, constraint obtained through the interface, bounds and following content of the archive", "why_tests_cant": "Infinitely many objects; the existing test of serialization compares printed descriptions, which do not show the lost members.", "anchors": ["src/differentiable-function.cc: serialize", "src/affine-function.cc: serialize", "src/relative-com.cc: serialize", "src/generic-transformation.cc: serialize", "src/explicit/relative-transformation.cc: serialize", "src/explicit/implicit-function.cc: serialize", "src/implicit.cc: serialize", "src/solver/hierarchical-iterative.cc: serialize (saturation::Bounds)"]}
{"id": "C77", "title": "Jacobian of the implicit form of an explicit constraint", "statement": "The Jacobian of the implicit form of an explicit constraint is the derivative of its value along any motion of the robot: everywhere if the output space is a vector space; unless the relative rotation is a half turn for SO(2) and R^2 x SO(2); for SE(3) if the angle of the relative rotation is 0, or lies in (1e-6, pi) and is not 1e-2; for R^3 x SO(3) if that angle is 0 or lies in (1e-6, pi). The columns of the inputs go through the Jacobian of the explicit function, and all other columns are zero. For an output in SO(3) alone or in SE(2) the Jacobian is the derivative at configurations where the constraint holds, but not elsewhere: with a relative rotation of a quarter turn it differs from the derivative.", "quantifier": "every explicit function and Jacobian, every set of input and output variables without overlap, every differentiable motion", "why_tests_cant": "Angles and poses are continuous, and finite differences only sample them; the tests of the library compare with finite differences for relative pose only.", "anchors": ["src/explicit/implicit-function.cc: JacobianVisitor, impl_compute, impl_jacobian", "include/hpp/constraints/tools.hh: JlogSO3, JlogSE3"]}
{"id": "C78", "title": "Functions given by an expression, frame of a joint", "statement": "A function given by an expression writes the rows selected by its mask, in order, whatever was evaluated before, and its Jacobian has the corresponding rows with zeros for the extra degrees of freedom; nothing else is written. For the frame of a joint (position, then logarithm of the rotation) the Jacobian is the derivative of the value along any motion where the angle is 0 or lies in (1e-6, pi); for a function used as expression it is the derivative if the Jacobian of that function is. Two failures: the output keeps the size of the expression, so with a partial mask the last rows of the value are whatever the caller passed; and with a function valued in poses the Jacobian reads out of bounds. Used directly, after invalidate the two expressions return the value and the Jacobian of the current configuration whatever was computed before and in any order, and keep them until the next invalidate.", "quantifier": "every mask, expression, motion of the robot, content of the objects and of the matrices passed", "why_tests_cant": "Objects keep caches and uninitialised members between calls, and rotations are continuous; the tests of the library never use a partial mask.", "anchors": ["include/hpp/constraints/symbolic-function.hh: SymbolicFunction", "include/hpp/constraints/symbolic-calculus.hh: JointFrame, FunctionExp, CalculusBase"]}
{"id": "C79", "title": "Manipulability", "statement": "The value of the manipulability function is max (0, -log10 of the product of the singular values of the active columns, each raised to at least 2^-1022): it is never negative nor more than 308 per singular value. If the function has at most as many rows as active velocity variables and singular values of at least 2^-1022, 10 to the power -2 value is min (1, det (J J^T)); if det (J J^T) = 0 and no singular value exceeds 1, the value is at least 307. With more rows than active variables the value can be 0 although J J^T is singular. The Jacobian is the central finite difference with relative step 1e-8, and 0 for inactive variables.", "quantifier": "every Jacobian, set of active columns and singular value decomposition", "why_tests_cant": "Matrices are continuous; there is no test of this function in the library.", "anchors": ["src/manipulability.cc: Manipulability, impl_compute, impl_jacobian"]}
{"id": "C80", "title": "Results of all levels in one vector, satisfaction with errors", "statement": "getValue fills a vector with the values of all constraints level by level; the vector must have exactly the sum of the sizes of these values (not dimension() when an output space is not a vector space). residualError writes the errors of all constraints, also those of an optional level, at the head of the vector and leaves the rest; too short a vector is an error. dimension() counts the rows of all constraints, masked ones included. getReducedJacobian stacks the reduced Jacobians and needs reducedDimension() rows and their columns. isSatisfied(arg, error) gives the same answer as isSatisfied(arg) and fills error with the errors of the numerical, then of the explicit constraints; error must have dimension() plus the rows of the implicit formulations of the explicit constraints, which can differ from errorSize(). isSatisfied(arg, t) compares every counted error with t^2, except t = -1 for which the explicit constraints are compared with their own threshold. activeParameters is the union over all constraints, and undefined with an empty level.", "quantifier": "every solver reachable by adding constraints, configuration, right hand side, threshold and vector passed", "why_tests_cant": "The tests of the library pass vectors of the right size and constraints valued in vector spaces.", "anchors": ["src/solver/hierarchical-iterative.cc:338-349, 369-376, 674-692, 721-728", "include/hpp/constraints/solver/by-substitution.hh:199-238", "include/hpp/constraints/solver/hierarchical-iterative.hh:338-352", "src/explicit-constraint-set.cc:67-96, 205"]}
{"id": "C81", "title": "Integration of a step and projection of a configuration", "statement": "integrate adds the velocity, brings every variable within its bounds, reports in the flags and the returned boolean which bounds were reached; the solver by substitution then solves the explicit constraints. Its result satisfies them and the variables that are not outputs are within the bounds; outputs may leave the bounds, and the report is about the configuration before they were solved: nothing may be reported though an output is out of bounds, and a bound may be reported though the result is strictly inside. projectOnKernel(from, to) is, in a vector configuration space, the configuration closest to `to` that satisfies the constraints linearised at `from` with the other variables as in `from`, then brought within the bounds; `to` itself if it satisfies both. Without constraint it is `to` even out of bounds. With an active bound the linearised constraints can be left, and explicit constraints are not solved: an output keeps its value at `from`.", "quantifier": "every set of explicit constraints, right hand side, bounds, configuration and velocity; every Jacobian and singular value decomposition", "why_tests_cant": "Bounds, explicit constraints and kernels interact; the tests of the library use configurations far from the bounds.", "anchors": ["src/solver/hierarchical-iterative.cc:712-719", "include/hpp/constraints/solver/by-substitution.hh:281-286", "src/solver/by-substitution.cc:283-303"]}
{"id": "C82", "title": "Affine constraints are solved", "statement": "Constraints of type Equality whose functions are affine, in a vector space without bounds, all variables free, solveLevelByLevel not set. If the levels that are required have a common solution, HierarchicalIterative::solve returns SUCCESS within maxIterations: every step multiplies all their errors by 1 - a, a the factor of the line search, so they all shrink by the same ratio and no iterate is reported as an increase; maxIterations must be large enough for (1 - m)^(2 maxIterations) times the initial residual to be below the threshold, m the least factor, and the equations may stretch squared lengths by at most threshold / 10^-12 (dqMinSquaredNorm). m is 1 for Constant, .2 for FixedSequence and Backtracking, alphaMin for ErrorNormBased. Backtracking makes full steps for at most 500 constraints, not for more: it compares the decrease of the largest squared error with a bound proportional to their sum, and from 880 equal errors on it always falls back on the factor .2, though the full step is exact. With full steps exactly one iteration is made and the result satisfies the equations exactly; without optional level it is the solution closest to the initial configuration. If after a full step the residual is above the threshold the status is INFEASIBLE and the result is the least squares solution of the levels in order of priority, or the initial configuration if the step is too small. BySubstitution::solve with affine explicit constraints: SUCCESS under the same conditions with a quarter of the threshold, explicit constraints satisfied. False without the condition on the scale: 1000 x = 1 / 2000 from 0 with threshold 10^-4 gives INFEASIBLE without any iteration, though the first step is exact.", "quantifier": "every ordered field for the resolution, real numbers for the line searches; every number of levels, matrix, right hand side, initial configuration, threshold, singular value decomposition, line search with factor in [m, 1]", "why_tests_cant": "Tests solve a few systems to within a tolerance from random configurations; they do not show that the solver cannot fail on solvable equations nor that the result is the closest solution.", "anchors": ["include/hpp/constraints/solver/impl/hierarchical-iterative.hh:39-181", "src/solver/hierarchical-iterative.cc:692-719,744-823", "include/hpp/constraints/solver/impl/by-substitution.hh:38-168"]}
{"id": "C83", "title": "Regular constraints are solved from a nearby configuration", "statement": "Constraints of type Equality, in a vector space without bounds, all variables free, solveLevelByLevel not set, no optional level, the first level having rows. Let s0 be at least the square root of the residual at the initial configuration. Assume that in a ball of radius r around this configuration the linearised equations have solutions at most B times as large as any right hand side, the errors of linearisation are at most K times the squared length of the move and the linearised equations stretch squared lengths by at most L. If K B^2 s0 < 1 and 2 B s0 <= r g with g = m (1 - (K B^2 s0)^2), m the least factor of the line search, HierarchicalIterative::solve returns SUCCESS within maxIterations, provided that (1 - g)^maxIterations times the initial residual is below the threshold and L dqMinSquaredNorm too; the existence of a solution is not assumed. Every iterate stays in the ball and every step multiplies the residual by at most 1 - g; with full steps the residual after a step is at most (K B^2)^2 times its square before. The same holds for BySubstitution::solve with an explicit constraint y = g(x), the conditions being on the equations after substitution, with a quarter of the threshold; the result satisfies the explicit constraint. m is 1 for Constant, .2 for FixedSequence and Backtracking, alphaMin for ErrorNormBased. False without the conditions on the initial configuration: x^3 = 5 x from 1 with full steps returns ERROR_INCREASED at the initial configuration after four iterations, though 0 is a solution.", "quantifier": "every ordered field for the resolution, real numbers for the line searches; every number of levels, error function, Jacobian, initial configuration, threshold, singular value decomposition, line search with factor in [m, 1]", "why_tests_cant": "Tests project random configurations and count failures; they do not give conditions under which the projection cannot fail.", "anchors": ["include/hpp/constraints/solver/impl/hierarchical-iterative.hh:39-181", "src/solver/hierarchical-iterative.cc:692-719,744-823", "include/hpp/constraints/solver/impl/by-substitution.hh:38-168"]}
{"id": "C84", "title": "oneStep is an iteration of solve, when the norm is known and no bound is reached", "statement": "When BySubstitution::oneStep returns, the configuration is a result of explicit_.solve and the boolean is the value of isSatisfied at this configuration, explicit constraints included, if explicit_.isSatisfied holds for the results of explicit_.solve; the norm kept in the solver is the one at this configuration. Calls of oneStep in a row, starting by isSatisfied at a result of explicit_.solve, go through the same configurations as solve without optimisation, up to where solve stops, for every line search, as long as computeSaturation changes no Jacobian. With a line search that does not read the norm kept in the solver (Constant, FixedSequence) the call of isSatisfied is not needed. False otherwise: oneStep does not call computeSaturation, and for x + y = 2 with x <= 0 it moves from (0, 0) to (0, 1) where solve succeeds in one iteration at (0, 2); it does not call computeError, and for x = 0 from 1 Backtracking in a new solver rejects the step that solves the equation; with ErrorNormBased two different norms always give two different configurations.", "quantifier": "every configuration space, linear algebra, explicit constraints, line search and its state, number of calls; real numbers for the counterexamples", "why_tests_cant": "A test of one call cannot tell that the result depends on what was called before.", "anchors": ["include/hpp/constraints/solver/by-substitution.hh:211-214,250-258", "include/hpp/constraints/solver/impl/by-substitution.hh:85-152", "include/hpp/constraints/solver/impl/hierarchical-iterative.hh:39-121"]}
{"id": "C85", "title": "Inequality constraints: bounds are solved in one step, agreeing constraints get closer, others may cycle", "statement": "For affine constraints with rows x = 0, x >= thr or x <= -thr (Equality, Superior, Inferior), the step of HierarchicalIterative::solve at q meets the equalities and the violated inequalities as equations. If they can be met together by pushing along each of them in the direction it asks for, a step multiplied by a in [0, 2] decreases the squared distance to every feasible point by at least a(2-a) times the squared length of the step, and a full step that reaches a feasible point reaches the one closest to q. If this holds at every configuration visited above the threshold, factors of the line search being in [m, 1], solve returns neither MAX_ITERATION_REACHED nor INFEASIBLE when maxIterations is at least L d^2 / (m * squared error threshold), d being the distance to a feasible point and L the largest stretch: it succeeds or returns ERROR_INCREASED, each step coming closer to all feasible points. Lower and upper bounds of orthogonal directions that have a common point always satisfy the condition, and one full step reaches the closest feasible point, with SUCCESS. False for other inequalities, unlike equalities (C82): 63x - 16y >= 300, -4x + 3y >= 0, 84x + 12y >= 300 are strictly satisfied at (12, 17), but from (0, 0) with full steps solve goes to (4, -3), back to (0, 0) and so on, and returns MAX_ITERATION_REACHED for every maximal number of iterations.", "quantifier": "every dimension, list of levels (one level for the bounds), comparison types, feasible point, state of the solver, line search with factors in [m, 1] (full step for the bounds and the counterexample), number of iterations; every realFieldType, reals for the counterexample", "why_tests_cant": "A test runs one problem for one number of iterations and does not tell a cycle from slow convergence.", "anchors": ["src/solver/hierarchical-iterative.cc:54-81,616-646,692-719,744-823", "include/hpp/constraints/solver/impl/hierarchical-iterative.hh:104-181"]}
{"id": "C86", "title": "Optimisation of the last level: exact with full steps or from a solution, never solves from elsewhere with the default line search", "statement": "BySubstitution::solve with optimize = true and an optional last level. For affine explicit, required and optional constraints, the required ones being feasible: with full steps, at least two iterations and a first step not shorter than the minimum, from any start the configuration returned is the solution of the required constraints of least cost (squared error of the optional level) and, among these, the closest to the start, unless the start satisfies the required constraints at a cost that is not greater, and the status is INFEASIBLE. From a start that satisfies the required constraints, with factors of the line search in [m, 1], the configuration returned satisfies them, its cost is at most the initial one and exceeds the least one by at most (1-m)^(2 maxIterations) times the initial excess (MAX_ITERATION_REACHED) or L times the minimal squared step (INFEASIBLE); m = 0.2 for the default line search. For any constraints and a start above the threshold, the direction is computed once and the configuration stays on the line x + t d, 0 <= t < 2M, M being the largest factor of the first line search, as long as that segment has no satisfying configuration. Hence false from a start that does not satisfy the constraints: with the default line search (FixedSequence, first factor 0.2) no system of affine constraints is solved from a start of squared error above 25/36 of the threshold, whatever maxIterations; more than 3/5 of each error remains. With full steps, x^2 = 2 is not solved from 3/2 if the last level is optimised, though it is without optimisation (C83).", "quantifier": "every dimension, affine system, list of required levels, optional level, state of the solver, line search, start, number of iterations; every realFieldType (reals for the default line search and the counterexample)", "why_tests_cant": "Tests of optimisation start from one configuration and look at one cost; they show neither the distance to the optimum nor that more iterations do not help.", "anchors": ["include/hpp/constraints/solver/impl/by-substitution.hh:38-168", "include/hpp/constraints/solver/impl/hierarchical-iterative.hh:39-101", "src/solver/hierarchical-iterative.cc:692-719,744-823"]}
{"id": "C87", "title": "A solution where the constraints are smooth and independent attracts the solvers", "statement": "Constraints of type Equality, in a vector space without bounds, all variables free, solveLevelByLevel not set, no optional level, every row in a constraint, the first level having rows. Let q* satisfy all the constraints, the Jacobians being the derivatives of the errors and Lipschitz in a ball around q*, and let the rows of the Jacobians of all levels at q* be linearly independent. Then there is a neighbourhood of q* and a constant D such that for every threshold there are a bound of dqMinSquaredNorm and a number of iterations for which HierarchicalIterative::solve returns SUCCESS from every configuration of the neighbourhood, for every singular value decomposition and every line search with factors in [m, 1]; the configuration returned is at distance at most sqrt(D) |q0 - q*| of the initial one q0. The same holds for BySubstitution::solve with an explicit constraint y = g(x), the conditions being on the equations after substitution; the result satisfies the explicit constraint.", "quantifier": "every dimension, number of levels, system of smooth constraints, solution, threshold, state of the solver, line search; real numbers", "why_tests_cant": "A test starts from finitely many configurations; existence of a neighbourhood that works for all thresholds, line searches and decompositions is not observable.", "anchors": ["include/hpp/constraints/solver/impl/hierarchical-iterative.hh:39-181", "src/solver/hierarchical-iterative.cc:692-719,744-823", "include/hpp/constraints/solver/impl/by-substitution.hh:38-168"]}
{"id": "C88", "title": "Resolution under bounds on the variables", "statement": "HierarchicalIterative::solve with bounds lower <= upper on the variables, in a vector space, all variables free. Whatever the constraints and levels, with each of the four line searches, either no iteration is made and the starting point is returned, or the result and every configuration visited after the starting point are within the bounds; a starting point out of bounds that meets the constraints is returned with SUCCESS. One equation a q = b, lower < upper, constant line search, 0 < dqMinSquaredNorm with dqMinSquaredNorm |a|^2 at most the threshold, more than n iterations allowed, n the number of variables: from within the bounds the call ends after at most n iterations, with SUCCESS if and only if some configuration within the bounds has a squared error at most the threshold, and otherwise with INFEASIBLE at a configuration of least error among all those within the bounds. This does not extend to several equations (three equations in four variables with a solution within the bounds, between two configurations for ever), nor to a variable with equal bounds (10 x + y = 1 with x = 0 takes hundreds of iterations: a variable at both bounds is withdrawn in one direction only), and the order of priorities is not kept at bounds (a step that meets the first level alone does not when a second level moves the variable withdrawn from the first).", "quantifier": "every dimension, bounds, level, line search and descent direction for the first part; every dimension, equation, bounds, starting point and singular value decomposition for one equation; real numbers", "why_tests_cant": "Tests run finitely many problems; termination in n steps, optimality over a box and the absence of a path out of bounds are statements on all of them, and a cycle needs a particular start.", "anchors": ["src/solver/hierarchical-iterative.cc:121-144,653-672,711-719,744-823", "include/hpp/constraints/solver/impl/hierarchical-iterative.hh:39-181"]}
{"id": "C89", "title": "Resolution by substitution under bounds", "statement": "BySubstitution::solve with bounds lower <= upper on the variables, in a vector space, variables split into free ones x and ones y computed by explicit constraints, y = g x. Whatever the levels, with or without optimisation, with each of the four line searches, in the configuration returned and in all those visited x is the starting x or within its bounds, and y = g x; no exception taken. The bounds of y are not enforced: there are affine constraints, a start within all bounds and a solution within all bounds such that SUCCESS is returned with y out of its bounds. One equation u x + v y = w with y = G x + h, lower < upper for x, constant line search, dqMinSquaredNorm |u + v G|^2 at most a quarter of the threshold, more than n iterations allowed, n the number of free variables: from x within its bounds the call ends with x within its bounds, with SUCCESS if and only if the start is below the threshold or some x within bounds has a squared error at most a quarter of it, and otherwise with INFEASIBLE at an x of least error among all those within bounds; from a start not below the threshold in at most n iterations. On SUCCESS the error returned is below the threshold.", "quantifier": "every dimension, bounds, level, partial explicit function, line search and descent direction for the first part; every dimension, affine explicit constraint, equation, bounds, start and singular value decomposition for one equation; real numbers", "why_tests_cant": "Tests run finitely many problems; least error over a box and staying within bounds are statements on all starts, and bounds ignored on computed variables show only where the computed value leaves them.", "anchors": ["include/hpp/constraints/solver/impl/by-substitution.hh:38-168", "include/hpp/constraints/solver/by-substitution.hh:281-286", "src/solver/hierarchical-iterative.cc:121-144,653-672,711-719,744-823", "include/hpp/constraints/solver/impl/hierarchical-iterative.hh:39-121"]}
{"id": "C90", "title": "Per-constraint satisfaction, solver by substitution", "statement": "BySubstitution::isConstraintSatisfied on a numerical constraint gives its masked error and compares it with the threshold of the solver; on an explicit constraint whose function is that of no numerical constraint and no earlier explicit one it gives the error of the implicit formulation for its right hand side in the explicit set and compares it with the threshold of that set; on a constraint whose function is that of none it reports not found, not satisfied, and leaves the error vector. Without inequalities among the numerical constraints and if no explicit constraint shares its function with another one, all constraints of the counted levels and all explicit constraints being satisfied is equivalent to the solver being satisfied. With a shared function this fails: an explicit constraint and an implicit constraint with the same function are both reported satisfied with null errors while the solver is not satisfied, the explicit one being looked for among the numerical ones first.", "quantifier": "every solver reachable by adding constraints and setting right hand sides, every configuration, threshold and error vector", "why_tests_cant": "Equivalence of two tests over all solvers and configurations; the wrong answer needs two constraints with an equal function treated in two ways, which no test builds.", "anchors": ["src/solver/by-substitution.cc:373-382", "src/solver/hierarchical-iterative.cc:529-562", "src/explicit-constraint-set.cc:98-119"]}
{"id": "C91", "title": "Vectors of comparison types", "statement": "An expression a << b << ... of comparison types and repetitions n * c, 0 <= n, evaluates to the operands one after the other, in order. No variable is modified unless the first operand is a vector variable that is not const: then this variable is the result, extended by the operands (so w = v << c changes v). A negative number of repetitions anywhere raises an exception. v == n * c holds exactly when v is n times c.", "quantifier": "every expression, number of repetitions and contents of variables", "why_tests_cant": "Tests evaluate a few expressions; the overload taken, and so what is modified, depends on the value category of the left operand.", "anchors": ["include/hpp/constraints/comparison-types.hh:42-131,150-156"]}
{"id": "C92", "title": "Center of mass between the feet", "statement": "ComBetweenFeet writes, for a mask of four flags and whatever was evaluated before, the rows selected among: height of the center of mass minus that of the reference point; coordinate along the last axis of the reference joint of the vector product of the center of mass relative to the middle of the feet and of the vector between the feet; scalar products of the center of mass relative to each foot with that vector. If the feet are distinct and at the same height along that axis, the second row is zero, the third non-negative and the last non-positive exactly when the center of mass is on a line along the axis through the segment between the feet. The columns of the Jacobian for the degrees of freedom of the joints are the derivatives of the value along every motion. Failures: with feet at different heights a center of mass above the segment gets rows of the wrong sign; the reference point is not attached to the reference joint, contrary to the documentation; the columns of extra degrees of freedom are not written; a mask of less than four flags is read out of bounds, and with more than four flags rows are not written.", "quantifier": "every pair of feet, reference joint, mask, motion of the robot and previous use of the expressions", "why_tests_cant": "The equivalence ranges over all positions of the feet and of the center of mass, the derivatives over all motions; unwritten entries only show if the memory is not zero.", "anchors": ["src/com-between-feet.cc:40-46", "src/com-between-feet.cc:73-159", "include/hpp/constraints/com-between-feet.hh:43-66"]}
{"id": "C93", "title": "Static equilibrium of a robot in contact", "statement": "The matrix phi of StaticStability and QPStaticStability, computed in a configuration whatever was evaluated before, has one column by contact point (in the order of the contacts, or of the points of the force data): the normal in the world frame and its moment about the center of mass, with opposite sign; its Jacobian is the derivative of these columns. Forces along the normals solve the equation of the code if and only if they and a unit weight at the center of mass are in equilibrium: sum of forces zero and sum of moments zero about any point. When all normals are vertical and point upward, nonnegative forces balance gravity if and only if the vertical projection of the center of mass is in the convex hull of those of the contact points, and the value of QPStaticStability is zero exactly then; when no normal points upward its value is at least 1. For three such contacts that are not aligned there is always exactly one equilibrium, with nonnegative forces if and only if the center of mass is above the triangle, so the last six rows of StaticStability may be zero though the contacts cannot hold the robot. Without contact the evaluation reads an element of an empty vector.", "quantifier": "every list of contacts or force data, configuration, history of evaluations, point about which moments are taken; vertical normals for the convex hull", "why_tests_cant": "the equivalence with mechanical equilibrium is over all contact sets, forces and reference points; caches depend on the history of calls", "anchors": ["src/static-stability.cc:46-110", "src/qp-static-stability.cc:40-168", "include/hpp/constraints/symbolic-calculus.hh:915-960,1051-1058", "include/hpp/constraints/static-stability.hh:49-60", "include/hpp/constraints/convex-shape-contact.hh:117-122"]}
{"id": "C94", "title": "Pairs of joints reported as constrained", "statement": "dependsOnRelPoseBetween of a transformation function returns its two joints, smallest index first, and the value of the function only depends on the pose of one of these joints seen from the other. The same holds for the contact of convex shapes, for its complement and for both together, which return a pair only if all floors are on one joint and all objects on one joint. doesConstrainRelPoseBetween of an Implicit returns the pair of its function exactly when the output has dimension six and all rows are active; for a transformation the active rows then determine the relative pose of the two joints, provided relative rotations are of less than a half turn (vector output) or quaternions of different rotations differ (SO(3) output). It fails for half turns (two poses with the same value), and for six Superior or Inferior rows, since comparison types are not examined. An explicit function returns a pair only if it is constant with a single output segment, of the size of the joint in which the segment starts: the joint and its parent. The output then fixes their relative pose if the segment is that of the joint; a segment across two joints is taken for the first one. A LockedJoint on a whole joint returns the parent and the joint, and its variables fix their relative pose. Partially locked joints and extra variables return no pair, unless a joint of the robot has the name made up for them: then a partially locked joint is reported as fixing the relative pose, and for extra variables a null joint is dereferenced.", "quantifier": "All setter sequences, masks, frames, joints, shapes, reachable constraints, robots, forward kinematics, pairs of configurations", "why_tests_cant": "The pairs are used to disable collision checking between joints that cannot move with respect to each other: a wrong pair hides collisions, and tests check the pair for a few constraints, never that the relative pose is fixed in all solutions.", "anchors": ["include/hpp/constraints/generic-transformation.hh:310-321", "include/hpp/constraints/explicit/relative-transformation.hh:91-103", "include/hpp/constraints/convex-shape-contact.hh:167-201", "src/explicit/implicit-function.cc:298-327", "src/implicit.cc:231-244", "src/locked-joint.cc:213-229"]}
{"id": "C95", "title": "Bounds of the step along the kernel of the contact matrix", "statement": "StaticStability::findBoundIndex(u, v) only fails on empty vectors. lambdaMin makes u + lambdaMin v non negative in all entries where v exceeds the precision, no smaller non negative step does, it is non negative as soon as another entry exists, and iMin is the index of an entry that it brings to zero (or lambdaMin is 0). lambdaMax has the same property for the entries where v is below minus the precision, among non positive steps only: since the other entries count as 0 in the minimum, it is not the upper bound of the admissible steps, and may be lower than lambdaMin although u + lambda v > 0 for some lambda. computeLambdaDot is the derivative of - u(i0) / v(i0), 0 if v(i0) is below the precision. Both functions are private and their calls are commented out.", "quantifier": "All vectors of forces and directions, all precisions, all differentiable entries", "why_tests_cant": "The functions are not called, so no test reaches them; the bounds are extrema over all entries.", "anchors": ["src/static-stability.cc:164-174", "src/static-stability.cc:216-227"]}
