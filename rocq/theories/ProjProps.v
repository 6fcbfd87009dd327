(** C81, second part: projection of a configuration on the kernel of the Jacobian. *)
From mathcomp Require Import all_ssreflect all_algebra.
From Verif Require Import SatModel IntSpec DescentModel DescentSpec DescentExamples ProjModel ProjSpec ProjProofs ProjExamples.
Set Implicit Arguments. Unset Strict Implicit. Unset Printing Implicit Defensive.
Open Scope ring_scope.

(** The result is p brought within the bounds, where p is the configuration closest to
    [to] among those satisfying the constraints linearised at [from]; a configuration
    [to] satisfying them and the bounds is its own projection. *)
Theorem C81_project : forall (R : realFieldType) n N m (J : 'M[R]_(m, n)) (D : svd J) (free : 'I_n -> 'I_N), injective free ->
  forall lb ub from to : 'cV[R]_N,
  let r := project_on_kernel lb ub false false free D from to in
  (exists p, on_linear J free from p /\ (forall q, on_linear J free from q -> norm2 (to - p) <= norm2 (to - q)) /\
     (forall i, brought (fun x y : R => x <= y) (lb i 0) (ub i 0) (p i 0) (r i 0))) /\
  ((forall i, lb i 0 <= ub i 0) -> forall i, lb i 0 <= r i 0 <= ub i 0) /\
  ((forall i, lb i 0 <= to i 0 <= ub i 0) -> on_linear J free from to -> r = to).
Proof. exact kernel_spec. Qed.
Print Assumptions C81_project.

(** No constraint: [to], not brought within the bounds.  Constraints but no row: [to]
    brought within the bounds. *)
Theorem C81_project_none : forall (R : realFieldType) n N m (J : 'M[R]_(m, n)) (D : svd J) (free : 'I_n -> 'I_N)
  (lb ub from to : 'cV[R]_N) none,
  project_on_kernel lb ub true none free D from to = to /\
  forall i, brought (fun x y : R => x <= y) (lb i 0) (ub i 0) (to i 0) (project_on_kernel lb ub false true free D from to i 0).
Proof. exact kernel_none. Qed.
Print Assumptions C81_project_none.

(** With an active bound the result need not satisfy the linearised constraints. *)
Theorem C81_project_bound_refuted : forall R : realFieldType, exists (J : 'rV[R]_2) (D : svd J) (lb ub from to : 'cV[R]_2),
  (forall i, lb i 0 < from i 0 < ub i 0) /\ on_linear J id from to /\
  ~ on_linear J id from (project_on_kernel lb ub false false id D from to).
Proof. exact clamp_refuted. Qed.
Print Assumptions C81_project_bound_refuted.

(** Explicit constraints are not solved: variable 1, constrained to be equal to variable 0,
    keeps its value at [from]. *)
Theorem C81_project_explicit_refuted : forall R : realFieldType,
  exists (free : 'I_1 -> 'I_2) (D : svd (0 : 'M[R]_1)) (lb ub from to : 'cV[R]_2),
  injective free /\ (forall i, free i <> 1) /\ (forall i, lb i 0 < from i 0 < ub i 0 /\ lb i 0 < to i 0 < ub i 0) /\
  from 1 0 = from 0 0 /\ to 1 0 = to 0 0 /\
  (let r := project_on_kernel lb ub false false free D from to in r 1 0 <> r 0 0).
Proof. exact explicit_refuted. Qed.
Print Assumptions C81_project_explicit_refuted.

(** J = (3 4) / 5, from 0 towards (5, 0) *)
Theorem C81_project_case : forall R : realFieldType,
  project_on_kernel (pair_ (- 10%:R) (- 10%:R)) (pair_ 10%:R 10%:R) false false id (svd34 R) (pair_ 0 0) (pair_ 5%:R 0)
  = pair_ (16%:R / 5%:R) (- (12%:R / 5%:R)).
Proof. exact kernel_case. Qed.
Print Assumptions C81_project_case.
