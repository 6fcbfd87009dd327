(** Vectors and matrices of dimension 3 with real coordinates, and derivatives
    of curves.  Mathematical vocabulary, no model of the code: [cross_matrix]
    excepted, they are Eigen operations on [vector3_t] and [matrix3_t]
    (/repo/include/hpp/constraints/fwd.hh:45-60). *)
From Coq Require Import Reals Ranalysis1.
Local Open Scope R_scope.

Record v3 := V3 { vx : R; vy : R; vz : R }.
Record m3 := M3 { ra : v3; rb : v3; rc : v3 }.

Definition v0 : v3 := V3 0 0 0.
Definition vadd (a b : v3) : v3 := V3 (vx a + vx b) (vy a + vy b) (vz a + vz b).
Definition vsub (a b : v3) : v3 := V3 (vx a - vx b) (vy a - vy b) (vz a - vz b).
Definition vopp (a : v3) : v3 := V3 (- vx a) (- vy a) (- vz a).
Definition vscale (s : R) (a : v3) : v3 := V3 (s * vx a) (s * vy a) (s * vz a).
Definition vdot (a b : v3) : R := vx a * vx b + vy a * vy b + vz a * vz b.
Definition vcross (a b : v3) : v3 :=
  V3 (vy a * vz b - vz a * vy b) (vz a * vx b - vx a * vz b) (vx a * vy b - vy a * vx b).

Definition mulv (m : m3) (v : v3) : v3 := V3 (vdot (ra m) v) (vdot (rb m) v) (vdot (rc m) v).
Definition mtr (m : m3) : m3 :=
  M3 (V3 (vx (ra m)) (vx (rb m)) (vx (rc m)))
     (V3 (vy (ra m)) (vy (rb m)) (vy (rc m)))
     (V3 (vz (ra m)) (vz (rb m)) (vz (rc m))).
Definition mul (a b : m3) : m3 :=
  mtr (M3 (mulv a (ra (mtr b))) (mulv a (rb (mtr b))) (mulv a (rc (mtr b)))).
Definition m1 : m3 := M3 (V3 1 0 0) (V3 0 1 0) (V3 0 0 1).
Definition m0 : m3 := M3 v0 v0 v0.
Definition madd (a b : m3) : m3 := M3 (vadd (ra a) (ra b)) (vadd (rb a) (rb b)) (vadd (rc a) (rc b)).
Definition msub (a b : m3) : m3 := M3 (vsub (ra a) (ra b)) (vsub (rb a) (rb b)) (vsub (rc a) (rc b)).
Definition mopp (a : m3) : m3 := M3 (vopp (ra a)) (vopp (rb a)) (vopp (rc a)).
Definition mscale (s : R) (a : m3) : m3 := M3 (vscale s (ra a)) (vscale s (rb a)) (vscale s (rc a)).
Definition det (m : m3) : R := vdot (ra m) (vcross (rb m) (rc m)).

(** [computeCrossMatrix], /repo/include/hpp/constraints/tools.hh:40-49. *)
Definition cross_matrix (v : v3) : m3 :=
  M3 (V3 0 (- vz v) (vy v)) (V3 (vz v) 0 (- vx v)) (V3 (- vy v) (vx v) 0).

(** Rotation matrices. *)
Definition rotation (m : m3) : Prop := mul m (mtr m) = m1 /\ det m = 1.

(** Derivative at [t] of a curve of scalars, vectors, matrices. *)
Definition deriv (f : R -> R) (t d : R) : Prop := derivable_pt_lim f t d.
Definition vderiv (f : R -> v3) (t : R) (d : v3) : Prop :=
  deriv (fun s => vx (f s)) t (vx d) /\ deriv (fun s => vy (f s)) t (vy d) /\
  deriv (fun s => vz (f s)) t (vz d).
Definition mderiv (f : R -> m3) (t : R) (d : m3) : Prop :=
  vderiv (fun s => ra (f s)) t (ra d) /\ vderiv (fun s => rb (f s)) t (rb d) /\
  vderiv (fun s => rc (f s)) t (rc d).
