(** Distance functions with their cache.
    Modelled from src/distance-between-points-in-bodies.cc:100-162 and
    src/distance-between-bodies.cc:111-166.  Forward kinematics (pinocchio) and the
    computation of nearest points (coal) are parameters.  The robot is shared with other
    code, its placements and Jacobians are a state of their own. *)
From Coq Require Import Reals List Bool.
From Verif Require Import Geo Rigid.
Import ListNotations.
Local Open Scope R_scope.

(** what the robot holds after computeForwardKinematics, for joint1_ and joint2_ *)
Record kin := mkkin { kM1 : se3; kM2 : se3; kJ1 : list twist; kJ2 : list twist }.

Section D.
Context {C : Type}.
Variables (ceq : C -> C -> bool) (fk : C -> kin).
(** value, point 1 and point 2 at a configuration, given the kinematics *)
Variable ev : C -> kin -> R * v3 * v3.
(** joint2_ not null *)
Variable second : bool.

(** latestArgument_ (None: the empty vector of a new object; a configuration is not empty),
    latestResult_, points kept in global1_, global2_ or data_.distanceResults *)
Record fobj := mkfobj { f_last : option C; f_res : R; f_p1 : v3; f_p2 : v3 }.
Definition sys := (fobj * kin)%type.

(** impl_compute: points 100-120, bodies 111-128 *)
Definition compute (st : sys) (q : C) : R * sys :=
  let '(o, k) := st in
  if match f_last o with Some q' => ceq q q' | None => false end then (f_res o, st)
  else let k' := fk q in
       let '(d, p1, p2) := ev q k' in (d, (mkfobj (Some q) d p1 p2, k')).

(** R.colwise().cross(u) *)
Definition colcross (m : m3) (u : v3) : m3 :=
  mtr (M3 (vcross (ra (mtr m)) u) (vcross (rb (mtr m)) u) (vcross (rc (mtr m)) u)).
(** one row: d^T R J.topRows(3) + d^T R.colwise().cross(P - t) J.bottomRows(3) *)
Definition row (d : v3) (M : se3) (P : v3) (J : list twist) : list R :=
  map (fun c => vdot d (mulv (rot M) (lin c)) + vdot d (mulv (colcross (rot M) (vsub P (tra M))) (ang c))) J.
(** impl_jacobian: points 122-162, bodies 130-166 *)
Definition jac_of (k : kin) (dist : R) (p1 p2 : v3) : list R :=
  let d := vsub p1 p2 in
  let r1 := row d (kM1 k) p1 (kJ1 k) in
  if second then map (fun x => (fst x - snd x) / dist) (combine r1 (row d (kM2 k) p2 (kJ2 k)))
  else map (fun x => x / dist) r1.
Definition jacobian (st : sys) (q : C) : list R * sys :=
  let '(dist, (o, k)) := compute st q in (jac_of k dist (f_p1 o) (f_p2 o), (o, k)).

(** Calls on one object, and other code using the robot. *)
Inductive op := Value (q : C) | Jacobian (q : C) | Other (k : kin).
Definition step (st : sys) (o : op) : sys :=
  match o with
  | Value q => snd (compute st q)
  | Jacobian q => snd (jacobian st q)
  | Other k => (fst st, k)
  end.
Definition run (st : sys) (l : list op) : sys := fold_left step l st.
(** a new object *)
Definition fresh (k : kin) : sys := (mkfobj None 0 v0 v0, k).
End D.
Arguments op : clear implicits. Arguments fobj : clear implicits. Arguments sys : clear implicits.

(** DistanceBetweenPointsInBodies: lines 110-116; without second joint global2_ is point2
    since construction (lines 82, 97) *)
Definition points_ev {C} (second : bool) (point1 point2 : v3) (q : C) (k : kin) : R * v3 * v3 :=
  let g1 := act (kM1 k) point1 in
  if second then let g2 := act (kM2 k) point2 in (norm (vsub g2 g1), g1, g2)
  else (norm g1, g1, point2).
(** DistanceBetweenBodies: lines 121-124, result of computeDistances *)
Definition bodies_ev {C} (nearest : C -> R * v3 * v3) (q : C) (k : kin) : R * v3 * v3 := nearest q.
