(** Placements, velocities of rigid bodies and joint Jacobians.  Mathematical vocabulary,
    no model of the code.  pinocchio conventions: a Jacobian column is a velocity in the
    frame of the joint, linear part first. *)
From Coq Require Import Reals List.
From Verif Require Import Geo.
Import ListNotations.
Local Open Scope R_scope.

Record se3 := SE3 { rot : m3; tra : v3 }.
Definition act (M : se3) (p : v3) : v3 := vadd (mulv (rot M) p) (tra M).
Definition comp (A B : se3) : se3 := SE3 (mul (rot A) (rot B)) (act A (tra B)).
Definition sinv (A : se3) : se3 := SE3 (mtr (rot A)) (vopp (mulv (mtr (rot A)) (tra A))).
Definition sid : se3 := SE3 m1 v0.

Record twist := Tw { lin : v3; ang : v3 }.
Definition tadd (a b : twist) : twist := Tw (vadd (lin a) (lin b)) (vadd (ang a) (ang b)).
Definition tscale (s : R) (a : twist) : twist := Tw (vscale s (lin a)) (vscale s (ang a)).
Definition t0 : twist := Tw v0 v0.

(** A matrix with 6 rows, a matrix with 3 rows, a matrix with one row, by columns; product by a vector. *)
Fixpoint japp (J : list twist) (d : list R) : twist :=
  match J, d with c :: J', x :: d' => tadd (tscale x c) (japp J' d') | _, _ => t0 end.
Fixpoint vapp (J : list v3) (d : list R) : v3 :=
  match J, d with c :: J', x :: d' => vadd (vscale x c) (vapp J' d') | _, _ => v0 end.
Fixpoint rapp (J : list R) (d : list R) : R :=
  match J, d with c :: J', x :: d' => x * c + rapp J' d' | _, _ => 0 end.

(** At time [t] the body placed by [M] has velocity [T], expressed in its own frame. *)
Definition moves (M : R -> se3) (t : R) (T : twist) : Prop :=
  mderiv (fun s => rot (M s)) t (mul (rot (M t)) (cross_matrix (ang T))) /\
  vderiv (fun s => tra (M s)) t (mulv (rot (M t)) (lin T)).

Definition norm (v : v3) : R := sqrt (vdot v v).
