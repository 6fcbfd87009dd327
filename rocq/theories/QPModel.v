(** QPStaticStability.  Modelled from src/qp-static-stability.cc:49-236 and
    include/hpp/constraints/symbolic-calculus.hh:200-216, 932-964, 1013-1060 (evaluation of a
    matrix of expressions and products by its Jacobian).

    The matrix phi_ has six rows (normal, moment of the normal at the center of mass) and one
    column by contact: a list of [twist].  [phi q] and [dphi q] are the values and Jacobians of
    the expressions in configuration [q]; the Jacobian of one column has six rows and one column
    by degree of freedom.  qpOASES is the function [qp] of the Hessian and gradient, that returns
    the primal solution and the objective. *)
From Coq Require Import Reals List.
From Verif Require Import Geo Rigid.
Import ListNotations.
Local Open Scope R_scope.

Definition tdot (a b : twist) : R := vdot (lin a) (lin b) + vdot (ang a) (ang b).
(** lines 50-53 *)
Definition gravity : twist := Tw (V3 0 0 (-1)) v0.
Definition minus_gravity : twist := Tw (V3 0 0 1) v0.
Fixpoint dots (u v : list R) : R := match u, v with x :: u', y :: v' => x * y + dots u' v' | _, _ => 0 end.

Section QP.
Variable Q : Type.
Variables (phi : Q -> list twist) (dphi : Q -> list (list twist)).
Variable qp : list (list R) -> list R -> list R * R.
(** phi_.value(): kept from one call to the next *)
Record qps := QPS { pval : list twist }.
(** constructor, lines 70-72 *)
Definition qp_create (n : nat) : qps := QPS (repeat t0 n).

(** solveQP, lines 205-222 *)
Definition hessian (P : list twist) : list (list R) := map (fun a => map (fun b => tdot a b) P) P.
Definition gradient (P : list twist) : list R := map (fun a => tdot a gravity) P.
Definition solveQP (st : qps) : list R * R :=
  let '(primal, obj) := qp (hessian (pval st)) (gradient (pval st)) in
  (primal, 2 * obj + tdot minus_gravity minus_gravity).
(** impl_compute, lines 151-168: phi_.invalidate(), phi_.computeValue() *)
Definition qp_compute (st : qps) (q : Q) : qps * R :=
  let st := QPS (phi q) in (st, snd (solveQP st)).

(** jacobianTimes and jacobianTransposeTimes: lists of columns, [nv] of them *)
Fixpoint jtimes (dP : list (list twist)) (F : list R) (k : nat) : twist :=
  match dP, F with c :: dP', x :: F' => tadd (tscale x (nth k c t0)) (jtimes dP' F' k) | _, _ => t0 end.
Definition jttimes (dP : list (list twist)) (rhs : twist) (k : nat) : list R := map (fun c => tdot rhs (nth k c t0)) dP.
(** impl_jacobian, lines 170-203.  phi_.invalidate(), phi_.computeJacobian(): the value of phi_ is
    not computed, symbolic-calculus.hh:207-211, 949-964 *)
Definition qp_jacobian (st : qps) (nv : nat) (q : Q) : list R :=
  let primal := fst (solveQP st) in
  let PF := japp (pval st) primal in
  map (fun k => / 2 * dots primal (jttimes (dphi q) PF k) + tdot (tadd (tscale (/ 2) PF) gravity) (jtimes (dphi q) primal k)) (seq 0 nv).

Inductive qp_op := QValue (q : Q) | QJacobian (q : Q).
Definition qp_step (st : qps) (o : qp_op) : qps := match o with QValue q => fst (qp_compute st q) | QJacobian _ => st end.
Definition qp_run (n : nat) (l : list qp_op) : qps := fold_left qp_step l (qp_create n).
End QP.
