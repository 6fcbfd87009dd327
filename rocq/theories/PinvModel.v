(** Pseudo-inverse of a matrix of expressions and its derivative; static stability.

    Source: /repo/include/hpp/constraints/svd.hh:40-140 (getU1 ... projectorOnKernelOfInv),
            /repo/include/hpp/constraints/symbolic-calculus.hh:963-1045 (computePseudoInverse,
            computePseudoInverseJacobian, jacobianTimes, jacobianTransposeTimes),
            /repo/src/static-stability.cc:90-214.

    Scalars: any ordered field.  Eigen::JacobiSVD with full U and V is any decomposition [svdf]
    of the value (exact arithmetic, numerical rank equal to the rank).  The elements of the matrix
    of expressions have one column (as in StaticStability); the loops over blocks of rows are
    flattened: [dphi k] is the derivative of the value with respect to degree of freedom [k]. *)
From mathcomp Require Import all_ssreflect all_algebra.
From Verif Require Import DescentModel.
Set Implicit Arguments. Unset Strict Implicit. Unset Printing Implicit Defensive.
Import GRing.Theory Num.Theory.
Open Scope ring_scope.

Section Pinv.
Variable R : realFieldType.

(** ComputeFullU | ComputeFullV: columns of U2 complete those of U *)
Record svdf m k (M : 'M[R]_(m, k)) := mksvdf {
  thin :> svd M; rk3 : nat; U2 : 'M[R]_(m, rk3);
  U22 : U2^T *m U2 = 1%:M; U12 : (U thin)^T *m U2 = 0;
  U_full : U thin *m (U thin)^T + U2 *m U2^T = 1%:M }.

Section One.
Variables (m k : nat) (M : 'M[R]_(m, k)) (D : svdf M).
(** pseudoInverse, lines 62-77 *)
Definition pseudoInverse : 'M[R]_(k, m) := V1 D *m diag_mx (\row_i (S D 0 i)^-1) *m (U D)^T.
(** projectorOnSpan and projectorOnSpanOfInv, lines 79-101 *)
Definition projectorOnSpan : 'M[R]_k := V1 D *m (V1 D)^T.
Definition projectorOnSpanOfInv : 'M[R]_m := U D *m (U D)^T.
(** projectorOnKernel and projectorOnKernelOfInv, lines 103-140 *)
Definition projectorOnKernel (full : bool) : 'M[R]_k := if full then V2 D *m (V2 D)^T else - (V1 D *m (V1 D)^T) + 1%:M.
Definition projectorOnKernelOfInv (full : bool) : 'M[R]_m := if full then U2 D *m (U2 D)^T else - (U D *m (U D)^T) + 1%:M.

(** nbDof derivatives of the value *)
Variables (d : nat) (dphi : 'I_d -> 'M[R]_(m, k)).
Definition jacobianTimes (rhs : 'cV[R]_k) : 'M[R]_(m, d) := \matrix_(i, j) (dphi j *m rhs) i 0.
Definition jacobianTransposeTimes (rhs : 'cV[R]_m) : 'M[R]_(k, d) := \matrix_(i, j) (rhs^T *m dphi j) 0 i.
(** computePseudoInverseJacobian, lines 978-1003 *)
Definition pinvJacobian (rhs : 'cV[R]_m) : 'M[R]_(k, d) :=
  let piTrhs := solve D rhs in
  let pij := - pseudoInverse *m jacobianTimes piTrhs in
  let pij := pij + (pseudoInverse *m pseudoInverse^T) *m jacobianTransposeTimes (projectorOnKernelOfInv true *m rhs) in
  pij + projectorOnKernel true *m jacobianTransposeTimes (pseudoInverse^T *m piTrhs).

(** * StaticStability; [gravity] is Gravity, [eps] the precision of isZero *)
Variables (gravity : 'cV[R]_m) (eps : R).
Definition uminus (u : 'cV[R]_k) : 'cV[R]_k := \col_i (if 0 <= u i 0 then 0 else - u i 0).
Definition is_zero (u : 'cV[R]_k) : bool := [forall i, `|u i 0| <= eps].
(** computeUminusAndV, lines 173-189 *)
Definition v_of (um : 'cV[R]_k) : 'cV[R]_k := V2 D *m ((V2 D)^T *m um).
(** impl_compute, lines 92-114: forces, and residual *)
Definition stat_u : 'cV[R]_k := solve D (- gravity).
Definition stat_value : 'cV[R]_k * 'cV[R]_m :=
  let um := uminus stat_u in
  ((if is_zero um then stat_u else stat_u + v_of um), gravity + M *m stat_u).
(** computeVDot, lines 191-213; [s]: diagonal of S *)
Definition vdot_of (um : 'cV[R]_k) (s : 'rV[R]_k) (uDot : 'M[R]_(k, d)) : 'M[R]_(k, d) :=
  let umDot := diag_mx s *m uDot in
  umDot - V1 D *m ((V1 D)^T *m umDot) - pseudoInverse *m jacobianTimes um - pinvJacobian (M *m um).
(** impl_jacobian, lines 116-162 *)
Definition stat_jacobian : 'M[R]_(k, d) * 'M[R]_(m, d) :=
  let u := stat_u in let um := uminus u in
  let uDot := pinvJacobian (- gravity) in
  let s := \row_i (if 0 <= u i 0 then 0 else -1) in
  ((if is_zero um then uDot else uDot + vdot_of um s uDot),
   jacobianTimes u - M *m pinvJacobian gravity).
End One.
End Pinv.
