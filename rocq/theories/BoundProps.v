(** C95: bounds of the step along the kernel of the contact matrix. *)
From Coq Require Import Reals List.
From Verif Require Import Geo BoundModel BoundSpec BoundProofs.
Import ListNotations.
Local Open Scope R_scope.

(** findBoundIndex stops only on empty vectors. *)
Theorem C95_defined : forall eps u v, length u = length v -> (findBoundIndex eps u v = None <-> u = []).
Proof. exact bounds_defined. Qed.
Print Assumptions C95_defined.

(** lambdaMin makes all entries with increasing force non negative, is the smallest non negative
    step that does, non negative if another entry exists, and comes with the index of an entry
    that reaches zero.  lambdaMax is the same for decreasing forces, but among non positive
    steps. *)
Theorem C95_bounds : forall eps u v lo hi ilo ihi, 0 < eps -> findBoundIndex eps u v = Some ((lo, ilo), (hi, ihi)) ->
  ((forall i a b, row u v i a b -> eps < b -> 0 <= a + lo * b) /\
   ((exists i a b, row u v i a b /\ b <= eps) -> 0 <= lo) /\
   (forall x, (forall i a b, row u v i a b -> eps < b -> 0 <= a + x * b) -> 0 <= x -> lo <= x) /\
   exists a b, row u v ilo a b /\ (eps < b /\ a + lo * b = 0 \/ b <= eps /\ lo = 0)) /\
  ((forall i a b, row u v i a b -> b <= - eps -> 0 <= a + hi * b) /\
   ((exists i a b, row u v i a b /\ - eps < b) -> hi <= 0) /\
   (forall x, (forall i a b, row u v i a b -> b <= - eps -> 0 <= a + x * b) -> x <= 0 -> x <= hi) /\
   exists a b, row u v ihi a b /\ (b <= - eps /\ a + hi * b = 0 \/ - eps < b /\ hi = 0)).
Proof. exact bounds. Qed.
Print Assumptions C95_bounds.
Example C95_case : findBoundIndex (/ 1000) [-1; 2] [1; -1] = Some ((1, 0%nat), (0, 0%nat)).
Proof. exact case_value. Qed.

(** lambdaMax is not an upper bound of the admissible steps: a step with positive forces may exceed it. *)
Theorem C95_upper_refuted : exists eps u v lo hi ilo ihi x, 0 < eps /\ findBoundIndex eps u v = Some ((lo, ilo), (hi, ihi)) /\
  (forall i a b, row u v i a b -> 0 < a + x * b) /\ hi < lo /\ hi < x.
Proof. exact upper_refuted. Qed.
Print Assumptions C95_upper_refuted.

(** computeLambdaDot is the derivative of the step that brings entry i0 to zero; zero if this
    entry hardly changes. *)
Theorem C95_derivative : forall eps (u v : R -> R) t du dv, 0 < eps -> deriv u t du -> deriv v t dv ->
  (eps <= Rabs (v t) -> deriv (fun s => - (u s / v s)) t (computeLambdaDot eps (u t) (v t) du dv)) /\
  (Rabs (v t) < eps -> computeLambdaDot eps (u t) (v t) du dv = 0).
Proof. exact lambda_dot. Qed.
Print Assumptions C95_derivative.
Example C95_derivative_case : deriv (fun s => s) 3 1 /\ deriv (fun s => 2 * s) 3 2 /\ / 1000 <= Rabs (2 * 3).
Proof. exact derivative_case. Qed.
