(** C60: static stability by quadratic programming. *)
From Coq Require Import Reals List.
From Verif Require Import Geo Rigid QPModel QPSpec QPProofs QPExamples.
Import ListNotations.
Local Open Scope R_scope.

(** the value is the squared norm of the smallest unbalance: reached, a lower bound, zero exactly
    when nonnegative forces balance gravity, whatever was computed before *)
Theorem C60_value_is_smallest_unbalance (qp : list (list R) -> list R -> list R * R) (Q : Type) (phi : Q -> list twist) n (l : list (qp_op Q)) q : qp_solves qp (phi q) ->
  let r := snd (qp_compute Q phi qp (qp_run Q phi qp n l) q) in
  (exists F, forces (length (phi q)) F /\ r = residual (phi q) F) /\
  (forall F, forces (length (phi q)) F -> r <= residual (phi q) F) /\ 0 <= r /\ (r = 0 <-> balanced (phi q)).
Proof. exact (value_right qp Q phi (qp_run Q phi qp n l) q). Qed.
Print Assumptions C60_value_is_smallest_unbalance.

(** twice the Jacobian is the derivative, where the value is differentiable and if the last value
    was computed in the same configuration *)
Theorem C60_twice_jacobian_is_derivative (qp : list (list R) -> list R -> list R * R) (Q : Type) (phi : Q -> list twist) (dphi : Q -> list (list twist))
  n (l : list (qp_op Q)) (c : R -> Q) t d r' nv : columns_move phi dphi c t d -> (forall s, qp_solves qp (phi (c s))) -> length d = nv ->
  last_value Q l = Some (c t) -> (forall st, deriv (fun s => snd (qp_compute Q phi qp st (c s))) t r') ->
  r' = 2 * rapp (qp_jacobian Q dphi qp (qp_run Q phi qp n l) nv (c t)) d.
Proof. exact (jacobian_after qp Q phi dphi n l c t d r' nv). Qed.
Print Assumptions C60_twice_jacobian_is_derivative.

(** it is not the derivative itself *)
Theorem C60_jacobian_is_derivative_refuted : exists d, (forall st, deriv (fun s => snd (qp_compute R tilt qp1 st s)) (1 / 2) d) /\
  rapp (qp_jacobian R dtilt qp1 (qp_run R tilt qp1 1 [QValue _ (1 / 2)]) 1 (1 / 2)) [1] <> d.
Proof. exact not_the_derivative. Qed.
Print Assumptions C60_jacobian_is_derivative_refuted.

(** after a value in another configuration, the Jacobian mixes both configurations: here it is
    zero though the derivative is not *)
Theorem C60_jacobian_without_value_refuted : exists d, (forall st, deriv (fun s => snd (qp_compute R tilt qp1 st s)) (1 / 2) d) /\ d <> 0 /\
  rapp (qp_jacobian R dtilt qp1 (qp_run R tilt qp1 1 [QValue _ 0]) 1 (1 / 2)) [1] = 0.
Proof. exact stale_jacobian. Qed.
Print Assumptions C60_jacobian_without_value_refuted.
