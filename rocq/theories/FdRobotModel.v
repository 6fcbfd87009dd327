(** A robot whose configuration is longer than its velocity.

    Source: /repo/src/differentiable-function.cc lines 48-92 (FiniteDiffRobotOp), whose step reads x[i]
    with i the index of a column of the Jacobian, i.e. of a velocity variable.

    The robot is a chain of an unbounded rotation joint (configuration cos, sin; one velocity) and two
    translation joints: configuration (c, s, a, b), velocity (w, a', b').  hpp::pinocchio::integrate for
    this robot is written from the definition of the Lie groups SO(2) and R, it is not part of /repo. *)
From Coq Require Import Reals Arith.
From Verif Require Import FdModel.
Local Open Scope R_scope.

Definition chain_integrate (x v : vec) : vec := fun k =>
  match k with
  | 0%nat => x 0%nat * cos (v 0%nat) - x 1%nat * sin (v 0%nat)
  | 1%nat => x 1%nat * cos (v 0%nat) + x 0%nat * sin (v 0%nat)
  | 2%nat => x 2%nat + v 1%nat
  | 3%nat => x 3%nat + v 2%nat
  | _ => x k
  end.

(** the function differentiated in C50_robot_step_refuted (not in /repo): cube of the second translation *)
Definition cube3 (x : vec) (_ : nat) : R := x 3%nat * x 3%nat * x 3%nat.
