(** Property C50: finite differences on a robot. *)
From Coq Require Import Reals List Bool Arith.
From Verif Require Import FdModel FdProofs FdRobotModel FdRobotProofs.
Local Open Scope R_scope.

(** The bounds of C50_accuracy along the motion of velocity variable k; the step h is taken from the
    configuration variable of index k, whatever this variable is. *)
Theorem C50_robot_accuracy : forall integ eps adp (f g : vec -> vec) x n J i k f1 f2 f3 M2 M3 delta, respects f ->
  (forall u v, (forall k, u k = v k) -> forall k, integ x u k = integ x v k) -> (forall k, integ x (fun _ => 0) k = x k) ->
  0 < eps -> (k < n)%nat -> adp k = true ->
  let h := step eps k x in
  let phi := fun t => g (integ x (unit_vec k t)) i in
  (forall t, Rabs (f (integ x (unit_vec k t)) i - phi t) <= delta) ->
  (forall t, - h <= t <= h -> derivable_pt_lim phi t (f1 t) /\ derivable_pt_lim f1 t (f2 t)) ->
  ((forall t, 0 <= t <= h -> Rabs (f2 t) <= M2) -> Rabs (forward (robot_op integ) eps adp f x n J i k - f1 0) <= M2 * h / 2 + 2 * delta / h) /\
  ((forall t, - h <= t <= h -> derivable_pt_lim f2 t (f3 t) /\ Rabs (f3 t) <= M3) ->
   Rabs (central (robot_op integ) eps adp f x n J i k - f1 0) <= M3 * h * h / 6 + delta / h).
Proof. exact robot_accuracy. Qed.
Print Assumptions C50_robot_accuracy.

(** the hypotheses on the integration hold for the chain of a rotation and two translations *)
Example C50_robot_accuracy_case : (forall x u v, (forall k, u k = v k) -> forall k, chain_integrate x u k = chain_integrate x v k) /\
  (forall x k, chain_integrate x (fun _ => 0) k = x k) /\ chain_integrate (fun k => INR k) (unit_vec 2 5) 3%nat = INR 3 + 5.
Proof. exact (conj chain_ext (conj chain_zero eq_refl)). Qed.

(** The step of the second translation is taken from the position of the first one: for the cube of the
    second translation, at 1, where the derivative is 3, the errors of both differences exceed any M
    for every eps, however small. *)
Theorem C50_robot_step_refuted : forall eps M, 0 < eps -> exists x,
  x 0%nat * x 0%nat + x 1%nat * x 1%nat = 1 /\ x 3%nat = 1 /\
  derivable_pt_lim (fun t => cube3 (chain_integrate x (unit_vec 2 t)) 0%nat) 0 3 /\
  forall J, M < Rabs (forward (robot_op chain_integrate) eps (fun _ => true) cube3 x 3 J 0%nat 2%nat - 3) /\
            M < Rabs (central (robot_op chain_integrate) eps (fun _ => true) cube3 x 3 J 0%nat 2%nat - 3).
Proof. exact chain_refuted. Qed.
Print Assumptions C50_robot_step_refuted.
