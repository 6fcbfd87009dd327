(** Property C50: accuracy of finite differences and rounding of the steps. *)
From Coq Require Import Reals List Bool Arith ZArith Floats.SpecFloat.
From Verif Require Import FdModel FdProofs FdFloatModel FdAccProofs.
Local Open Scope R_scope.

(** f is the function evaluated, within delta of g; f1, f2, f3: derivatives of g with respect to variable k *)
Theorem C50_accuracy : forall eps adp (f g : vec -> vec) x n J i k f1 f2 f3 M2 M3 delta, respects f -> 0 < eps -> (k < n)%nat -> adp k = true ->
  let h := step eps k x in
  let phi := fun t => g (shift x k t) i in
  (forall t, Rabs (f (shift x k t) i - phi t) <= delta) ->
  (forall t, - h <= t <= h -> derivable_pt_lim phi t (f1 t) /\ derivable_pt_lim f1 t (f2 t)) ->
  ((forall t, 0 <= t <= h -> Rabs (f2 t) <= M2) -> Rabs (forward vector_op eps adp f x n J i k - f1 0) <= M2 * h / 2 + 2 * delta / h) /\
  ((forall t, - h <= t <= h -> derivable_pt_lim f2 t (f3 t) /\ Rabs (f3 t) <= M3) ->
   Rabs (central vector_op eps adp f x n J i k - f1 0) <= M3 * h * h / 6 + delta / h).
Proof. exact accuracy. Qed.
Print Assumptions C50_accuracy.

(** x^3 at 1 with step 1: the bound of central differences is reached *)
Example C50_accuracy_case : let f := (fun (x : vec) (_ : nat) => x 0%nat * x 0%nat * x 0%nat) in let x := (fun _ : nat => 1) in
  let phi := fun t => f (shift x 0 t) 0%nat in let f1 := fun t => 3 * (1 + t) * (1 + t) in let f2 := fun t => 6 * (1 + t) in
  step 1 0 x = 1 /\
  (forall t, derivable_pt_lim phi t (f1 t) /\ derivable_pt_lim f1 t (f2 t) /\ derivable_pt_lim f2 t 6) /\
  central vector_op 1 (fun _ => true) f x 1 (fun _ _ => 0) 0%nat 0%nat = f1 0 + 6 * 1 * 1 / 6.
Proof. exact cube_case. Qed.

(** The step is relative to the variable: with the default eps the Jacobian of t + 1 in binary64
    arithmetic is 0 at 2^-60, and 1 at 0. *)
Theorem C50_float_refuted : let f := fun t => fadd t one in
  fcentral eps_default f (halved 60 one) = S754_zero false /\ fforward eps_default f (halved 60 one) = S754_zero false /\
  fcentral eps_default f (S754_zero false) = one /\ fforward eps_default f (S754_zero false) = one.
Proof. exact float_case. Qed.
Print Assumptions C50_float_refuted.

(** The default eps is the square root of 2^-52, the gap above 1; the step is positive and in proportion to the
    magnitude of the variable, eps at 0. *)
Theorem C50_float_step : fmul eps_default eps_default = halved 52 one /\ fadd one (halved 53 one) = one /\ fadd one (halved 52 one) <> one /\
  fstep eps_default one = eps_default /\ fstep eps_default (SFopp one) = eps_default /\ fstep eps_default (S754_zero false) = eps_default /\
  fstep eps_default (SFopp (halved 60 one)) = halved 86 one.
Proof. exact float_step. Qed.
Print Assumptions C50_float_step.
