(** Property C35: line searches.  Real numbers; [integrate], [scale] and the residual
    [f] are arbitrary. *)
From Coq Require Import Reals List Lra.
From Verif Require Import LineModel LineProofs.
Import ListNotations.
Open Scope R_scope.

Theorem C35_constant : forall (Q D : Type) (integrate : Q -> D -> Q) arg darg,
  constant integrate arg darg = (true, integrate arg darg, darg).
Proof. reflexivity. Qed.
Print Assumptions C35_constant.

(** after n calls, whatever their arguments *)
Theorem C35_fixed_sequence : forall (Q D : Type) (integrate : Q -> D -> Q) (scale : R -> D -> D) n calls arg darg,
  let a := 95 / 100 - 75 / 100 * (8 / 10) ^ n in
  snd (fixed_step integrate scale (fixed_after integrate scale n calls) arg darg) = (true, integrate arg (scale a darg), scale a darg) /\
  2 / 10 <= a < 95 / 100.
Proof. exact @fixed_spec. Qed.
Print Assumptions C35_fixed_sequence.

Theorem C35_fixed_sequence_increases : forall n m, (n < m)%nat ->
  95 / 100 - 75 / 100 * (8 / 10) ^ n < 95 / 100 - 75 / 100 * (8 / 10) ^ m.
Proof. exact fixed_increasing. Qed.
Print Assumptions C35_fixed_sequence_increases.

Example C35_fixed_case : 95 / 100 - 75 / 100 * (8 / 10) ^ 0 = 2 / 10 /\ 95 / 100 - 75 / 100 * (8 / 10) ^ 1 = 35 / 100.
Proof. split; simpl; lra. Qed.

Theorem C35_error_norm_range : forall m a b r, m < 1 -> m < enb_alpha (enb_new3 m a b) r < 1.
Proof. exact enb_range. Qed.
Print Assumptions C35_error_norm_range.

(** the constructor with one argument *)
Theorem C35_error_norm_default : forall m, m < 96 / 100 ->
  enb_alpha (enb_new m) 1 = 98 / 100 /\ enb_alpha (enb_new m) r_half = (1 + m) / 2 /\
  (forall r, m < enb_alpha (enb_new m) r < 1) /\
  (forall r1 r2, r1 < r2 -> enb_alpha (enb_new m) r2 < enb_alpha (enb_new m) r1).
Proof. exact enb_default. Qed.
Print Assumptions C35_error_norm_default.

(** with a larger alphaMin the step grows with the error *)
Theorem C35_error_norm_refuted : exists m, 0 < m < 1 /\ forall r1 r2, r1 < r2 -> enb_alpha (enb_new m) r1 < enb_alpha (enb_new m) r2.
Proof. exists (97 / 100). split; [lra|]. intros r1 r2. apply enb_increasing. lra. Qed.
Print Assumptions C35_error_norm_refuted.

(** backtracking; slope is the value of computeLocalSlope *)
Theorem C35_backtracking : forall (Q D : Type) (integrate : Q -> D -> Q) (scale : R -> D -> D) (f : Q -> R) s slope arg u,
  0 < bt_tau s < 1 -> 0 < bt_small s ->
  exists fuel0, forall fuel, (fuel0 <= fuel)%nat ->
  exists ok q d, bt_step integrate scale f fuel s slope arg u = Some (ok, q, d) /\ q = integrate arg d /\
    let t := 2 * bt_c s * slope in
    (ok = true -> t <= 0 /\ exists n, bt_small s < bt_tau s ^ n /\ d = scale (bt_tau s ^ n) u /\
       - (bt_tau s ^ n) * t <= f arg - f q /\
       forall j, (j < n)%nat -> ~ armijo integrate scale f t arg u (bt_tau s ^ j)) /\
    (ok = false -> d = scale (bt_small s) u /\
       (0 < t \/ forall n, bt_small s < bt_tau s ^ n -> ~ armijo integrate scale f t arg u (bt_tau s ^ n))).
Proof. exact @bt_step_spec. Qed.
Print Assumptions C35_backtracking.

Theorem C35_backtracking_trials : forall n, bt_small bt_new < bt_tau bt_new ^ n -> (n <= 4)%nat.
Proof. exact bt_default_trials. Qed.
Print Assumptions C35_backtracking_trials.

(** meaning of the slope: first order variation of the sum of the squares of all the
    errors (the residual of the solver is the largest squared error, not their sum) *)
Theorem C35_slope : forall levels dq al, (forall l, In l levels -> length (fst l) = length (snd l)) ->
  total (map (moved al dq) levels) = total (map snd levels) + 2 * al * local_slope levels dq +
    al * al * total (map (fun l => map (fun row => dot row dq) (fst l)) levels).
Proof. exact slope_linear. Qed.
Print Assumptions C35_slope.

(** f q = q^2 from 1: the Newton step, a step three times too long (accepted at the
    third trial, .49 * 3), an ascent direction *)
Example C35_case :
  let step := bt_step Rplus Rmult (fun q => q * q) 5 bt_new in
  step (-1) 1 (-1) = Some (true, 1 + 1 * -1, 1 * -1) /\
  step (-3) 1 (-3) = Some (true, 1 + 1 * (7 / 10) * (7 / 10) * -3, 1 * (7 / 10) * (7 / 10) * -3) /\
  step 1 1 1 = Some (false, 1 + 2 / 10 * 1, 2 / 10 * 1).
Proof.
  unfold bt_step, bt_new. cbn [bt_c bt_tau bt_small bt_loop]. repeat split.
  - destruct (Rlt_dec 0 _); [lra|]. destruct (Rlt_dec _ 1); [|lra]. destruct (Rle_dec _ _); [reflexivity|lra].
  - destruct (Rlt_dec 0 _); [lra|]. destruct (Rlt_dec _ 1); [|lra]. destruct (Rle_dec _ _); [lra|].
    destruct (Rlt_dec _ _); [|lra]. destruct (Rle_dec _ _); [lra|].
    destruct (Rlt_dec _ _); [|lra]. destruct (Rle_dec _ _); [reflexivity|lra].
  - destruct (Rlt_dec 0 _); [reflexivity|lra].
Qed.
