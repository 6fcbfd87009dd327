From Coq Require Import Reals.
From Verif Require Import Geo Rigid RigidExamples LogModel LogSpec LogMain LogPi LogDeriv LogSE3 LogExamples.
Local Open Scope R_scope.

Theorem C69_log_rotation : forall m theta r, rotation m -> logSO3 m = (theta, r) ->
  / 1000000 < theta < PI \/ theta = 0 -> 0 <= theta /\ norm r = theta /\ turns_to r m.
Proof. exact log_right. Qed.
Print Assumptions C69_log_rotation.

Theorem C69_log_small : forall m theta r, rotation m -> logSO3 m = (theta, r) -> 0 < theta <= / 1000000 ->
  exists r0, turns_to r0 m /\ norm r0 = theta /\ r = vscale (sin theta / theta) r0.
Proof. exact log_small. Qed.
Print Assumptions C69_log_small.

Theorem C69_log_half_turn : forall m theta r, rotation m -> logSO3 m = (theta, r) -> theta = PI ->
  norm r = PI /\ (turns_to r m <-> 0 <= vy (ra m) /\ 0 <= vz (ra m) /\ 0 <= vz (rb m)).
Proof. exact log_half_turn. Qed.
Print Assumptions C69_log_half_turn.

Theorem C69_half_turn_refuted : exists m theta r, rotation m /\ logSO3 m = (theta, r) /\ theta = PI /\ ~ turns_to r m.
Proof. exact half_refuted. Qed.
Print Assumptions C69_half_turn_refuted.

Example C69_case : rotation (rotz 1) /\ logSO3 (rotz 1) = (1, V3 0 0 1) /\ / 1000000 < 1 < PI - / 100.
Proof. exact case_log. Qed.
Example C69_case_near_pi : let a := PI - / 200 in rotation (rotz a) /\ logSO3 (rotz a) = (a, V3 0 0 a) /\ PI - / 100 <= a < PI.
Proof. exact case_log_pi. Qed.
Example C69_case_small : exists m theta r, rotation m /\ logSO3 m = (theta, r) /\ 0 < theta <= / 1000000 /\ r <> v0.
Proof. exact case_log_small. Qed.
Example C69_case_half_turn : exists m theta r, rotation m /\ logSO3 m = (theta, r) /\ theta = PI /\ turns_to r m.
Proof. exact half_recovered. Qed.

Theorem C70_JlogSO3 : forall M t w, (forall s, rotation (M s)) -> mderiv M t (mul (M t) (cross_matrix w)) ->
  / 1000000 < fst (logSO3 (M t)) < PI \/ fst (logSO3 (M t)) = 0 ->
  vderiv (fun s => snd (logSO3 (M s))) t (mulv (JlogSO3 (fst (logSO3 (M t))) (snd (logSO3 (M t)))) w).
Proof. exact log_deriv_body. Qed.
Print Assumptions C70_JlogSO3.

Theorem C70_computeJlog : forall M t w, (forall s, rotation (M s)) -> mderiv M t (mul (cross_matrix w) (M t)) ->
  / 1000000 < fst (logSO3 (M t)) < PI \/ fst (logSO3 (M t)) = 0 ->
  vderiv (fun s => snd (logSO3 (M s))) t (mulv (computeJlog (fst (logSO3 (M t))) (snd (logSO3 (M t)))) w).
Proof. exact log_deriv_fixed. Qed.
Print Assumptions C70_computeJlog.

Example C70_case : (forall s, rotation (rotz s)) /\ mderiv rotz 1 (mul (rotz 1) (cross_matrix ez)) /\
  mderiv rotz 1 (mul (cross_matrix ez) (rotz 1)) /\ / 1000000 < fst (logSO3 (rotz 1)) < PI.
Proof. exact case_motion. Qed.

Theorem C71_logSE3 : forall M, rotation (rot M) -> / 100 <= angle (rot M) < PI \/ angle (rot M) = 0 -> screws_to (logSE3 M) M.
Proof. exact logSE3_right. Qed.
Print Assumptions C71_logSE3.

Theorem C71_JlogSE3 : forall M t T, (forall s, rotation (rot (M s))) -> moves M t T ->
  let th := fst (logSO3 (rot (M t))) in
  / 1000000 < th < PI /\ th <> / 100 \/ th = 0 ->
  vderiv (fun s => lin (logSE3 (M s))) t (lin (mul6 (JlogSE3 (M t)) T)) /\
  vderiv (fun s => ang (logSE3 (M s))) t (ang (mul6 (JlogSE3 (M t)) T)).
Proof. exact logSE3_deriv. Qed.
Print Assumptions C71_JlogSE3.

Example C71_case : (forall s, rotation (rot (turn s))) /\ moves turn 1 (Tw (mulv (mtr (rotz 1)) ex) ez) /\
  / 1000000 < fst (logSO3 (rot (turn 1))) < PI /\ fst (logSO3 (rot (turn 1))) <> / 100.
Proof. exact case_rigid. Qed.
