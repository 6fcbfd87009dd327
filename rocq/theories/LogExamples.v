From Coq Require Import Reals Lra Ranalysis1 Ratan.
From Verif Require Import Geo GeoLemmas Rigid RigidExamples LogModel LogSpec RotProofs LogProofs LogMain LogPi LogDeriv LogSE3.
Local Open Scope R_scope.

Lemma rotz_angle a : 0 <= a <= PI -> angle (rotz a) = a.
Proof.
  intros B. rewrite (angleE _ (rotz_rotation a)). rewrite <- (acos_cos a B) at 2. f_equal.
  unfold rotz, trace. cbn. field.
Qed.
Lemma rotz_log a : / 1000000 < a < PI -> logSO3 (rotz a) = (a, V3 0 0 a).
Proof.
  intros B. pose proof (rotz_angle a ltac:(lra)) as A. rewrite (log_mid _ (rotz_rotation a)); rewrite A; [|exact B].
  pose proof (sin_gt_0 a ltac:(lra) ltac:(lra)). f_equal. unfold rotz, vee, vscale. cbn. f_equal; field; lra.
Qed.
(** one in the nominal branch, one in the branch near pi *)
Lemma case_log : rotation (rotz 1) /\ logSO3 (rotz 1) = (1, V3 0 0 1) /\ / 1000000 < 1 < PI - / 100.
Proof.
  pose proof pi_big. split; [apply rotz_rotation|]. split; [apply rotz_log; lra|lra].
Qed.
Lemma case_log_pi : let a := PI - / 200 in rotation (rotz a) /\ logSO3 (rotz a) = (a, V3 0 0 a) /\ PI - / 100 <= a < PI.
Proof.
  intros a. pose proof pi_big. unfold a. split; [apply rotz_rotation|]. split; [apply rotz_log; lra|lra].
Qed.
Lemma case_log_small : exists m theta r, rotation m /\ logSO3 m = (theta, r) /\ 0 < theta <= / 1000000 /\ r <> v0.
Proof.
  pose proof pi_big. exists (rotz (/ 2000000)), (/ 2000000), (vscale (1 / 2) (vee (rotz (/ 2000000)))).
  split; [apply rotz_rotation|]. split; [|split; [lra|]].
  - unfold logSO3. rewrite rotz_angle by lra. destruct (Rlt_dec _ (PI - / 100)); [|lra]. destruct (Rlt_dec _ _); [lra|]. reflexivity.
  - intros E. apply (f_equal vz) in E. unfold rotz, vee, vscale, v0 in E. cbn in E.
    pose proof (sin_gt_0 (/ 2000000) ltac:(lra) ltac:(lra)). lra.
Qed.

(** half turns about (1, 1, 0) and (1, -1, 0) *)
Definition half (e : R) : m3 := M3 (V3 0 e 0) (V3 e 0 0) (V3 0 0 (-1)).
Lemma half_rotation e : e * e = 1 -> rotation (half e).
Proof. intros E. split; unfold half; cv; [f_equal; f_equal; lra|lra]. Qed.
Lemma half_angle_pi e : e * e = 1 -> fst (logSO3 (half e)) = PI.
Proof.
  intros E. rewrite log_fst, (angleE _ (half_rotation e E)). unfold half. cv.
  replace ((0 + 0 + -1 - 1) / 2) with (- (1)) by field. rewrite acos_opp, acos_1. ring.
Qed.
Lemma half_refuted : exists m theta r, rotation m /\ logSO3 m = (theta, r) /\ theta = PI /\ ~ turns_to r m.
Proof.
  exists (half (-1)), (fst (logSO3 (half (-1)))), (snd (logSO3 (half (-1)))).
  assert (E : (-1) * (-1) = 1) by ring. assert (P := half_angle_pi (-1) E).
  split; [now apply half_rotation|]. split; [apply surjective_pairing|]. split; [exact P|]. intros T.
  destruct (log_half_turn _ _ _ (half_rotation _ E) (surjective_pairing _) P) as [_ [K _]].
  destruct (K T) as (K1 & _). unfold half in K1. cbn in K1. lra.
Qed.
Lemma half_recovered : exists m theta r, rotation m /\ logSO3 m = (theta, r) /\ theta = PI /\ turns_to r m.
Proof.
  exists (half 1), (fst (logSO3 (half 1))), (snd (logSO3 (half 1))).
  assert (E : 1 * 1 = 1) by ring. assert (P := half_angle_pi 1 E).
  split; [now apply half_rotation|]. split; [apply surjective_pairing|]. split; [exact P|].
  destruct (log_half_turn _ _ _ (half_rotation _ E) (surjective_pairing _) P) as [_ [_ K]].
  apply K. unfold half. cbn. lra.
Qed.

(** a motion with a velocity in both representations *)
Lemma case_motion : (forall s, rotation (rotz s)) /\ mderiv rotz 1 (mul (rotz 1) (cross_matrix ez)) /\
  mderiv rotz 1 (mul (cross_matrix ez) (rotz 1)) /\ / 1000000 < fst (logSO3 (rotz 1)) < PI.
Proof.
  pose proof pi_big. split; [apply rotz_rotation|].
  assert (D : mderiv rotz 1 (mul (rotz 1) (cross_matrix ez))) by apply (proj1 (turn_moves 1)).
  split; [exact D|]. split.
  - eapply mderiv_eq; [|exact D]. unfold rotz, ez. cv. f_equal; f_equal; ring.
  - rewrite rotz_log by lra. cbn. lra.
Qed.
Lemma case_rigid : (forall s, rotation (rot (turn s))) /\ moves turn 1 (Tw (mulv (mtr (rotz 1)) ex) ez) /\
  / 1000000 < fst (logSO3 (rot (turn 1))) < PI /\ fst (logSO3 (rot (turn 1))) <> / 100.
Proof.
  pose proof pi_big. split; [intros s; apply rotz_rotation|]. split; [apply turn_moves|]. cbn [rot turn]. rewrite rotz_log by lra. cbn [fst]. lra.
Qed.
