From Coq Require Import Reals Lra Ranalysis1 Ratan.
From Verif Require Import Geo GeoLemmas Rigid LogModel LogSpec RotProofs LogProofs LogMain.
Local Open Scope R_scope.

Lemma turns_unique u th m : vdot u u = 1 -> turns_to (vscale th u) m -> m = about u th.
Proof.
  intros U (E & E0 & ED & E1).
  set (F := fun s => mul (E s) (about u (s * - th))).
  assert (Z : F 1 = F 0).
  { apply const_of_zero_m. intros t. eapply mderiv_eq; [|apply (mderiv_mul _ _ t _ _ (ED t) (about_opp_deriv u th t U))].
    set (K := cross_matrix (vscale th u)). set (A := about u (t * - th)). set (P := E t). clearbody K A P.
    rewrite mulA. assert (G : mul P (mopp (mul K A)) = mopp (mul P (mul K A))) by geo. rewrite G.
    generalize (mul P (mul K A)). geo. }
  unfold F in Z. rewrite Rmult_1_l, Rmult_0_l, about_0, mulm1, E0, E1 in Z.
  rewrite <- (mulm1 m), <- (about_inv u th U), <- mulA, Z. apply mul1m.
Qed.

Lemma angle_pi m : rotation m -> angle m = PI -> trace m = -1 /\ vee m = v0.
Proof.
  intros H A. pose proof (cos_angle m H) as C. rewrite A, cos_PI in C. split; [lra|].
  pose proof (vee_norm m H) as N. replace (trace m) with (-1) in N by lra.
  destruct (vee m) as [x y z]. cvin N. unfold v0. f_equal; nra.
Qed.

(** what is returned for a half turn *)
Lemma log_pi m : rotation m -> angle m = PI ->
  logSO3 m = (PI, vscale (- PI) (V3 (sqrt ((vx (ra m) + 1) / 2)) (sqrt ((vy (rb m) + 1) / 2)) (sqrt ((vz (rc m) + 1) / 2)))).
Proof.
  intros H A. destruct (angle_pi m H A) as [_ V]. unfold logSO3. rewrite A. pose proof pi_big.
  destruct (Rlt_dec PI (PI - / 100)); [lra|]. unfold vee, v0 in V. injection V as v1 v2 v3.
  replace (PI - PI) with 0 by ring. rewrite cos_0. f_equal. unfold vscale. cbn [vx vy vz].
  assert (R0 : forall x, -1 <= x -> root ((x + 1) * (PI * PI / (1 + 1))) = PI * sqrt ((x + 1) / 2)).
  { intros x X. replace ((x + 1) * (PI * PI / (1 + 1))) with ((PI * sqrt ((x + 1) / 2)) * (PI * sqrt ((x + 1) / 2))).
    - rewrite root_sq, Rabs_right; [reflexivity|]. apply Rle_ge, Rmult_le_pos; [lra|apply sqrt_pos].
    - transitivity (PI * PI * (sqrt ((x + 1) / 2) * sqrt ((x + 1) / 2))); [ring|]. rewrite sqrt_sqrt by lra. field. }
  assert (S : forall a b, a - b = 0 -> sgn a b = -1) by (intros a b E; unfold sgn; destruct (Rlt_dec b a); lra).
  rewrite !S by assumption.
  assert (D : -1 <= vx (ra m) /\ -1 <= vy (rb m) /\ -1 <= vz (rc m)).
  { destruct H as [O _]. destruct m as [[a b c] [d e f] [g h i]]. cvin O. injection O as r1 r2 r3 r4 r5 r6 r7 r8 r9. cbn. repeat split; nra. }
  destruct D as (D1 & D2 & D3). rewrite !R0 by assumption. f_equal; ring.
Qed.

Lemma half_turn m : rotation m -> angle m = PI ->
  vy (ra m) = vx (rb m) /\ vz (ra m) = vx (rc m) /\ vz (rb m) = vy (rc m) /\
  -1 <= vx (ra m) /\ -1 <= vy (rb m) /\ -1 <= vz (rc m) /\ vx (ra m) + vy (rb m) + vz (rc m) = -1 /\
  (vx (ra m) + 1) * (vy (rb m) + 1) = vy (ra m) * vy (ra m) /\
  (vx (ra m) + 1) * (vz (rc m) + 1) = vz (ra m) * vz (ra m) /\
  (vy (rb m) + 1) * (vz (rc m) + 1) = vz (rb m) * vz (rb m).
Proof.
  intros H A. destruct (angle_pi m H A) as [T V]. pose proof (rotation_cof m H) as C. destruct H as [O _].
  destruct m as [[a b c] [d e f] [g h i]]. unfold v0 in V. unfold cof in C. cvin V. cvin T. cvin C. cvin O.
  injection V as v1 v2 v3. injection C as c1 c2 c3 c4 c5 c6 c7 c8 c9. injection O as r1 r2 r3 r4 r5 r6 r7 r8 r9. cbn.
  assert (h = f) by lra. assert (c = g) by lra. assert (d = b) by lra. subst h c d.
  repeat split; nra.
Qed.

Lemma sqrt_half a b x : -1 <= a -> -1 <= b -> (a + 1) * (b + 1) = x * x -> 2 * (sqrt ((a + 1) / 2) * sqrt ((b + 1) / 2)) = Rabs x.
Proof.
  intros A B E. rewrite <- sqrt_mult by lra. replace ((a + 1) / 2 * ((b + 1) / 2)) with (Rsqr (x / 2)).
  - rewrite sqrt_Rsqr_abs. unfold Rdiv. rewrite Rabs_mult, (Rabs_right (/ 2)) by lra. field.
  - unfold Rsqr. lra.
Qed.

(** A half turn is recovered exactly when the off diagonal coefficients are not negative. *)
Lemma log_half_turn m theta r : rotation m -> logSO3 m = (theta, r) -> theta = PI ->
  norm r = PI /\ (turns_to r m <-> 0 <= vy (ra m) /\ 0 <= vz (ra m) /\ 0 <= vz (rb m)).
Proof.
  intros H E T. assert (A : angle m = PI).
  { unfold logSO3 in E. destruct (Rlt_dec (angle m) (PI - / 100)); injection E as E _; congruence. }
  rewrite (log_pi m H A) in E. injection E as _ <-.
  destruct (half_turn m H A) as (s1 & s2 & s3 & d1 & d2 & d3 & t & p1 & p2 & p3).
  set (w := V3 (sqrt ((vx (ra m) + 1) / 2)) (sqrt ((vy (rb m) + 1) / 2)) (sqrt ((vz (rc m) + 1) / 2))).
  assert (U : vdot w w = 1).
  { unfold w, vdot. cbn [vx vy vz]. rewrite !sqrt_sqrt by lra. lra. }
  assert (B : about w (- PI) = M3 (V3 (vx (ra m)) (Rabs (vy (ra m))) (Rabs (vz (ra m))))
                                (V3 (Rabs (vy (ra m))) (vy (rb m)) (Rabs (vz (rb m))))
                                (V3 (Rabs (vz (ra m))) (Rabs (vz (rb m))) (vz (rc m)))).
  { unfold about. rewrite cos_neg, sin_neg, cos_PI, sin_PI.
    rewrite <- (sqrt_half _ _ _ d1 d2 p1), <- (sqrt_half _ _ _ d1 d3 p2), <- (sqrt_half _ _ _ d2 d3 p3).
    pose proof (sqrt_sqrt ((vx (ra m) + 1) / 2) ltac:(lra)) as q1. pose proof (sqrt_sqrt ((vy (rb m) + 1) / 2) ltac:(lra)) as q2.
    pose proof (sqrt_sqrt ((vz (rc m) + 1) / 2) ltac:(lra)) as q3.
    unfold w. clear w U A H T. destruct m as [[a b c] [d e f] [g h i]]. cbn [ra rb rc vx vy vz] in *. cv. f_equal; f_equal; lra. }
  assert (N : norm (vscale (- PI) w) = PI).
  { assert (K : vscale (- PI) w = vscale PI (vopp w)) by (destruct w; cv; f_equal; ring).
    rewrite K. pose proof pi_big. apply norm_scale; [lra|]. rewrite <- U. destruct w; cv; ring. }
  split; [exact N|]. split.
  - intros X. apply (turns_unique w (- PI) m U) in X. rewrite B in X.
    assert (X1 := f_equal (fun m => vy (ra m)) X). assert (X2 := f_equal (fun m => vz (ra m)) X). assert (X3 := f_equal (fun m => vz (rb m)) X).
    cbn in X1, X2, X3. rewrite X1, X2, X3. repeat split; apply Rabs_pos.
  - intros (x1 & x2 & x3). assert (Y : m = about w (- PI)).
    { rewrite B, !Rabs_right by lra. apply m3_eq; apply v3_eq; cbn; congruence. }
    clearbody w. rewrite Y. now apply about_turns.
Qed.
