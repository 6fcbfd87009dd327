From Coq Require Import Reals Lra Ranalysis1 Ratan.
From Verif Require Import Geo GeoLemmas Rigid LogModel LogSpec RotProofs LogProofs.
Local Open Scope R_scope.

Lemma pi_big : 3 < PI.
Proof. pose proof PI2_3_2. lra. Qed.

(** * The branch near pi computes the same vector *)
Lemma root_sq x : root (x * x) = Rabs x.
Proof.
  unfold root. destruct (Rlt_dec 0 (x * x)).
  - replace (x * x) with (Rsqr x) by reflexivity. apply sqrt_Rsqr_abs.
  - assert (x = 0) by nra. subst. now rewrite Rabs_R0.
Qed.
Lemma sgn_root a b k x : 0 < k -> a - b = k * x -> forall th, 0 <= th -> sgn a b * root (th * th * (x * x)) = th * x.
Proof.
  intros K E th T. replace (th * th * (x * x)) with ((th * x) * (th * x)) by ring. rewrite root_sq.
  unfold sgn. destruct (Rlt_dec b a).
  - assert (0 < x) by nra. rewrite Rabs_right; [ring|]. apply Rle_ge, Rmult_le_pos; lra.
  - assert (x <= 0) by nra. rewrite Rabs_left1; [ring|]. nra.
Qed.

Lemma log_mid m : rotation m -> / 1000000 < angle m < PI ->
  logSO3 m = (angle m, vscale (angle m / sin (angle m) / 2) (vee m)).
Proof.
  intros H B. assert (B' : 0 < angle m < PI) by lra. unfold logSO3.
  destruct (Rlt_dec (angle m) (PI - / 100)) as [L|L].
  - destruct (Rlt_dec (/ 1000000) (angle m)); [reflexivity|lra].
  - destruct (axis m H B') as (u & U & V & M).
    pose proof (sin_gt_0 _ (proj1 B') (proj2 B')) as S.
    replace (cos (angle m - PI)) with (- cos (angle m)) by (rewrite cos_minus, cos_PI, sin_PI; ring).
    set (th := angle m) in *.
    assert (C : 0 < 1 - cos th). { pose proof (sin2_cos2 th) as Q. unfold Rsqr in Q. destruct (COS_bound th). nra. }
    f_equal.
    assert (D : forall x, (cos th * 1 + (1 - cos th) * (x * x) + sin th * 0 + - cos th) * (th * th / (1 + - cos th)) = th * th * (x * x)).
    { intros x. field. lra. }
    assert (W : vscale (th / sin th / 2) (vee m) = vscale th u).
    { rewrite V. destruct u; cv; f_equal; field; lra. }
    rewrite W. clear W. destruct u as [x y z].
    unfold vee in V. injection V as v1 v2 v3. cbn [vx vy vz] in v1, v2, v3.
    assert (R0 : vx (ra m) = cos th * 1 + (1 - cos th) * (x * x) + sin th * 0) by (rewrite M; reflexivity).
    assert (R1 : vy (rb m) = cos th * 1 + (1 - cos th) * (y * y) + sin th * 0) by (rewrite M; reflexivity).
    assert (R2 : vz (rc m) = cos th * 1 + (1 - cos th) * (z * z) + sin th * 0) by (rewrite M; reflexivity).
    rewrite R0, R1, R2, !D. unfold vscale. cbn [vx vy vz].
    rewrite (sgn_root _ _ (2 * sin th) x), (sgn_root _ _ (2 * sin th) y), (sgn_root _ _ (2 * sin th) z); try lra; reflexivity.
Qed.

Lemma mid_axis m : rotation m -> 0 < angle m < PI ->
  exists u, vdot u u = 1 /\ vee m = vscale (2 * sin (angle m)) u /\ m = about u (angle m) /\
    vscale (angle m / sin (angle m) / 2) (vee m) = vscale (angle m) u.
Proof.
  intros H B. destruct (axis m H B) as (u & U & V & M). exists u. split; [exact U|split; [exact V|split; [exact M|]]].
  pose proof (sin_gt_0 _ (proj1 B) (proj2 B)). rewrite V. destruct u; cv; f_equal; field; lra.
Qed.

Lemma norm_scale th u : 0 <= th -> vdot u u = 1 -> norm (vscale th u) = th.
Proof.
  intros T U. unfold norm. replace (vdot (vscale th u) (vscale th u)) with (Rsqr th).
  - now apply sqrt_Rsqr.
  - unfold Rsqr. transitivity (th * th * vdot u u); [rewrite U; ring|]. destruct u; cv; ring.
Qed.

(** exactly the identity *)
Lemma angle_0 m : rotation m -> angle m = 0 -> m = m1.
Proof.
  intros H A. pose proof (cos_angle m H) as C. rewrite A, cos_0 in C. assert (T : trace m = 3) by lra.
  pose proof (vee_norm m H) as N. rewrite T in N.
  pose proof (rotation_mtr_l m H) as L. destruct H as [O _].
  destruct m as [[a b c] [d e f] [g h i]]. cvin T. cvin O. cvin L. injection O as r1 r2 r3 r4 r5 r6 r7 r8 r9. 
  assert (a <= 1) by nra. assert (e <= 1) by nra. assert (i <= 1) by nra.
  assert (a = 1) by lra. assert (e = 1) by lra. assert (i = 1) by lra. subst a e i.
  assert (b = 0) by nra. assert (c = 0) by nra. assert (d = 0) by nra. assert (f = 0) by nra. assert (g = 0) by nra. assert (h = 0) by nra.
  subst. reflexivity.
Qed.

Lemma log_right m theta r : rotation m -> logSO3 m = (theta, r) -> / 1000000 < theta < PI \/ theta = 0 ->
  0 <= theta /\ norm r = theta /\ turns_to r m.
Proof.
  intros H E B. assert (T : theta = angle m).
  { unfold logSO3 in E. destruct (Rlt_dec (angle m) (PI - / 100)); injection E as <- _; reflexivity. }
  subst theta. destruct B as [B|B].
  - rewrite (log_mid m H B) in E. injection E as <-. assert (B' : 0 < angle m < PI) by lra.
    destruct (mid_axis m H B') as (u & U & _ & M & W). rewrite W. split; [lra|]. split.
    + apply norm_scale; lra.
    + rewrite M at 2. now apply about_turns.
  - pose proof (angle_0 m H B) as I. split; [lra|].
    unfold logSO3 in E. rewrite B in E. pose proof pi_big. destruct (Rlt_dec 0 (PI - / 100)) as [L|L]; [|lra].
    destruct (Rlt_dec (/ 1000000) 0); [lra|]. injection E as <-. subst m.
    assert (Z : vscale (1 / 2) (vee m1) = vscale 0 (V3 1 0 0)) by (cv; f_equal; ring).
    assert (A : about (V3 1 0 0) 0 = m1) by apply about_0.
    rewrite B, Z. split.
    + apply norm_scale; [lra|cv; ring].
    + rewrite <- A. apply about_turns. cv; ring.
Qed.

(** small rotations: the vector returned is the logarithm shortened *)
Lemma log_small m theta r : rotation m -> logSO3 m = (theta, r) -> 0 < theta <= / 1000000 ->
  exists r0, turns_to r0 m /\ norm r0 = theta /\ r = vscale (sin theta / theta) r0.
Proof.
  intros H E B. assert (T : theta = angle m).
  { unfold logSO3 in E. destruct (Rlt_dec (angle m) (PI - / 100)); injection E as <- _; reflexivity. }
  subst theta. pose proof pi_big. assert (B' : 0 < angle m < PI) by lra.
  destruct (mid_axis m H B') as (u & U & V & M & W).
  unfold logSO3 in E. destruct (Rlt_dec (angle m) (PI - / 100)) as [L|L]; [|lra].
  destruct (Rlt_dec (/ 1000000) (angle m)); [lra|]. injection E as <-.
  exists (vscale (angle m) u). split; [|split].
  - rewrite M at 2. now apply about_turns.
  - apply norm_scale; lra.
  - rewrite V. destruct u; cv; f_equal; field; lra.
Qed.

(** * There is only one place to be at time 1 *)
Lemma const_of_zero f : (forall t, deriv f t 0) -> f 1 = f 0.
Proof.
  intros D. assert (pr : derivable f) by (intros t; exists 0; apply D).
  destruct (MVT_cor1 f 0 1 pr ltac:(lra)) as (c & Hc & _).
  assert (Z : derive_pt f c (pr c) = 0) by (apply derive_pt_eq_0, D). rewrite Z in Hc. lra.
Qed.
Lemma const_of_zero_m (F : R -> m3) : (forall t, mderiv F t m0) -> F 1 = F 0.
Proof.
  intros D. apply m3_eq; apply v3_eq; apply (const_of_zero (fun t => _ (_ (F t)))); intros t;
    destruct (D t) as ((? & ? & ?) & (? & ? & ?) & (? & ? & ?)); assumption.
Qed.
Lemma about_opp_deriv u th t : vdot u u = 1 -> mderiv (fun s => about u (s * - th)) t (mopp (mul (cross_matrix (vscale th u)) (about u (t * - th)))).
Proof.
  intros U. eapply mderiv_eq; [|apply about_deriv, U].
  unfold about. destruct u; cv. f_equal; f_equal; ring.
Qed.
Lemma about_inv u th : vdot u u = 1 -> mul (about u (- th)) (about u th) = m1.
Proof.
  intros U. unfold about. rewrite cos_neg, sin_neg. pose proof (sin2_cos2 th) as Q. unfold Rsqr in Q.
  set (s := sin th) in *. set (c := cos th) in *. clearbody s c. destruct u as [x y z]. cvin U. cv.
  assert (X : x * x = 1 - y * y - z * z) by lra.
  f_equal; f_equal.
  all: match goal with |- ?a = ?b => enough (a - b = 0) by lra end.
  Local Ltac kill x y z s c X Q := 
    match goal with |- ?e = 0 => 
      let e' := fresh in assert (e' : s * s = 1 - c * c) by lra;
      ring_simplify; try (replace (x ^ 4) with ((x * x) * (x * x)) by ring); try (replace (x ^ 3) with ((x * x) * x) by ring); replace (x ^ 2) with (x * x) by ring; replace (s ^ 2) with (s * s) by ring; rewrite ?X, ?e'; ring end.
  all: kill x y z s c X Q.
Qed.
