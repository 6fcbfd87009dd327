(** One contact whose normal turns in a vertical plane: the force is the cosine of the angle,
    the value its squared sine. *)
From Coq Require Import Reals Lra Lia List.
From Verif Require Import Geo GeoLemmas Rigid QPModel QPSpec QPProofs.
Import ListNotations.
Local Open Scope R_scope.

Definition tilt (s : R) : list twist := [Tw (V3 0 (sin s) (cos s)) v0].
Definition dtilt (s : R) : list (list twist) := [[Tw (V3 0 (cos s) (- sin s)) v0]].
(** exact solution of a problem with one force *)
Definition qp1 (H : list (list R)) (G : list R) : list R * R :=
  match H, G with
  | [[h]], [g] => let x := if Rlt_dec 0 h then Rmax 0 (- g / h) else 0 in ([x], / 2 * (x * (h * x)) + g * x)
  | _, _ => ([], 0) end.
Lemma tilt_H s : hessian (tilt s) = [[1]].
Proof. unfold hessian, tilt, tdot, vdot, v0. cbn. do 2 f_equal. pose proof (sin2_cos2 s). unfold Rsqr in H. lra. Qed.
Lemma tilt_G s : gradient (tilt s) = [- cos s].
Proof. unfold gradient, tilt, tdot, vdot, v0, gravity. cbn. f_equal. ring. Qed.
Lemma qp1_E c : qp1 [[1]] [- c] = ([Rmax 0 c], / 2 * (Rmax 0 c * (1 * Rmax 0 c)) + - c * Rmax 0 c).
Proof. unfold qp1. destruct (Rlt_dec 0 1); [|lra]. replace (- - c / 1) with c by field. reflexivity. Qed.
Lemma tilt_solves s : qp_solves qp1 (tilt s).
Proof.
  unfold qp_solves. rewrite tilt_H, tilt_G, qp1_E. split; [split; [reflexivity|constructor; [apply Rmax_l|constructor]]|].
  split; [unfold objective; cbn; ring|]. intros F' [L N]. destruct F' as [|x [|? ?]]; try discriminate L. inversion_clear N.
  unfold objective. cbn. unfold Rmax. pose proof (Rle_0_sqr (x - cos s)) as Sq. unfold Rsqr in Sq. destruct (Rle_dec 0 (cos s)) as [P|P]; [lra|].
  assert (0 <= - cos s * x) by (apply Rmult_le_pos; lra). pose proof (Rle_0_sqr x) as S2. unfold Rsqr in S2. lra.
Qed.
Lemma tilt_value st s : snd (qp_compute R tilt qp1 st s) = 1 - Rmax 0 (cos s) * Rmax 0 (cos s).
Proof.
  unfold qp_compute, solveQP. cbn [snd pval]. rewrite tilt_H, tilt_G, qp1_E. cbn [snd].
  unfold tdot, vdot, minus_gravity, v0. cbn. unfold Rmax. destruct (Rle_dec 0 (cos s)); lra.
Qed.
Lemma tilt_moves t : columns_move tilt dtilt (fun s => s) t [1].
Proof.
  split; [reflexivity|]. intros [|i] Hi; [|cbn in Hi; lia]. split; [reflexivity|].
  repeat split; cbn; try (eapply deriv_eq; [|apply deriv_const]; ring).
  - eapply deriv_eq; [|apply derivable_pt_lim_sin]. ring.
  - eapply deriv_eq; [|apply derivable_pt_lim_cos]. ring.
Qed.
Lemma cos_small t : Rabs t < 1 -> 0 < cos t.
Proof. intros H. pose proof PI_RGT_0. pose proof PI2_3_2. apply Rabs_def2 in H. apply cos_gt_0; unfold PI2 in *; lra. Qed.
Lemma tilt_deriv st t : Rabs t < 1 -> deriv (fun s => snd (qp_compute R tilt qp1 st s)) t (2 * (sin t * cos t)).
Proof.
  intros Ht. assert (E : 0 < 1 - Rabs t) by lra.
  assert (L : deriv (fun s => 1 - cos s * cos s) t (2 * (sin t * cos t))).
  { eapply deriv_eq; [|apply deriv_sub; [apply deriv_const|apply deriv_mul; apply derivable_pt_lim_cos]]. ring. }
  intros eps He. destruct (L eps He) as [dl Hd]. assert (P : 0 < Rmin dl (1 - Rabs t)) by (apply Rmin_glb_lt; [apply cond_pos|exact E]).
  exists (mkposreal _ P). intros h Hh Hs. cbn in Hs. rewrite !tilt_value.
  assert (A1 : Rabs h < dl) by (eapply Rlt_le_trans; [exact Hs|apply Rmin_l]).
  assert (A2 : Rabs h < 1 - Rabs t) by (eapply Rlt_le_trans; [exact Hs|apply Rmin_r]).
  assert (B : Rabs (t + h) < 1) by (pose proof (Rabs_triang t h); lra).
  rewrite !Rmax_right by (apply Rlt_le, cos_small; assumption). apply (Hd h Hh A1).
Qed.
(** Jacobian after the value in the same configuration, and after a value elsewhere *)
Lemma tilt_jac l t s0 : last_value R l = Some s0 -> Rabs s0 < 1 -> Rabs t < 1 ->
  qp_jacobian R dtilt qp1 (qp_run R tilt qp1 1 l) 1 t = [cos s0 * (cos s0 * sin s0 * cos t - (cos s0 * cos s0 - 1) * sin t)].
Proof.
  intros Lv H0 Ht. assert (Pv : pval (qp_run R tilt qp1 1 l) = tilt s0) by (rewrite run_keeps, Lv; reflexivity).
  assert (S : fst (solveQP qp1 (qp_run R tilt qp1 1 l)) = [cos s0]).
  { unfold solveQP. rewrite Pv, tilt_H, tilt_G, qp1_E. cbn. rewrite Rmax_right by (apply Rlt_le, cos_small; assumption). reflexivity. }
  rewrite (jac_half _ _ _ _ _ _ _ S) by reflexivity. rewrite Pv. cbn. f_equal. unfold tdot, vdot. cbn. ring.
Qed.

(** the value is the squared sine, zero exactly where the normal is vertical *)
Example tilt_sin : snd (qp_compute R tilt qp1 (qp_create 1) (1 / 2)) = sin (1 / 2) * sin (1 / 2) /\ balanced (tilt 0) /\ ~ balanced (tilt (1 / 2)).
Proof.
  assert (C : 0 < cos (1 / 2)) by (apply cos_small; rewrite Rabs_right; lra).
  assert (V : snd (qp_compute R tilt qp1 (qp_create 1) (1 / 2)) = sin (1 / 2) * sin (1 / 2)).
  { rewrite tilt_value, Rmax_right by lra. pose proof (sin2_cos2 (1 / 2)) as S. unfold Rsqr in S. lra. }
  split; [exact V|]. split.
  - exists [1]. split; [split; [reflexivity|constructor; [lra|constructor]]|]. unfold tilt. rewrite sin_0, cos_0. cbv [japp minus_gravity tadd tscale vadd vscale t0 v0 lin ang vx vy vz]. f_equal; f_equal; ring.
  - intros B. destruct (value_right qp1 R tilt (qp_create 1) (1 / 2) (tilt_solves _)) as (_ & _ & _ & _ & Z). specialize (Z B). rewrite V in Z.
    assert (0 < sin (1 / 2)) by (apply sin_gt_0; pose proof PI2_3_2; unfold PI2 in *; lra). nra.
Qed.
(** the hypotheses on the Jacobian hold *)
Example tilt_hypotheses : columns_move tilt dtilt (fun s => s) (1 / 2) [1] /\ (forall s, qp_solves qp1 (tilt s)) /\
  last_value R [QValue _ 0; QValue _ (1 / 2); QJacobian _ 3] = Some (1 / 2) /\
  forall st, deriv (fun s => snd (qp_compute R tilt qp1 st s)) (1 / 2) (2 * (sin (1 / 2) * cos (1 / 2))).
Proof.
  split; [apply tilt_moves|]. split; [apply tilt_solves|]. split; [reflexivity|]. intros st. apply tilt_deriv. rewrite Rabs_right; lra.
Qed.
Lemma not_the_derivative : exists d, (forall st, deriv (fun s => snd (qp_compute R tilt qp1 st s)) (1 / 2) d) /\ rapp (qp_jacobian R dtilt qp1 (qp_run R tilt qp1 1 [QValue _ (1 / 2)]) 1 (1 / 2)) [1] <> d.
Proof.
  assert (H : Rabs (1 / 2) < 1) by (rewrite Rabs_right; lra).
  exists (2 * (sin (1 / 2) * cos (1 / 2))). split; [intros; now apply tilt_deriv|].
  rewrite (tilt_jac _ _ (1 / 2)) by (try exact H; reflexivity). cbn [rapp].
  assert (0 < cos (1 / 2)) by now apply cos_small.
  assert (0 < sin (1 / 2)) by (apply sin_gt_0; pose proof PI2_3_2; unfold PI2 in *; lra).
  pose proof (sin2_cos2 (1 / 2)) as S. unfold Rsqr in S. intros E.
  assert (cos (1 / 2) * sin (1 / 2) = 2 * (sin (1 / 2) * cos (1 / 2))) by (rewrite <- E; ring). nra.
Qed.
Lemma stale_jacobian : exists d, (forall st, deriv (fun s => snd (qp_compute R tilt qp1 st s)) (1 / 2) d) /\ d <> 0 /\
  rapp (qp_jacobian R dtilt qp1 (qp_run R tilt qp1 1 [QValue _ 0]) 1 (1 / 2)) [1] = 0.
Proof.
  assert (H : Rabs (1 / 2) < 1) by (rewrite Rabs_right; lra).
  exists (2 * (sin (1 / 2) * cos (1 / 2))). split; [intros; now apply tilt_deriv|].
  assert (0 < cos (1 / 2)) by now apply cos_small.
  assert (0 < sin (1 / 2)) by (apply sin_gt_0; pose proof PI2_3_2; unfold PI2 in *; lra). split; [nra|].
  rewrite (tilt_jac _ _ 0) by (try exact H; try reflexivity; rewrite Rabs_R0; lra). cbn [rapp]. rewrite sin_0, cos_0. ring.
Qed.
