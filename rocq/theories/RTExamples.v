From Coq Require Import Reals Lra Lia List Bool Arith ZArith.
From Verif Require Import Geo GeoLemmas Rigid RigidExamples SegModel ViewModel LogModel LogSpec RotProofs LogProofs LogMain LogPi LogDeriv LogSE3 LogExamples DistModel DistProofs GTModel GTSpec GTProofs GTJac GTDeriv GTExamples SE3Proofs RTModel RTSpec RTProofs.
Import ListNotations.
Local Open Scope R_scope.

(** the exponential of SE(3) *)
Definition exp_fun (T : twist) : se3 :=
  let th := norm (ang T) in
  if Req_EM_T th 0 then SE3 m1 (lin T)
  else let u := vscale (/ th) (ang T) in SE3 (about u th) (travel u (lin T) th 1).
Lemma norm_0 v : norm v = 0 -> v = v0.
Proof.
  unfold norm. intros H. destruct v as [x y z]. cvin H.
  assert (P : 0 <= x * x + y * y + z * z) by nra. apply sqrt_eq_0 in H; [|exact P]. unfold v0. f_equal; nra.
Qed.
Lemma norm_pos v : 0 <= norm v.
Proof. apply sqrt_pos. Qed.
Lemma unit_axis w : norm w <> 0 -> vdot (vscale (/ norm w) w) (vscale (/ norm w) w) = 1 /\ vscale (norm w) (vscale (/ norm w) w) = w.
Proof.
  intros N. assert (S : norm w * norm w = vdot w w) by (unfold norm; apply sqrt_sqrt; destruct w as [x y z]; cv; nra).
  split; [|destruct w as [x y z]; unfold vscale; cbn [vx vy vz]; f_equal; field; exact N].
  transitivity (vdot w w / (norm w * norm w)); [destruct w as [x y z]; unfold vdot, vscale; cbn [vx vy vz]; field; exact N|rewrite <- S; field; exact N].
Qed.
Lemma exp_screws T : screws_to T (exp_fun T).
Proof.
  unfold exp_fun. destruct (Req_EM_T (norm (ang T)) 0) as [Z|N].
  - apply norm_0 in Z. exists (fun s => SE3 m1 (vscale s (lin T))). destruct T as [v w]. cbn [lin ang] in *. subst w. split; [|split].
    + unfold sid. f_equal. destruct v; cv; f_equal; ring.
    + intros t. split; cbn [rot tra lin ang].
      * eapply mderiv_eq; [|apply mderiv_const]. cv. f_equal; f_equal; ring.
      * eapply vderiv_eq; [|apply (vderiv_scale_fun (fun s => s) (fun _ => v) t 1 v0 (derivable_pt_lim_id t) (vderiv_const _ t))]. destruct v; cv; f_equal; ring.
    + f_equal. destruct v; cv; f_equal; ring.
  - destruct T as [v w]. cbn [lin ang] in *. destruct (unit_axis w N) as [U W]. set (u := vscale (/ norm w) w) in *. set (th := norm w) in *.
    assert (P : 0 < th) by (pose proof (norm_pos w); fold th in H; lra). clearbody u th.
    exists (fun s => SE3 (about u (s * th)) (travel u v th s)). split; [|split].
    + unfold sid. rewrite Rmult_0_l, about_0. f_equal. unfold travel. rewrite Rmult_0_l, sin_0, cos_0. destruct u, v; cv; unfold Rdiv; f_equal; ring.
    + intros t. split; cbn [rot tra lin ang]; [rewrite <- W; apply about_deriv, U|apply travel_deriv, P].
    + now rewrite Rmult_1_l.
Qed.

(** right hand side: rotation by 1 about the vertical axis and a translation *)
Definition rhs_ex : se3 := SE3 (rotz 1) (V3 1 2 3).
Definition f_ex : rtf := rt_create None (Some 2%nat) (SE3 m1 (V3 0 0 1)) (SE3 m1 (V3 1 0 0)) (SE3 m1 (V3 0 1 0)) [(0%Z, 1%Z)].
Lemma rotz_about a : rotz a = about ez a.
Proof. unfold rotz, about, ez. cv. f_equal; f_equal; ring. Qed.
Lemma exp_log_z p : exp_fun (logSE3 (SE3 (rotz 1) p)) = SE3 (rotz 1) p.
Proof.
  assert (P := PI_4). assert (Q := PI2_1). unfold PI2 in Q.
  assert (A : angle (rotz 1) = 1) by (apply rotz_angle; lra).
  assert (L : logSE3 (SE3 (rotz 1) p) = Tw (linpart (1 * sin 1 / (2 * (1 - cos 1))) (1 / (1 * 1) - sin 1 / (2 * 1 * (1 - cos 1))) (vscale 1 ez) p) (vscale 1 ez)).
  { transitivity (Tw (lin (logSE3 (SE3 (rotz 1) p))) (ang (logSE3 (SE3 (rotz 1) p)))); [now destruct (logSE3 _)|].
    rewrite logSE3_lin, logSE3_ang. cbn [rot tra]. rewrite rotz_log, A by lra. cbn [snd]. unfold se3_alpha, se3_beta. rewrite Rabs_right by lra.
    destruct (Rlt_dec 1 (/ 100)); [lra|]. assert (E : V3 0 0 1 = vscale 1 ez) by (unfold ez; cv; f_equal; ring). now rewrite <- E. }
  rewrite L. set (v := linpart _ _ _ _). unfold exp_fun. cbn [ang lin].
  assert (U : vdot ez ez = 1) by (unfold ez; cv; lra).
  rewrite (norm_scale 1 ez) by (lra || exact U). destruct (Req_EM_T 1 0); [lra|].
  assert (E : vscale (/ 1) (vscale 1 ez) = ez) by (unfold ez; cv; f_equal; field). rewrite E. unfold v. rewrite travel_end by (lra || exact U).
  now rewrite rotz_about.
Qed.
Lemma f_ex_frames : good_frames f_ex.
Proof. split; [|split]; exact m1_rotation. Qed.
Lemma case_rhs : good_frames f_ex /\ rotation (rot rhs_ex) /\ log_inverted exp_fun logSE3 f_ex rhs_ex.
Proof.
  split; [exact f_ex_frames|]. split; [apply rotz_rotation|]. unfold log_inverted, f_ex, rhs_ex, rt_create. cbn [r_F2].
  assert (E : exists p, comp (comp (SE3 m1 (V3 0 1 0)) (SE3 (rotz 1) (V3 1 2 3))) (sinv (SE3 m1 (V3 0 1 0))) = SE3 (rotz 1) p).
  { eexists. unfold comp at 1. f_equal. cbn [rot sinv]. cbn [comp rot]. rewrite mtr1, mul1m, mulm1. reflexivity. }
  destruct E as [p ->]. apply exp_log_z.
Qed.
Lemma case_moves : input_moves f_ex (r_j1 f_ex) K_ex 1 [1].
Proof. exact K_moves2. Qed.

(** with a parent joint that translates, without rotation: the linear rows are wrong *)
Definition slide (s : R) : se3 := SE3 (rotz 1) (V3 s 0 0).
Definition K_sl (s : R) : kins := Kins (fun _ => slide s) (fun _ => [Tw (mulv (mtr (rotz 1)) ex) v0]).
Lemma slide_moves t : moves slide t (Tw (mulv (mtr (rotz 1)) ex) v0).
Proof.
  split; cbn [slide rot tra lin ang].
  - eapply mderiv_eq; [|exact (mderiv_const (rotz 1) t)]. generalize (rotz 1). geo.
  - rewrite rotation_inv_r by apply rotz_rotation. split; [|split]; cbn; try apply deriv_const. apply derivable_pt_lim_id.
Qed.
Definition f_par : rtf := rt_create (Some 1%nat) None sid sid sid [(0%Z, 1%Z)].
Definition f_nop : rtf := rt_create None (Some 1%nat) sid sid sid [(0%Z, 1%Z)].
Lemma cos1_lt : cos 1 < 1.
Proof. assert (P := PI2_1). replace (cos 1 < 1) with (cos 1 < cos 0) by (now rewrite cos_0). apply cos_decreasing_1; lra. Qed.
Lemma cos1_gt : 0 < cos 1.
Proof. assert (P := PI2_1); unfold PI2 in P. apply cos_gt_0; lra. Qed.
Lemma sl_moves f : r_in f = [(0%Z, 1%Z)] -> forall t, input_moves f (Some 1%nat) K_sl t [1].
Proof. intros E t. split; [intros; apply rotz_rotation|]. rewrite E. unfold vread. cbn [flat_map map seq Z.to_nat Pos.to_nat Pos.iter_op snd fst app]. cbn. exact (eq_ind_r (fun x => moves slide t x) (slide_moves t) (japp1 _)). Qed.
Lemma parent_linear_refuted : exists f K t d T, good_frames f /\ input_moves f (r_j1 f) K t d /\ input_moves f (has_parent f) K t d /\
  r_C f = comp (r_F1 f) (sinv (r_F2 f)) /\
  moves (fun s => rt_value f (K s)) t T /\ ang T = v0 /\ lin (japp (rt_jacobian f (K t)) d) <> lin T.
Proof.
  exists f_par, K_sl, 1, [1], (Tw (V3 (- 1) 0 0) v0).
  split; [split; [|split]; exact m1_rotation|]. split; [exact I|]. split; [apply sl_moves; reflexivity|]. split; [reflexivity|].
  split; [|split; [reflexivity|]].
  - assert (V : forall s, rt_value f_par (K_sl s) = sinv (slide s)).
    { intros s. rewrite rt_valueE; [|reflexivity|split; [|split]; exact m1_rotation|apply rotz_rotation].
      unfold f_par, rt_create, parent_place, place1. cbn [r_parent r_pos r_j1 r_F1 r_F2]. rewrite sinv_sid, !comp_sid_r. reflexivity. }
    eapply moves_ext; [intros s; symmetry; apply V|].
    eapply moves_eq; [|exact (moves_inv slide 1 _ (fun _ => rotz_rotation 1) (slide_moves 1))].
    unfold topp, adinv. cbn [lin ang sinv slide rot tra]. rewrite mtrK. f_equal.
    + rewrite mulv_add, rotation_inv_r by apply rotz_rotation. generalize (rotz 1). unfold ex. geo.
    + generalize (rotz 1). geo.
  - change (rt_jacobian f_par (K_sl 1)) with [rt_col f_par (K_sl 1) t0 (Tw (mulv (mtr (rotz 1)) ex) v0)]. rewrite japp1.
    unfold rt_col, f_par, rt_create, K_sl, slide, sid, skewm. cbn [has_parent r_parent r_j1 r_pos r_C rot tra place lin ang].
    intros E. assert (X := f_equal vx E). clear E. revert X. unfold rotz, ex. cbn -[cos sin]. pose proof cos1_lt. pose proof cos1_gt.
    assert (S := sin2_cos2 1). unfold Rsqr in S. unfold vdot, vsub, vopp, v0. cbn -[cos sin]. intros X. set (c := cos 1) in *. set (n := sin 1) in *. clearbody c n. cbv [mulv mtr mul m1 vdot cross_matrix vx vy vz ra rb rc] in X. assert (Y : c * c - n * n = 1) by lra. nra.
Qed.
(** for a joint whose velocity is that of R^3 x SO(3), the linear rows should be the derivative
    of the translation *)
Lemma r3xso3_refuted : exists f K t d v, good_frames f /\ has_parent f = None /\ input_moves f (r_j1 f) K t d /\
  r_C f = comp (r_F1 f) (sinv (r_F2 f)) /\
  vderiv (fun s => tra (rt_value f (K s))) t v /\ lin (japp (rt_jacobian f (K t)) d) <> v.
Proof.
  exists f_nop, K_sl, 1, [1], ex.
  split; [split; [|split]; exact m1_rotation|]. split; [reflexivity|]. split; [apply sl_moves; reflexivity|]. split; [reflexivity|].
  assert (V : forall s, rt_value f_nop (K_sl s) = slide s).
  { intros s. rewrite rt_valueE; [|reflexivity|split; [|split]; exact m1_rotation|exact m1_rotation].
    unfold f_nop, rt_create, parent_place, place1. cbn [r_parent r_pos r_j1 r_F1 r_F2]. rewrite !comp_sid_r, sinv_sid, !comp_sid_r, comp_sid_l. reflexivity. }
  split.
  - eapply vderiv_ext; [intros s; now rewrite V|]. destruct (slide_moves 1) as [_ D]. cbn [lin] in D. cbn [slide rot] in D. now rewrite rotation_inv_r in D by apply rotz_rotation.
  - assert (M := rt_jac_free f_nop K_sl 1 [1] eq_refl). specialize (M ltac:(split; [|split]; exact m1_rotation) eq_refl (sl_moves f_nop eq_refl 1)).
    apply (moves_ext _ slide) in M; [|exact V]. assert (E := moves_unique slide 1 _ _ (rotz_rotation 1) M (slide_moves 1)). rewrite E. cbn [lin].
    intros X. apply (f_equal vx) in X. unfold rotz, ex in X. cbn -[cos sin] in X. pose proof cos1_lt. cbv [mulv mtr vdot vx vy vz ra rb rc] in X. lra.
Qed.
(** a parent that turns *)
Definition f_tp : rtf := rt_create (Some 2%nat) (Some 1%nat) sid sid sid [(0%Z, 1%Z)].
Lemma case_parent : good_frames f_tp /\ has_parent f_tp = Some 2%nat /\ input_moves f_tp (r_j1 f_tp) K_ex 1 [1] /\ input_moves f_tp (Some 2%nat) K_ex 1 [1].
Proof. split; [split; [|split]; exact m1_rotation|]. split; [reflexivity|]. split; [exact K_moves1|exact K_moves2]. Qed.
