From Coq Require Import Reals Lra Ranalysis1 Ratan.
From Verif Require Import Geo GeoLemmas Rigid LogModel LogSpec RotProofs LogProofs LogMain LogDeriv.
Local Open Scope R_scope.

Lemma log_fst m : fst (logSO3 m) = angle m.
Proof. unfold logSO3. destruct (Rlt_dec (angle m) (PI - / 100)); reflexivity. Qed.
Lemma logSE3_ang M : ang (logSE3 M) = snd (logSO3 (rot M)).
Proof. unfold logSE3. destruct (logSO3 (rot M)). reflexivity. Qed.
Definition linpart (a b : R) (r p : v3) : v3 := vadd (vsub (vscale a p) (vscale (/ 2) (mulv (cross_matrix r) p))) (vscale (b * vdot r p) r).
Lemma logSE3_lin M : lin (logSE3 M) = linpart (se3_alpha (angle (rot M))) (se3_beta (angle (rot M))) (snd (logSO3 (rot M))) (tra M).
Proof. unfold logSE3. rewrite <- log_fst. destruct (logSO3 (rot M)). reflexivity. Qed.

(** * The motion reaches the pose *)
Definition travel (u v : v3) (th t : R) : v3 :=
  vadd (vadd (vscale (sin (t * th) / th) v) (vscale ((t - sin (t * th) / th) * vdot u v) u)) (vscale ((1 - cos (t * th)) / th) (vcross u v)).
Lemma travel_deriv u v th t : 0 < th -> vderiv (travel u v th) t (mulv (about u (t * th)) v).
Proof.
  intros T.
  assert (I : deriv (fun s => s * th) t th).
  { eapply deriv_eq; [|apply (deriv_mul (fun s => s) (fun _ => th) t 1 0); [apply derivable_pt_lim_id|apply deriv_const]]. ring. }
  assert (C : deriv (fun s => cos (s * th)) t (- sin (t * th) * th)).
  { exact (derivable_pt_lim_comp (fun s => s * th) cos t _ _ I (derivable_pt_lim_cos _)). }
  assert (S : deriv (fun s => sin (s * th)) t (cos (t * th) * th)).
  { exact (derivable_pt_lim_comp (fun s => s * th) sin t _ _ I (derivable_pt_lim_sin _)). }
  assert (L : forall i k e, deriv (fun s => sin (s * th) / th * i + (s - sin (s * th) / th) * k + (1 - cos (s * th)) / th * e) t
                 (cos (t * th) * i + (1 - cos (t * th)) * k + sin (t * th) * e)).
  { intros i k e.
    assert (S' : deriv (fun s => sin (s * th) / th) t (cos (t * th))).
    { eapply deriv_eq; [|apply (deriv_mul _ (fun _ => / th) t _ 0 S (deriv_const _ t))]. field. lra. }
    assert (C' : deriv (fun s => (1 - cos (s * th)) / th) t (sin (t * th))).
    { eapply deriv_eq; [|apply (deriv_mul _ (fun _ => / th) t _ 0 (deriv_sub _ _ _ _ _ (deriv_const 1 t) C) (deriv_const _ t))]. field. lra. }
    eapply deriv_eq; [|apply deriv_add; [apply deriv_add|]].
    2:{ apply (deriv_mul _ (fun _ => i) t _ 0 S' (deriv_const i t)). }
    2:{ apply (deriv_mul _ (fun _ => k) t _ 0 (deriv_sub _ _ t _ _ (derivable_pt_lim_id t) S') (deriv_const k t)). }
    2:{ apply (deriv_mul _ (fun _ => e) t _ 0 C' (deriv_const e t)). }
    ring. }
  rewrite about_mulv. destruct u as [ux uy uz], v as [x y z]. unfold travel, vderiv. cv.
  split; [|split].
  - eapply deriv_eq; [|apply (deriv_ext (fun s => sin (s * th) / th * x + (s - sin (s * th) / th) * ((ux * x + uy * y + uz * z) * ux) + (1 - cos (s * th)) / th * (uy * z - uz * y))); [intros s; ring|apply L]]. ring.
  - eapply deriv_eq; [|apply (deriv_ext (fun s => sin (s * th) / th * y + (s - sin (s * th) / th) * ((ux * x + uy * y + uz * z) * uy) + (1 - cos (s * th)) / th * (uz * x - ux * z))); [intros s; ring|apply L]]. ring.
  - eapply deriv_eq; [|apply (deriv_ext (fun s => sin (s * th) / th * z + (s - sin (s * th) / th) * ((ux * x + uy * y + uz * z) * uz) + (1 - cos (s * th)) / th * (ux * y - uy * x))); [intros s; ring|apply L]]. ring.
Qed.
Lemma one_minus_cos th : 0 < th < PI -> 0 < 1 - cos th.
Proof. intros B. pose proof (sin_gt_0 _ (proj1 B) (proj2 B)). pose proof (sin2_cos2 th) as Q. unfold Rsqr in Q. destruct (COS_bound th). nra. Qed.

Lemma linpart_u a b th u p : vdot u u = 1 -> vdot u (linpart a b (vscale th u) p) = (a + b * th * th) * vdot u p.
Proof.
  intros U. transitivity (a * vdot u p + b * th * th * vdot u p * vdot u u).
  - unfold linpart. destruct u, p; cv; ring.
  - rewrite U. ring.
Qed.
Lemma cross_cross u p : vdot u u = 1 -> vcross u (vcross u p) = vsub (vscale (vdot u p) u) p.
Proof.
  intros U. transitivity (vsub (vscale (vdot u p) u) (vscale (vdot u u) p)).
  - destruct u, p; cv; f_equal; ring.
  - rewrite U. destruct p; cv; f_equal; ring.
Qed.
Lemma linpart_cross a b th u p : vdot u u = 1 ->
  vcross u (linpart a b (vscale th u) p) = vsub (vscale a (vcross u p)) (vscale (th / 2) (vsub (vscale (vdot u p) u) p)).
Proof.
  intros U. rewrite <- (cross_cross u p U). unfold linpart. destruct u, p; cv; f_equal; field.
Qed.
Lemma travel_end u p th : vdot u u = 1 -> 0 < th < PI ->
  travel u (linpart (th * sin th / (2 * (1 - cos th))) (1 / (th * th) - sin th / (2 * th * (1 - cos th))) (vscale th u) p) th 1 = p.
Proof.
  intros U B. pose proof (one_minus_cos th B) as C. pose proof (sin2_cos2 th) as Q. unfold Rsqr in Q.
  unfold travel. rewrite linpart_u, linpart_cross, Rmult_1_l by exact U.
  set (s := sin th) in *. set (c := cos th) in *.
  assert (X : th * s / (2 * (1 - c)) + (1 / (th * th) - s / (2 * th * (1 - c))) * th * th = 1) by (field; lra).
  rewrite X. clear X. unfold linpart.
  set (k := vdot u p). assert (K : vdot (vscale th u) p = th * k) by (unfold k; destruct u, p; cv; ring). rewrite K.
  assert (W : mulv (cross_matrix (vscale th u)) p = vscale th (vcross u p)) by (destruct u, p; cv; f_equal; ring). rewrite W.
  set (x := vcross u p). clearbody k x s c. destruct u as [ux uy uz], p as [px py pz], x as [xx xy xz]. 
  assert (S2 : s * s = (1 - c) * (1 + c)) by lra.
  assert (G : forall a e f, s / th * (th * s / (2 * (1 - c)) * a - / 2 * (th * e) + (1 / (th * th) - s / (2 * th * (1 - c))) * (th * k) * (th * f)) +
    (1 - s / th) * (1 * k) * f + (1 - c) / th * (th * s / (2 * (1 - c)) * e - th / 2 * (k * f - a)) = a).
  { intros a e f. 
    transitivity (a * (s * s / (2 * (1 - c)) + (1 - c) / 2) + k * f * (1 - (s * s / (2 * (1 - c)) + (1 - c) / 2))).
    - field. lra.
    - rewrite S2. field. lra. }
  cv. f_equal; apply G.
Qed.

Lemma logSE3_right M : rotation (rot M) -> / 100 <= angle (rot M) < PI \/ angle (rot M) = 0 -> screws_to (logSE3 M) M.
Proof.
  intros H B. destruct B as [B|B].
  - assert (B' : 0 < angle (rot M) < PI) by lra.
    destruct (mid_axis _ H B') as (u & U & V & E & W).
    assert (R : snd (logSO3 (rot M)) = vscale (angle (rot M)) u) by (rewrite log_mid by (try exact H; lra); exact W).
    set (th := angle (rot M)) in *.
    assert (L : logSE3 M = Tw (linpart (th * sin th / (2 * (1 - cos th))) (1 / (th * th) - sin th / (2 * th * (1 - cos th))) (vscale th u) (tra M)) (vscale th u)).
    { transitivity (Tw (lin (logSE3 M)) (ang (logSE3 M))); [now destruct (logSE3 M)|].
      rewrite logSE3_lin, logSE3_ang, R. fold th. unfold se3_alpha, se3_beta. rewrite Rabs_right by lra.
      destruct (Rlt_dec th (/ 100)); [lra|]. reflexivity. }
    rewrite L. set (v := linpart _ _ _ _).
    exists (fun s => SE3 (about u (s * th)) (travel u v th s)). split; [|split].
    + unfold sid. rewrite Rmult_0_l, about_0. f_equal. unfold travel. rewrite Rmult_0_l, sin_0, cos_0. destruct u, v; cv; unfold Rdiv; f_equal; ring.
    + intros t. split; cbn [rot tra lin ang].
      * apply about_deriv, U.
      * apply travel_deriv. lra.
    + rewrite Rmult_1_l, <- E. unfold v. rewrite travel_end by (try exact U; lra). now destruct M.
  - pose proof (angle_0 _ H B) as I.
    assert (L : logSE3 M = Tw (tra M) v0).
    { transitivity (Tw (lin (logSE3 M)) (ang (logSE3 M))); [now destruct (logSE3 M)|].
      assert (Z : snd (logSO3 (rot M)) = v0).
      { unfold logSO3. rewrite B. pose proof pi_big. destruct (Rlt_dec 0 (PI - / 100)); [|lra]. destruct (Rlt_dec (/ 1000000) 0); [lra|]. rewrite I. cbn [snd]. cv. f_equal; ring. }
      rewrite logSE3_lin, logSE3_ang, Z, B. f_equal. unfold se3_alpha, se3_beta. rewrite Rabs_R0. destruct (Rlt_dec 0 (/ 100)); [|lra].
      unfold linpart. destruct (tra M); cv; unfold Rdiv; f_equal; ring. }
    rewrite L. exists (fun s => SE3 m1 (vscale s (tra M))). split; [|split].
    + unfold sid. f_equal. destruct (tra M); cv; f_equal; ring.
    + intros t. split; cbn [rot tra lin ang].
      * eapply mderiv_eq; [|apply mderiv_const]. cv. f_equal; f_equal; ring.
      * eapply vderiv_eq; [|apply (vderiv_scale_fun (fun s => s) (fun _ => tra M) t 1 v0 (derivable_pt_lim_id t) (vderiv_const _ t))]. destruct (tra M); cv; f_equal; ring.
    + destruct M as [m p]. cbn in I. subst m. cbn [tra]. f_equal. destruct p; cv; f_equal; ring.
Qed.

(** * The Jacobian *)
Lemma linpart_deriv a b r p t a' b' r' p' : deriv a t a' -> deriv b t b' -> vderiv r t r' -> vderiv p t p' ->
  vderiv (fun s => linpart (a s) (b s) (r s) (p s)) t
    (vadd (linpart (a t) (b t) (r t) p')
      (vadd (vadd (vsub (vscale a' (p t)) (vscale (/ 2) (vcross r' (p t)))) (vscale (b' * vdot (r t) (p t) + b t * vdot r' (p t)) (r t)))
            (vscale (b t * vdot (r t) (p t)) r'))).
Proof.
  intros A B R P. unfold linpart.
  eapply vderiv_eq; [|apply vderiv_add; [apply vderiv_sub; [apply (vderiv_scale_fun a p t _ _ A P)|]|]].
  2:{ apply vderiv_scale. apply (vderiv_ext (fun s => vcross (r s) (p s))); [intros s; symmetry; apply cross_matrixE|apply vderiv_cross; [exact R|exact P]]. }
  2:{ apply (vderiv_scale_fun (fun s => b s * vdot (r s) (p s)) r t); [|exact R].
      apply deriv_mul; [exact B|apply vderiv_dot; [exact R|exact P]]. }
  cbv beta. destruct (r t), (p t), r', p'. cv. f_equal; ring.
Qed.

Lemma beta_deriv th : / 100 < th < PI -> deriv (fun x => 1 / (x * x) - sin x / (2 * x * (1 - cos x))) th (th * se3_beta_dot th).
Proof.
  intros B. assert (B' : 0 < th < PI) by lra. pose proof (one_minus_cos th B') as C. pose proof (sin2_cos2 th) as Q. unfold Rsqr in Q.
  assert (I : deriv (fun x => x) th 1) by apply derivable_pt_lim_id.
  assert (N1 : th * th <> 0) by nra. assert (N2 : 2 * th * (1 - cos th) <> 0) by nra.
  pose proof (derivable_pt_lim_div (fun _ => 1) (fun x => x * x) th _ _ (deriv_const 1 th) (deriv_mul _ _ th _ _ I I) N1) as D1.
  pose proof (derivable_pt_lim_div sin (fun x => 2 * x * (1 - cos x)) th _ _ (derivable_pt_lim_sin th)
     (deriv_mul _ _ th _ _ (deriv_scale 2 _ th _ I) (deriv_sub _ _ th _ _ (deriv_const 1 th) (derivable_pt_lim_cos th))) N2) as D2.
  eapply deriv_eq; [|exact (deriv_sub _ _ th _ _ D1 D2)].
  unfold se3_beta_dot. rewrite Rabs_right by lra. destruct (Rlt_dec th (/ 100)); [lra|]. unfold Rsqr.
  set (s := sin th) in *. set (c := cos th) in *. clearbody s c.
  assert (S2 : s * s = 1 - c * c) by lra.
  transitivity (- 2 / (th * th * th) - (c * (2 * th * (1 - c)) - (2 * (1 - c) * s + 2 * th * (s * s))) / (4 * th * th * ((1 - c) * (1 - c)))).
  - field. lra.
  - rewrite S2. field. lra.
Qed.

(** a nonnegative function below a function that is flat is flat *)
Lemma flat f g t : (forall s, 0 <= g s) -> (exists eps, 0 < eps /\ forall s, Rabs (s - t) < eps -> 0 <= f s <= g s) -> g t = 0 -> deriv g t 0 -> deriv f t 0.
Proof.
  intros P (eps & E & L) G D. intros e He. destruct (D e He) as [del Hd].
  assert (Q : 0 < Rmin eps del) by (apply Rmin_pos; [exact E|apply cond_pos]).
  exists (mkposreal _ Q). intros h h0 Hh. cbn in Hh.
  pose proof (Hd h h0 (Rlt_le_trans _ _ _ Hh (Rmin_r _ _))) as X.
  pose proof (L (t + h)) as Y. replace (t + h - t) with h in Y by ring. specialize (Y (Rlt_le_trans _ _ _ Hh (Rmin_l _ _))).
  pose proof (L t) as Z. rewrite Rminus_diag_eq, Rabs_R0 in Z by reflexivity. specialize (Z E). rewrite G in *.
  assert (F : f t = 0) by lra. rewrite F. rewrite Rminus_0_r in *. eapply Rle_lt_trans; [|exact X].
  rewrite !Rminus_0_r. unfold Rdiv. rewrite !Rabs_mult. apply Rmult_le_compat_r; [apply Rabs_pos|].
  rewrite !Rabs_right; lra.
Qed.

Lemma sin_lower x : 0 <= x <= 1 -> x <= 2 * sin x.
Proof.
  intros H. pose proof PI_4. pose proof pi_big.
  destruct (Req_dec x 0) as [->|N]; [rewrite sin_0; lra|].
  destruct (MVT_cor2 sin cos 0 x ltac:(lra)) as (c & E & C); [intros; apply derivable_pt_lim_sin|].
  rewrite sin_0 in E. assert (/ 2 <= cos c).
  { replace (/ 2) with (cos (PI / 3)) by (rewrite cos_PI3; lra). left. apply cos_decreasing_1; lra. }
  nra.
Qed.

Section curve.
Variables (M : R -> se3) (t : R) (T : twist).
Hypothesis rotM : forall s, rotation (rot (M s)).
Hypothesis dM : moves M t T.
Let th := angle (rot (M t)).
Let r := snd (logSO3 (rot (M t))).
Let w := mulv (JlogSO3 th r) (ang T).

Lemma ang_deriv : / 1000000 < th < PI \/ th = 0 -> vderiv (fun s => snd (logSO3 (rot (M s)))) t w.
Proof.
  intros B. unfold w, r, th in *. rewrite <- log_fst in *. apply (log_deriv_body (fun s => rot (M s)) t (ang T)); [exact rotM|exact (proj1 dM)|].
  exact B.
Qed.

Lemma angle_rate : / 1000000 < th < PI -> exists th', deriv (fun s => angle (rot (M s))) t th' /\ th * th' = vdot r w.
Proof.
  intros B. assert (B' : 0 < th < PI) by lra. eexists. split.
  - apply (angle_deriv (fun s => rot (M s)) t _ rotM (proj1 dM)). exact B'.
  - destruct (mid_axis _ (rotM t) B') as (u & U & V & E & W).
    assert (X : r = vscale th u) by (unfold r; rewrite log_mid by (try apply rotM; exact B); exact W).
    unfold w. rewrite X. unfold JlogSO3. rewrite jlog_axis by (try exact U; lra).
    fold th. rewrite trace_rate_r, V. fold th. set (k := th * (sin th / (1 - cos th)) / 2). clearbody k.
    pose proof (sin_gt_0 _ (proj1 B') (proj2 B')) as S. clear - U S. set (o := ang T). set (a := th) in *. clearbody a o.
    transitivity (a * vdot u o); [destruct u, o; cv; field; lra|].
    transitivity (a * (k * vdot u o + (1 - k) * vdot u o * vdot u u)); [rewrite U; ring|]. destruct u, o; cv; field.
Qed.

(** the two factors of the linear part *)
Lemma factors : / 1000000 < th < PI /\ th <> / 100 \/ th = 0 ->
  deriv (fun s => se3_beta (angle (rot (M s)))) t (se3_beta_dot th * vdot r w) /\
  deriv (fun s => se3_alpha (angle (rot (M s)))) t (- (th * th * se3_beta_dot th + 2 * se3_beta th) * vdot r w).
Proof.
  assert (SMALL : forall q', deriv (fun s => angle (rot (M s)) * angle (rot (M s))) t q' -> q' = 2 * vdot r w -> th < / 100 ->
     (exists eps, 0 < eps /\ forall s, Rabs (s - t) < eps -> angle (rot (M s)) < / 100) ->
     deriv (fun s => se3_beta (angle (rot (M s)))) t (se3_beta_dot th * vdot r w) /\
     deriv (fun s => se3_alpha (angle (rot (M s)))) t (- (th * th * se3_beta_dot th + 2 * se3_beta th) * vdot r w)).
  { intros q' Q Eq L (eps & E & N). pose proof (angle_bounds _ (rotM t)) as P. fold th in P.
    set (q := fun s => angle (rot (M s)) * angle (rot (M s))) in *.
    assert (Qt : q t = th * th) by reflexivity.
    split.
    - apply (deriv_loc (fun s => 1 / 12 + q s * / 720) _ t _ eps E).
      + intros s Hs. unfold se3_beta. pose proof (angle_bounds _ (rotM s)). specialize (N s Hs). rewrite Rabs_right by lra.
        destruct (Rlt_dec _ _); [unfold q; field|lra].
      + eapply deriv_eq; [|apply deriv_add; [apply deriv_const|apply (deriv_mul q (fun _ => / 720) t _ 0 Q (deriv_const _ t))]].
        unfold se3_beta_dot. rewrite Rabs_right by lra. destruct (Rlt_dec th (/ 100)); [|lra]. rewrite Eq. field.
    - apply (deriv_loc (fun s => 1 - q s * / 12 - q s * q s * / 720) _ t _ eps E).
      + intros s Hs. unfold se3_alpha. pose proof (angle_bounds _ (rotM s)). specialize (N s Hs). rewrite Rabs_right by lra.
        destruct (Rlt_dec _ _); [unfold q; field|lra].
      + eapply deriv_eq; [|apply deriv_sub; [apply deriv_sub; [apply deriv_const|apply (deriv_mul q (fun _ => / 12) t _ 0 Q (deriv_const _ t))]|
           apply (deriv_mul (fun s => q s * q s) (fun _ => / 720) t _ 0 (deriv_mul q q t _ _ Q Q) (deriv_const _ t))]].
        unfold se3_beta_dot, se3_beta. rewrite !Rabs_right by lra. destruct (Rlt_dec th (/ 100)); [|lra]. rewrite Eq, Qt. field. }
  intros [[B Ne]|Z].
  - destruct (angle_rate B) as (th' & D & X). destruct (Rlt_dec th (/ 100)) as [L|L].
    + apply (SMALL (th' * th + th * th')); [apply (deriv_mul _ _ t _ _ D D)|lra|exact L|].
      pose proof pi_big.
      destruct (angle_near (fun s => rot (M s)) t _ rotM (proj1 dM) 0 (/ 100) ltac:(lra) ltac:(lra)) as (eps & E & N); [fold th; lra|].
      exists eps. split; [exact E|]. intros s Hs. apply (N s Hs).
    + assert (B2 : / 100 < th < PI) by lra. pose proof pi_big.
      destruct (angle_near (fun s => rot (M s)) t _ rotM (proj1 dM) (/ 100) PI ltac:(lra) ltac:(lra)) as (eps & E & N); [fold th; lra|].
      assert (DB : deriv (fun s => 1 / (angle (rot (M s)) * angle (rot (M s))) - sin (angle (rot (M s))) / (2 * angle (rot (M s)) * (1 - cos (angle (rot (M s)))))) t (se3_beta_dot th * vdot r w)).
      { eapply deriv_eq; [|exact (derivable_pt_lim_comp _ _ t _ _ D (beta_deriv th B2))]. rewrite <- X. ring. }
      assert (V : forall s, Rabs (s - t) < eps -> 1 / (angle (rot (M s)) * angle (rot (M s))) - sin (angle (rot (M s))) / (2 * angle (rot (M s)) * (1 - cos (angle (rot (M s))))) = se3_beta (angle (rot (M s)))).
      { intros s Hs. specialize (N s Hs). cbv beta in N. unfold se3_beta. rewrite Rabs_right by lra. destruct (Rlt_dec _ _); [lra|reflexivity]. }
      assert (DB' : deriv (fun s => se3_beta (angle (rot (M s)))) t (se3_beta_dot th * vdot r w)) by exact (deriv_loc _ _ t _ eps E V DB).
      split; [exact DB'|].
      apply (deriv_loc (fun s => 1 - se3_beta (angle (rot (M s))) * (angle (rot (M s)) * angle (rot (M s)))) _ t _ eps E).
      * intros s Hs. rewrite <- (V s Hs). specialize (N s Hs). cbv beta in N. unfold se3_alpha. rewrite Rabs_right by lra. destruct (Rlt_dec _ _); [lra|].
        pose proof (one_minus_cos (angle (rot (M s))) ltac:(lra)). field. lra.
      * eapply deriv_eq; [|apply deriv_sub; [apply deriv_const|exact (deriv_mul _ _ t _ _ DB' (deriv_mul _ _ t _ _ D D))]].
        cbv beta. fold th. rewrite <- X. ring.
  - pose proof (angle_0 _ (rotM t) Z) as I. pose proof pi_big.
    assert (R0 : r = v0).
    { unfold r, logSO3. fold th. rewrite Z. destruct (Rlt_dec 0 (PI - / 100)); [|lra]. destruct (Rlt_dec (/ 1000000) 0); [lra|].
      rewrite I. cbn [snd]. cv. f_equal; ring. }
    assert (C1 : cos (/ 100) < 1). { rewrite <- cos_0. apply cos_decreasing_1; lra. }
    destruct (deriv_near _ _ _ (1 + 2 * cos (/ 100)) 4 (trace_deriv (fun s => rot (M s)) t _ (proj1 dM)) ltac:(cbv beta; rewrite I; cv; lra)) as (eps & E & N).
    assert (N' : forall s, Rabs (s - t) < eps -> angle (rot (M s)) < / 100).
    { intros s Hs. specialize (N s Hs). cbv beta in N. pose proof (cos_angle _ (rotM s)). pose proof (angle_bounds _ (rotM s)). apply cos_decreasing_0; lra. }
    apply (SMALL 0).
    + set (g := fun s => vdot (vee (rot (M s))) (vee (rot (M s)))).
      apply (flat _ g t).
      * intros s. apply vdot_pos.
      * exists eps. split; [exact E|]. intros s Hs. pose proof (angle_bounds _ (rotM s)) as P. specialize (N' s Hs).
        split; [apply Rmult_le_pos; lra|]. unfold g. destruct (sin_angle _ (rotM s)) as [S0 S4]. rewrite <- S4.
        pose proof (sin_lower (angle (rot (M s))) ltac:(lra)). nra.
      * unfold g. rewrite I. cv. ring.
      * pose proof (vee_deriv _ t _ (proj1 dM)) as V. eapply deriv_eq; [|exact (vderiv_dot _ _ t _ _ V V)].
        cbv beta. rewrite I. generalize (vee (mul m1 (cross_matrix (ang T)))). intros []; cv; ring.
    + rewrite R0. destruct w; cv; ring.
    + lra.
    + exists eps. split; [exact E|exact N'].
Qed.

Lemma lin_deriv : / 1000000 < th < PI /\ th <> / 100 \/ th = 0 ->
  vderiv (fun s => lin (logSE3 (M s))) t (lin (mul6 (JlogSE3 (M t)) T)).
Proof.
  intros B. destruct (factors B) as [DB DA]. assert (DR := ang_deriv ltac:(tauto)).
  apply (vderiv_ext (fun s => linpart (se3_alpha (angle (rot (M s)))) (se3_beta (angle (rot (M s)))) (snd (logSO3 (rot (M s)))) (tra (M s)))).
  { intros s. symmetry. apply logSE3_lin. }
  eapply vderiv_eq; [|exact (linpart_deriv _ _ _ _ t _ _ _ _ DA DB DR (proj2 dM))].
  cbv beta. fold th r. unfold JlogSE3, mul6. cbn [lin].
  assert (LL : logSO3 (rot (M t)) = (th, r)) by (unfold th, r; rewrite <- log_fst; apply surjective_pairing). rewrite LL.
  cbn [tl tr_]. rewrite !mulvA. fold w. clearbody w. 
  set (p := tra (M t)). set (v := mulv (rot (M t)) (lin T)). clearbody p v.
  set (a := se3_alpha th). set (b := se3_beta th). set (bd := se3_beta_dot th). clearbody a b bd. clearbody r th.
  unfold linpart. clear. set (x := th) in *. destruct r, p, v, w. cv. f_equal; field.
Qed.
End curve.

Lemma logSE3_deriv M t T : (forall s, rotation (rot (M s))) -> moves M t T ->
  let th := fst (logSO3 (rot (M t))) in
  / 1000000 < th < PI /\ th <> / 100 \/ th = 0 ->
  vderiv (fun s => lin (logSE3 (M s))) t (lin (mul6 (JlogSE3 (M t)) T)) /\
  vderiv (fun s => ang (logSE3 (M s))) t (ang (mul6 (JlogSE3 (M t)) T)).
Proof.
  intros R D th B. unfold th in B. rewrite log_fst in B. split.
  - apply (lin_deriv M t T R D B).
  - apply (vderiv_ext (fun s => snd (logSO3 (rot (M s))))); [intros s; symmetry; apply logSE3_ang|].
    eapply vderiv_eq; [|apply (ang_deriv M t T R D ltac:(tauto))].
    unfold mul6, JlogSE3. assert (LL : logSO3 (rot (M t)) = (angle (rot (M t)), snd (logSO3 (rot (M t))))) by (rewrite <- log_fst; apply surjective_pairing).
    rewrite LL. cbn [ang bl br snd]. destruct (mulv (JlogSO3 _ _) (ang T)). destruct (lin T). cv. f_equal; ring.
Qed.
