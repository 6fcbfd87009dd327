From Coq Require Import Reals Lra Ranalysis1 Ratan.
From Verif Require Import Geo GeoLemmas Rigid LogModel LogSpec RotProofs LogProofs LogMain.
Local Open Scope R_scope.

Lemma deriv_loc f g t d eps : 0 < eps -> (forall s, Rabs (s - t) < eps -> f s = g s) -> deriv f t d -> deriv g t d.
Proof.
  intros E L D. intros e He. destruct (D e He) as [del Hd].
  assert (P : 0 < Rmin eps del) by (apply Rmin_pos; [exact E|apply cond_pos]).
  exists (mkposreal _ P). intros h h0 Hh. cbn in Hh.
  rewrite <- (L (t + h)), <- (L t).
  - apply Hd; [exact h0|]. eapply Rlt_le_trans; [exact Hh|apply Rmin_r].
  - rewrite Rminus_diag_eq, Rabs_R0; auto.
  - replace (t + h - t) with h by ring. eapply Rlt_le_trans; [exact Hh|apply Rmin_l].
Qed.
Lemma vderiv_loc f g t d eps : 0 < eps -> (forall s, Rabs (s - t) < eps -> f s = g s) -> vderiv f t d -> vderiv g t d.
Proof.
  intros E L (D1 & D2 & D3). split; [|split]; (eapply (deriv_loc _ _ t _ eps E); [|eassumption]); intros s H; cbv beta; now rewrite (L s H).
Qed.
Lemma deriv_near f t d a b : deriv f t d -> a < f t < b -> exists eps, 0 < eps /\ forall s, Rabs (s - t) < eps -> a < f s < b.
Proof.
  intros D B. assert (C : continuity_pt f t) by (apply derivable_continuous_pt; exists d; exact D).
  assert (P : 0 < Rmin (f t - a) (b - f t)) by (apply Rmin_pos; lra).
  destruct (C _ P) as (al & Ha & Hc). exists al. split; [exact Ha|]. intros s Hs.
  destruct (Req_dec s t) as [->|N]; [exact B|].
  assert (Q : Rabs (f s - f t) < Rmin (f t - a) (b - f t)).
  { apply Hc. split; [split; [exact I|auto]|exact Hs]. }
  pose proof (Rlt_le_trans _ _ _ Q (Rmin_l _ _)) as Q1. pose proof (Rlt_le_trans _ _ _ Q (Rmin_r _ _)) as Q2.
  unfold Rabs in Q1, Q2. destruct (Rcase_abs (f s - f t)); lra.
Qed.
Lemma vderiv_scale_fun k f t k' f' : deriv k t k' -> vderiv f t f' -> vderiv (fun s => vscale (k s) (f s)) t (vadd (vscale k' (f t)) (vscale (k t) f')).
Proof.
  intros K (F1 & F2 & F3). split; [|split].
  - exact (deriv_mul k (fun s => vx (f s)) t k' _ K F1).
  - exact (deriv_mul k (fun s => vy (f s)) t k' _ K F2).
  - exact (deriv_mul k (fun s => vz (f s)) t k' _ K F3).
Qed.
Lemma trace_deriv M t D : mderiv M t D -> deriv (fun s => trace (M s)) t (trace D).
Proof. intros ((a & _ & _) & (_ & b & _) & (_ & _ & c)). unfold trace. apply deriv_add; [apply deriv_add|]; assumption. Qed.
Lemma vee_deriv M t D : mderiv M t D -> vderiv (fun s => vee (M s)) t (vee D).
Proof. intros ((a & a' & a'') & (b & b' & b'') & (c & c' & c'')). split; [|split]; unfold vee; cbn [vx vy vz]; apply deriv_sub; assumption. Qed.

Section curve.
Variables (M : R -> m3) (t : R) (D : m3).
Hypothesis rotM : forall s, rotation (M s).
Hypothesis dM : mderiv M t D.

Lemma angle_near a b : 0 <= a -> b <= PI -> a < angle (M t) < b -> exists eps, 0 < eps /\ forall s, Rabs (s - t) < eps -> a < angle (M s) < b.
Proof.
  intros A B I. pose proof (angle_bounds _ (rotM t)) as X.
  assert (T : 1 + 2 * cos b < trace (M t) < 1 + 2 * cos a).
  { pose proof (cos_angle _ (rotM t)) as C. pose proof (cos_decreasing_1 a (angle (M t)) ltac:(lra) ltac:(lra) ltac:(lra) ltac:(lra) ltac:(lra)).
    pose proof (cos_decreasing_1 (angle (M t)) b ltac:(lra) ltac:(lra) ltac:(lra) ltac:(lra) ltac:(lra)). lra. }
  destruct (deriv_near _ _ _ _ _ (trace_deriv M t D dM) T) as (eps & E & L). exists eps. split; [exact E|].
  intros s Hs. specialize (L s Hs). cbv beta in L. pose proof (cos_angle _ (rotM s)) as C. pose proof (angle_bounds _ (rotM s)) as Y. split.
  - apply cos_decreasing_0; lra.
  - apply cos_decreasing_0; lra.
Qed.

Lemma angle_deriv : 0 < angle (M t) < PI -> deriv (fun s => angle (M s)) t (- trace D / (2 * sin (angle (M t)))).
Proof.
  intros B. apply (deriv_ext (fun s => acos ((trace (M s) - 1) / 2))).
  { intros s. now rewrite (angleE _ (rotM s)). }
  pose proof (sin_gt_0 _ (proj1 B) (proj2 B)) as S.
  pose proof (cos_angle _ (rotM t)) as C.
  assert (X : -1 < (trace (M t) - 1) / 2 < 1).
  { rewrite <- C. pose proof (sin2_cos2 (angle (M t))) as Q. unfold Rsqr in Q. nra. }
  assert (G : deriv (fun s => (trace (M s) - 1) / 2) t (trace D / 2)).
  { eapply deriv_eq; [|apply (deriv_mul (fun s => trace (M s) - 1) (fun _ => / 2) t (trace D - 0) 0);
      [apply deriv_sub; [apply trace_deriv, dM|apply deriv_const]|apply deriv_const]]. field. }
  assert (AC : deriv acos ((trace (M t) - 1) / 2) (- (1 / sin (angle (M t))))).
  { pose proof (derive_pt_acos _ X) as P. apply derive_pt_eq_1 in P. eapply deriv_eq; [|exact P].
    assert (SQ : sin (angle (M t)) = sqrt (1 - ((trace (M t) - 1) / 2)²)).
    { rewrite (angleE _ (rotM t)). apply sin_acos. lra. }
    rewrite SQ. field. rewrite <- SQ. lra. }
  eapply deriv_eq; [|apply (derivable_pt_lim_comp _ acos t _ _ G AC)]. field. lra.
Qed.

Lemma factor_deriv : 0 < angle (M t) < PI ->
  let th := angle (M t) in
  deriv (fun s => angle (M s) / sin (angle (M s)) / 2) t (- trace D / (2 * sin th) * ((sin th - th * cos th) / (2 * (sin th * sin th)))).
Proof.
  intros B th. pose proof (sin_gt_0 _ (proj1 B) (proj2 B)) as S. fold th in S.
  pose proof (angle_deriv B) as A. fold th in A.
  pose proof (derivable_pt_lim_comp _ sin t _ _ A (derivable_pt_lim_sin _)) as SA.
  pose proof (derivable_pt_lim_div _ _ t _ _ A SA) as Q. 
  assert (N : sin th <> 0) by lra. specialize (Q N).
  eapply deriv_eq; [|apply (deriv_mul _ (fun _ => / 2) t _ 0 Q (deriv_const _ t))].
  unfold Rsqr, Ranalysis1.comp. fold th. field. lra.
Qed.

Lemma log_deriv_gen : / 1000000 < angle (M t) < PI ->
  let th := angle (M t) in
  vderiv (fun s => snd (logSO3 (M s))) t
   (vadd (vscale (- trace D / (2 * sin th) * ((sin th - th * cos th) / (2 * (sin th * sin th)))) (vee (M t))) (vscale (th / sin th / 2) (vee D))).
Proof.
  intros B th. destruct (angle_near (/ 1000000) PI ltac:(lra) ltac:(lra) B) as (eps & E & L).
  apply (vderiv_loc (fun s => vscale (angle (M s) / sin (angle (M s)) / 2) (vee (M s))) _ t _ eps E).
  - intros s Hs. now rewrite (log_mid _ (rotM s) (L s Hs)).
  - apply (vderiv_scale_fun (fun s => angle (M s) / sin (angle (M s)) / 2) (fun s => vee (M s))); [|apply vee_deriv, dM].
    apply factor_deriv. lra.
Qed.

(** at the identity *)
Lemma log_deriv_id : M t = m1 -> vderiv (fun s => snd (logSO3 (M s))) t (vscale (/ 2) (vee D)).
Proof.
  intros I. assert (T : trace (M t) = 3) by (rewrite I; cv; ring).
  pose proof pi_big as P. set (a := / 1000000).
  assert (Ca : cos a < 1). { unfold a. rewrite <- cos_0. apply cos_decreasing_1; lra. }
  destruct (deriv_near _ _ _ (1 + 2 * cos a) 4 (trace_deriv M t D dM) ltac:(cbv beta; lra)) as (eps & E & L).
  apply (vderiv_loc (fun s => vscale (/ 2) (vee (M s))) _ t _ eps E).
  - intros s Hs. specialize (L s Hs). cbv beta in L. pose proof (cos_angle _ (rotM s)) as C. pose proof (angle_bounds _ (rotM s)) as Y.
    assert (A : angle (M s) < a). { apply cos_decreasing_0; unfold a in *; lra. }
    unfold logSO3. fold a. unfold a in A. destruct (Rlt_dec (angle (M s)) (PI - / 100)) as [|N]; [|lra].
    fold a in A. destruct (Rlt_dec a (angle (M s))); [lra|]. cbn [snd]. f_equal. lra.
  - apply vderiv_scale, vee_deriv, dM.
Qed.
End curve.

Lemma about_mulv u a w : mulv (about u a) w = vadd (vadd (vscale (cos a) w) (vscale ((1 - cos a) * vdot u w) u)) (vscale (sin a) (vcross u w)).
Proof. unfold about. destruct u, w; cv; f_equal; ring. Qed.
Lemma about_tr_mulv u a w : mulv (mtr (about u a)) w = vsub (vadd (vscale (cos a) w) (vscale ((1 - cos a) * vdot u w) u)) (vscale (sin a) (vcross u w)).
Proof. unfold about. destruct u, w; cv; f_equal; ring. Qed.

Lemma jlog_axis e th u w : / 1000000 <= th -> vdot u u = 1 ->
  mulv (jlog e th (vscale th u)) w =
  vadd (vadd (vscale (th * (sin th / (1 - cos th)) / 2) w) (vscale (e * th / 2) (vcross u w)))
       (vscale ((1 - th * (sin th / (1 - cos th)) / 2) * vdot u w) u).
Proof.
  intros T U. unfold jlog. destruct (Rlt_dec th (/ 1000000)); [lra|].
  set (k := sin th / (1 - cos th)). clearbody k. destruct u, w. cv. f_equal; field; lra.
Qed.
Lemma half_angle th : 0 < th < PI -> sin th / (1 - cos th) = (1 + cos th) / sin th.
Proof.
  intros B. pose proof (sin_gt_0 _ (proj1 B) (proj2 B)) as S. pose proof (sin2_cos2 th) as Q. unfold Rsqr in Q.
  assert (0 < 1 - cos th) by (destruct (COS_bound th); nra).
  apply (Rmult_eq_reg_r ((1 - cos th) * sin th)); [|nra]. field_simplify; [|lra|lra]. nra.
Qed.

(** the derivative of the logarithm, velocity in the frame of the body *)
Lemma log_deriv_body M t w : (forall s, rotation (M s)) -> mderiv M t (mul (M t) (cross_matrix w)) ->
  / 1000000 < fst (logSO3 (M t)) < PI \/ fst (logSO3 (M t)) = 0 ->
  vderiv (fun s => snd (logSO3 (M s))) t (mulv (JlogSO3 (fst (logSO3 (M t))) (snd (logSO3 (M t)))) w).
Proof.
  intros R D B. assert (F : fst (logSO3 (M t)) = angle (M t)) by (unfold logSO3; destruct (Rlt_dec (angle (M t)) (PI - / 100)); reflexivity).
  rewrite F in *. destruct B as [B|B].
  - eapply vderiv_eq; [|apply (log_deriv_gen M t _ R D B)]. cbv zeta.
    rewrite (log_mid _ (R t) B). cbn [snd]. assert (B' : 0 < angle (M t) < PI) by lra.
    destruct (mid_axis _ (R t) B') as (u & U & V & E & W). rewrite W.
    unfold JlogSO3. rewrite jlog_axis, half_angle by (try exact U; lra).
    rewrite trace_rate_r, vee_rate_r, V.
    assert (X : mulv (mtr (M t)) w = mulv (mtr (about u (angle (M t)))) w) by (rewrite <- E; reflexivity).
    assert (T : trace (M t) = 1 + 2 * cos (angle (M t))) by (rewrite cos_angle by apply R; lra).
    rewrite X, about_tr_mulv, T.
    set (th := angle (M t)) in *. pose proof (sin_gt_0 _ (proj1 B') (proj2 B')) as S.
    clear X T W V E. set (s := sin th) in *. set (c := cos th) in *. clearbody s c. destruct u as [x y z], w as [a b d].
    cvin U. cv. f_equal; field; lra.
  - pose proof (angle_0 _ (R t) B) as I. eapply vderiv_eq; [|apply (log_deriv_id M t _ R D I)].
    unfold JlogSO3, jlog. rewrite B. destruct (Rlt_dec 0 (/ 1000000)); [|lra]. rewrite I. destruct w; cv; f_equal; field.
Qed.
(** velocity in the fixed frame *)
Lemma log_deriv_fixed M t w : (forall s, rotation (M s)) -> mderiv M t (mul (cross_matrix w) (M t)) ->
  / 1000000 < fst (logSO3 (M t)) < PI \/ fst (logSO3 (M t)) = 0 ->
  vderiv (fun s => snd (logSO3 (M s))) t (mulv (computeJlog (fst (logSO3 (M t))) (snd (logSO3 (M t)))) w).
Proof.
  intros R D B. assert (F : fst (logSO3 (M t)) = angle (M t)) by (unfold logSO3; destruct (Rlt_dec (angle (M t)) (PI - / 100)); reflexivity).
  rewrite F in *. destruct B as [B|B].
  - eapply vderiv_eq; [|apply (log_deriv_gen M t _ R D B)]. cbv zeta.
    rewrite (log_mid _ (R t) B). cbn [snd]. assert (B' : 0 < angle (M t) < PI) by lra.
    destruct (mid_axis _ (R t) B') as (u & U & V & E & W). rewrite W.
    unfold computeJlog. rewrite jlog_axis, half_angle by (try exact U; lra).
    rewrite trace_rate, vee_rate, V.
    assert (X : mulv (M t) w = mulv (about u (angle (M t))) w) by (rewrite <- E; reflexivity).
    assert (T : trace (M t) = 1 + 2 * cos (angle (M t))) by (rewrite cos_angle by apply R; lra).
    rewrite X, about_mulv, T.
    set (th := angle (M t)) in *. pose proof (sin_gt_0 _ (proj1 B') (proj2 B')) as S.
    clear X T W V E. set (s := sin th) in *. set (c := cos th) in *. clearbody s c. destruct u as [x y z], w as [a b d].
    cvin U. cv. f_equal; field; lra.
  - pose proof (angle_0 _ (R t) B) as I. eapply vderiv_eq; [|apply (log_deriv_id M t _ R D I)].
    unfold computeJlog, jlog. rewrite B. destruct (Rlt_dec 0 (/ 1000000)); [|lra]. rewrite I. destruct w; cv; f_equal; field.
Qed.
