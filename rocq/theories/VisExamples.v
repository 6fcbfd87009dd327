From Coq Require Import Reals List Bool ZArith Lia Lra.
From Verif Require Import Geo GeoLemmas Rigid RigidExamples SegModel SegSpec SegProofs ViewModel EcsModel EcsJacModel EcsJacSpec
  FunModel ImplFunModel LogModel LogProofs LogMain LogExamples LogPi DistModel SE3Proofs VisModel VisSpec VisProofs.
Import ListNotations.
Local Open Scope R_scope.

(** the output pose is the one of [turn] at the input *)
Definition turn_q (x : list R) : list R := let a := nth 0 x 0 in [a + 1; 0; 0; 0; 0; sin (a / 2); cos (a / 2)].
Definition turn_J (c : R -> twist) (x : list R) : mat R := mkmat 6 1 (fun i _ => tw_at (c (nth 0 x 0)) i).
Definition body (s : R) : twist := Tw (mulv (mtr (rotz s)) ex) ez.
Definition g_se3 : ifun R R := mkif 8 7 turn_q (turn_J body) sub_se3 [fac_se3] [(0, 1)]%Z [(1, 7)]%Z [(0, 1)]%Z [(1, 6)]%Z.
Definition g_r3so3 : ifun R R := mkif 8 7 turn_q (turn_J (fun _ => Tw ex ez)) sub_r3so3 [fac_r3so3] [(0, 1)]%Z [(1, 7)]%Z [(0, 1)]%Z [(1, 6)]%Z.
Definition J67 : mat R := mkmat 6 7 (fun _ _ => 0).
(** input s, output turned by one radian and moving along x *)
Definition q_mov (s : R) (i : Z) : R :=
  if (i =? 0)%Z then s else if (i =? 1)%Z then s else if (i =? 6)%Z then sin (1 / 2) else if (i =? 7)%Z then cos (1 / 2) else 0.
Definition dq_se3 (i : Z) : R := if (i =? 0)%Z then 1 else if (i =? 1)%Z then cos 1 else if (i =? 2)%Z then - sin 1 else 0.
Definition dq_r3so3 (i : Z) : R := if (i =? 0)%Z then 1 else if (i =? 1)%Z then 1 else 0.

Lemma q2r_z a : q2r 0 0 (sin (a / 2)) (cos (a / 2)) = rotz a.
Proof.
  assert (C : cos a = 1 - 2 * sin (a / 2) * sin (a / 2)) by (rewrite <- cos_2a_sin; f_equal; field).
  assert (S : sin a = 2 * sin (a / 2) * cos (a / 2)) by (rewrite <- sin_2a; f_equal; field).
  unfold q2r, rotz. rewrite C, S. f_equal; f_equal; ring.
Qed.
Lemma turn_qE a : se3_of (turn_q [a]) = turn a.
Proof. unfold turn_q, se3_of. cbn [nth]. rewrite q2r_z. reflexivity. Qed.
Lemma shape_se3 : shaped g_se3 fac_se3 (q_mov 0) J67.
Proof.
  constructor; try reflexivity; try (cbn; lia); try (repeat constructor; cbn; lia).
  - intros s [<-|[]]; cbn; lia.
  - intros s [<-|[]]; cbn; lia.
  - intros i [A B]. apply In_indices in A as (a & [<-|[]] & A), B as (b & [<-|[]] & B). unfold in_seg in A, B. cbn in A, B. lia.
Qed.
Lemma shape_r3so3 : shaped g_r3so3 fac_r3so3 (q_mov 0) J67.
Proof.
  constructor; try reflexivity; try (cbn; lia); try (repeat constructor; cbn; lia).
  - intros s [<-|[]]; cbn; lia.
  - intros s [<-|[]]; cbn; lia.
  - intros i [A B]. apply In_indices in A as (a & [<-|[]] & A), B as (b & [<-|[]] & B). unfold in_seg in A, B. cbn in A, B. lia.
Qed.

Lemma out_se3 s : se3_of (map (q_mov s) (indices (if_out g_se3))) = SE3 (rotz 1) (V3 s 0 0).
Proof. change (map (q_mov s) (indices (if_out g_se3))) with [s; 0; 0; 0; 0; sin (1 / 2); cos (1 / 2)]. unfold se3_of. cbn [nth]. now rewrite q2r_z. Qed.
Lemma val_se3 s : se3_of (if_f g_se3 (map (q_mov s) (indices (if_in g_se3)))) = turn s.
Proof. exact (turn_qE s). Qed.
Lemma rel_angle : fst (logSO3 (mul (mtr (rot (se3_of (if_f g_se3 (map (q_mov 0) (indices (if_in g_se3)))))))
   (rot (se3_of (map (q_mov 0) (indices (if_out g_se3))))))) = 1.
Proof.
  rewrite out_se3, val_se3. cbn [rot turn].
  assert (E : rotz 0 = m1). { unfold rotz, m1. rewrite cos_0, sin_0. rewrite Ropp_0. reflexivity. }
  rewrite E, mtr1, mul1m. pose proof pi_big. rewrite rotz_log by lra. reflexivity.
Qed.
Lemma slide_vderiv : vderiv (fun s => V3 s 0 0) 0 ex.
Proof. repeat split; cbn; try apply deriv_const. apply derivable_pt_lim_id. Qed.
Lemma const_mderiv m : mderiv (fun _ => m) 0 (mul m (cross_matrix v0)).
Proof. eapply mderiv_eq; [|apply mderiv_const]. geo. Qed.
Lemma case_se3 : shaped g_se3 fac_se3 (q_mov 0) J67 /\ if_sub g_se3 = sub_se3 /\
  let out s := map (q_mov s) (indices (if_out g_se3)) in
  let val s := if_f g_se3 (map (q_mov s) (indices (if_in g_se3))) in
  let F := if_J g_se3 (map (q_mov 0) (indices (if_in g_se3))) in
  (forall s, rotation (rot (se3_of (out s)))) /\ (forall s, rotation (rot (se3_of (val s)))) /\
  moves (fun s => se3_of (out s)) 0 (vec6 (pick dq_se3 (if_outv g_se3))) /\
  moves (fun s => se3_of (val s)) 0 (vec6 (rate F (map dq_se3 (indices (if_inv g_se3))))) /\
  fst (logSO3 (rot (comp (sinv (se3_of (val 0))) (se3_of (out 0))))) = 1.
Proof.
  split; [exact shape_se3|]. split; [reflexivity|]. intros out val F. unfold out, val.
  split; [intros s; rewrite out_se3; apply rotz_rotation|]. split; [intros s; rewrite val_se3; apply rotz_rotation|].
  split; [|split].
  - apply (moves_ext (fun s => SE3 (rotz 1) (V3 s 0 0))); [intros s; now rewrite out_se3|]. split; cbn [rot tra].
    + exact (const_mderiv (rotz 1)).
    + eapply vderiv_eq; [|exact slide_vderiv].
      assert (E : lin (vec6 (pick dq_se3 (if_outv g_se3))) = mulv (mtr (rotz 1)) ex).
      { cbv -[Rplus Rmult Ropp cos sin IZR]. f_equal; ring. }
      rewrite E. now rewrite rotation_inv_r by apply rotz_rotation.
  - apply (moves_ext turn); [intros s; now rewrite val_se3|]. eapply moves_eq; [|apply turn_moves].
    cbv -[Rplus Rmult Ropp cos sin IZR]. f_equal; f_equal; ring.
  - exact rel_angle.
Qed.
Lemma case_r3so3 : shaped g_r3so3 fac_r3so3 (q_mov 0) J67 /\ if_sub g_r3so3 = sub_r3so3 /\
  let out s := map (q_mov s) (indices (if_out g_r3so3)) in
  let val s := if_f g_r3so3 (map (q_mov s) (indices (if_in g_r3so3))) in
  let F := if_J g_r3so3 (map (q_mov 0) (indices (if_in g_r3so3))) in
  (forall s, rotation (rot (se3_of (out s)))) /\ (forall s, rotation (rot (se3_of (val s)))) /\
  moves_r3so3 (fun s => se3_of (out s)) 0 (vec6 (pick dq_r3so3 (if_outv g_r3so3))) /\
  moves_r3so3 (fun s => se3_of (val s)) 0 (vec6 (rate F (map dq_r3so3 (indices (if_inv g_r3so3))))) /\
  fst (logSO3 (mul (mtr (rot (se3_of (val 0)))) (rot (se3_of (out 0))))) = 1.
Proof.
  split; [exact shape_r3so3|]. split; [reflexivity|]. intros out val F. unfold out, val.
  assert (OE : forall s, se3_of (map (q_mov s) (indices (if_out g_r3so3))) = SE3 (rotz 1) (V3 s 0 0)) by exact out_se3.
  assert (VE : forall s, se3_of (if_f g_r3so3 (map (q_mov s) (indices (if_in g_r3so3)))) = turn s) by exact val_se3.
  split; [intros s; rewrite OE; apply rotz_rotation|]. split; [intros s; rewrite VE; apply rotz_rotation|].
  assert (K : forall A B T, (forall s, A s = B s) -> moves_r3so3 A 0 T -> moves_r3so3 B 0 T).
  { intros A B T E [X Y]. rewrite (E 0) in X. split.
    - destruct X as (X1 & X2 & X3). split; [|split]; eapply vderiv_ext; eauto; intros s; cbn; now rewrite E.
    - eapply vderiv_ext; [|exact Y]. intros s; cbn; now rewrite E. }
  split; [|split].
  - apply (K (fun s => SE3 (rotz 1) (V3 s 0 0))); [intros s; now rewrite OE|]. split; cbn [rot tra].
    + exact (const_mderiv (rotz 1)).
    + exact slide_vderiv.
  - apply (K turn); [intros s; now rewrite VE|]. destruct (turn_moves 0) as [X Y]. split.
    + eapply mderiv_eq; [|exact X]. apply (f_equal (fun w => mul (rot (turn 0)) (cross_matrix w))). cbv -[Rplus Rmult Ropp cos sin IZR]. f_equal; ring.
    + eapply vderiv_eq; [|exact Y]. cbn [lin]. cbn [rot turn]. rewrite rotation_inv_r by apply rotz_rotation. cbv -[Rplus Rmult Ropp cos sin IZR]. f_equal; ring.
  - exact rel_angle.
Qed.

(** a spherical joint compared to a constant; at 0 either the constant itself or a quarter of turn from it *)
Definition g_so3 : ifun R R := mkif 4 3 (fun _ => [0; 0; 0; 1]) (fun _ => mkmat 3 0 (fun _ _ => 0)) sub_so3 [fac_so3] [] [(0, 4)]%Z [] [(0, 3)]%Z.
Definition J33 : mat R := mkmat 3 3 (fun _ _ => 0).
Definition qlist (l : list R) (i : Z) : R := nth (Z.to_nat i) l 0.
Definition c2 : R := / sqrt 2.
Definition q_near (s : R) : Z -> R := qlist [sin s; 0; 0; cos s].
Definition q_far (s : R) : Z -> R := qlist [c2 * sin s; c2 * sin s; c2 * cos s; c2 * cos s].
Definition dq_so3 : Z -> R := qlist [2; 0; 0].
Lemma c2_sq : c2 * c2 = / 2.
Proof. unfold c2. rewrite <- Rinv_mult. now rewrite sqrt_sqrt by lra. Qed.
Lemma shape_so3 q : shaped g_so3 fac_so3 q J33.
Proof.
  constructor; try reflexivity; try (cbn; lia); try (repeat constructor; cbn; lia).
  all: try (intros s [<-|[]]; cbn; lia).
  all: intros i [[] _].
Qed.
Definition Rnear (s : R) : m3 :=
  M3 (V3 1 0 0) (V3 0 (1 - 2 * (sin s * sin s)) (- (2 * (sin s * cos s)))) (V3 0 (2 * (sin s * cos s)) (1 - 2 * (sin s * sin s))).
Definition Rfar (s : R) : m3 :=
  M3 (V3 0 (2 * (sin s * sin s) - 1) (2 * (sin s * cos s))) (V3 1 0 0) (V3 0 (2 * (sin s * cos s)) (1 - 2 * (sin s * sin s))).
Lemma near_of s : so3_of (map (q_near s) (indices (if_out g_so3))) = Rnear s.
Proof. change (map (q_near s) (indices (if_out g_so3))) with [sin s; 0; 0; cos s]. unfold so3_of, q2r, Rnear; cbn [nth]. f_equal; f_equal; ring. Qed.
Lemma far_of s : so3_of (map (q_far s) (indices (if_out g_so3))) = Rfar s.
Proof.
  change (map (q_far s) (indices (if_out g_so3))) with [c2 * sin s; c2 * sin s; c2 * cos s; c2 * cos s].
  pose proof c2_sq as C. assert (H := sin2_cos2 s). unfold Rsqr in H. assert (H2 : cos s * cos s = 1 - sin s * sin s) by lra.
  unfold so3_of, q2r, Rfar; cbn [nth].
  assert (P : forall a b, 2 * (c2 * a) * (c2 * b) = a * b) by (intros a b; replace (2 * (c2 * a) * (c2 * b)) with (2 * (c2 * c2) * (a * b)) by ring; rewrite C; field).
  rewrite !P, H2. f_equal; f_equal; ring.
Qed.
Lemma near_rotation s : rotation (Rnear s).
Proof.
  assert (H := sin2_cos2 s). unfold Rsqr in H. assert (H2 : cos s * cos s = 1 - sin s * sin s) by lra.
  assert (H3 : (1 - 2 * (sin s * sin s)) * (1 - 2 * (sin s * sin s)) + (2 * (sin s * cos s)) * (2 * (sin s * cos s)) = 1).
  { replace ((2 * (sin s * cos s)) * (2 * (sin s * cos s))) with (4 * (sin s * sin s) * (cos s * cos s)) by ring. rewrite H2. ring. }
  revert H3. unfold Rnear. generalize (1 - 2 * (sin s * sin s)) (2 * (sin s * cos s)). intros a b H3.
  split; [unfold mul, mulv, mtr, m1, vdot; cbn; f_equal; f_equal; lra|unfold det, vdot, vcross; cbn; lra].
Qed.
Lemma far_rotation s : rotation (Rfar s).
Proof.
  assert (H := sin2_cos2 s). unfold Rsqr in H. assert (H2 : cos s * cos s = 1 - sin s * sin s) by lra.
  assert (H3 : (1 - 2 * (sin s * sin s)) * (1 - 2 * (sin s * sin s)) + (2 * (sin s * cos s)) * (2 * (sin s * cos s)) = 1).
  { replace ((2 * (sin s * cos s)) * (2 * (sin s * cos s))) with (4 * (sin s * sin s) * (cos s * cos s)) by ring. rewrite H2. ring. }
  revert H3. unfold Rfar. replace (2 * (sin s * sin s) - 1) with (- (1 - 2 * (sin s * sin s))) by ring.
  generalize (1 - 2 * (sin s * sin s)) (2 * (sin s * cos s)). intros a b H3.
  split; [unfold mul, mulv, mtr, m1, vdot; cbn; f_equal; f_equal; lra|unfold det, vdot, vcross; cbn; lra].
Qed.
Lemma d_sc : deriv (fun s => 2 * (sin s * cos s)) 0 2.
Proof.
  eapply deriv_eq; [|apply deriv_scale, deriv_mul; [apply derivable_pt_lim_sin|apply derivable_pt_lim_cos]].
  rewrite sin_0, cos_0. ring.
Qed.
Lemma d_ss : deriv (fun s => 2 * (sin s * sin s)) 0 0.
Proof.
  eapply deriv_eq; [|apply deriv_scale, deriv_mul; apply derivable_pt_lim_sin]. rewrite sin_0, cos_0. ring.
Qed.
Lemma near_turns : turns Rnear 0 (V3 2 0 0).
Proof.
  assert (A := d_sc). assert (B := d_ss).
  assert (C : deriv (fun s => 1 - 2 * (sin s * sin s)) 0 0) by (eapply deriv_eq; [|apply deriv_sub; [apply deriv_const|exact B]]; ring).
  assert (D := deriv_opp _ _ _ A).
  unfold turns. repeat split; cbn; try apply deriv_const; (eapply deriv_eq; [|first [exact A|exact C|exact D|apply deriv_const]]);
    unfold vdot; cbn; rewrite ?sin_0, ?cos_0; ring.
Qed.
Lemma far_turns : turns Rfar 0 (V3 2 0 0).
Proof.
  assert (A := d_sc). assert (B := d_ss).
  assert (C : deriv (fun s => 1 - 2 * (sin s * sin s)) 0 0) by (eapply deriv_eq; [|apply deriv_sub; [apply deriv_const|exact B]]; ring).
  assert (D : deriv (fun s => 2 * (sin s * sin s) - 1) 0 0) by (eapply deriv_eq; [|apply deriv_sub; [exact B|apply deriv_const]]; ring).
  unfold turns. repeat split; cbn; try apply deriv_const; (eapply deriv_eq; [|first [exact A|exact C|exact D|apply deriv_const]]);
    unfold vdot; cbn; rewrite ?sin_0, ?cos_0; ring.
Qed.
Lemma turns_ext A B w : (forall s, A s = B s) -> turns A 0 w -> turns B 0 w.
Proof.
  intros E X. unfold turns in *. rewrite (E 0) in X. destruct X as (X1 & X2 & X3). split; [|split]; eapply vderiv_ext; eauto; intros s; cbn; now rewrite E.
Qed.
Lemma const_so3 q : so3_of (if_f g_so3 (map q (indices (if_in g_so3)))) = m1.
Proof. unfold so3_of, q2r, m1; cbn. f_equal; f_equal; ring. Qed.
Lemma case_so3 : shaped g_so3 fac_so3 (q_near 0) J33 /\ if_sub g_so3 = sub_so3 /\
  let out s := map (q_near s) (indices (if_out g_so3)) in
  let val s := if_f g_so3 (map (q_near s) (indices (if_in g_so3))) in
  let F := if_J g_so3 (map (q_near 0) (indices (if_in g_so3))) in
  (forall s, rotation (so3_of (out s))) /\ (forall s, rotation (so3_of (val s))) /\
  turns (fun s => so3_of (out s)) 0 (vec3 (pick dq_so3 (if_outv g_so3))) /\
  turns (fun s => so3_of (val s)) 0 (vec3 (rate F (map dq_so3 (indices (if_inv g_so3))))) /\
  so3_of (out 0) = so3_of (val 0).
Proof.
  split; [apply shape_so3|]. split; [reflexivity|]. intros out val F. unfold out, val.
  split; [intros s; rewrite near_of; apply near_rotation|]. split; [intros s; rewrite const_so3; apply rotation_1|].
  split; [|split].
  - apply (turns_ext Rnear); [intros s; now rewrite near_of|exact near_turns].
  - apply (turns_ext (fun _ => m1)); [intros s; now rewrite const_so3|]. exact (const_mderiv m1).
  - rewrite near_of, const_so3. unfold Rnear, m1. rewrite sin_0. f_equal; f_equal; ring.
Qed.
Lemma refuted_so3 : exists g q dq J J', shaped g fac_so3 (q 0) J /\ if_sub g = sub_so3 /\
  (forall s, rotation (so3_of (map (q s) (indices (if_out g))))) /\
  (forall s, rotation (so3_of (if_f g (map (q s) (indices (if_in g)))))) /\
  turns (fun s => so3_of (map (q s) (indices (if_out g)))) 0 (vec3 (pick dq (if_outv g))) /\
  turns (fun s => so3_of (if_f g (map (q s) (indices (if_in g))))) 0
    (vec3 (rate (if_J g (map (q 0) (indices (if_in g)))) (map dq (indices (if_inv g))))) /\
  fst (logSO3 (mul (mtr (so3_of (if_f g (map (q 0) (indices (if_in g)))))) (so3_of (map (q 0) (indices (if_out g)))))) = PI / 2 /\
  if_jacobian 0 g (q 0) J = Some J' /\ ~ jacobian_is_derivative g 3 q dq J'.
Proof.
  destruct (so3_rows g_so3 q_far dq_so3 J33 (shape_so3 _)) as (J' & EJ & ER).
  exists g_so3, q_far, dq_so3, J33, J'.
  assert (P := pi_big).
  assert (A : forall s, rotation (so3_of (map (q_far s) (indices (if_out g_so3))))) by (intros s; rewrite far_of; apply far_rotation).
  assert (B : forall s, rotation (so3_of (if_f g_so3 (map (q_far s) (indices (if_in g_so3)))))) by (intros s; rewrite const_so3; apply rotation_1).
  assert (C : turns (fun s => so3_of (map (q_far s) (indices (if_out g_so3)))) 0 (vec3 (pick dq_so3 (if_outv g_so3)))).
  { apply (turns_ext Rfar); [intros s; now rewrite far_of|exact far_turns]. }
  assert (D : turns (fun s => so3_of (if_f g_so3 (map (q_far s) (indices (if_in g_so3))))) 0
    (vec3 (rate (if_J g_so3 (map (q_far 0) (indices (if_in g_so3)))) (map dq_so3 (indices (if_inv g_so3)))))).
  { apply (turns_ext (fun _ => m1)); [intros s; now rewrite const_so3|]. exact (const_mderiv m1). }
  assert (E : mul (mtr (so3_of (if_f g_so3 (map (q_far 0) (indices (if_in g_so3)))))) (so3_of (map (q_far 0) (indices (if_out g_so3)))) = rotz (PI / 2)).
  { rewrite const_so3, far_of, mtr1, mul1m. unfold Rfar, rotz. rewrite sin_0, cos_PI2, sin_PI2. f_equal; f_equal; ring. }
  split; [apply shape_so3|]. split; [reflexivity|]. split; [exact A|]. split; [exact B|]. split; [exact C|]. split; [exact D|].
  split. { rewrite E, rotz_log by lra. reflexivity. }
  split; [exact EJ|]. intros X. specialize (X 1%nat ltac:(lia)). rewrite ER in X by lia.
  assert (Y := so3_value g_so3 q_far dq_so3 eq_refl A B C D). cbv zeta beta in Y. rewrite E, rotz_log in Y by lra. cbn [fst snd] in Y.
  specialize (Y ltac:(lra) 1%nat ltac:(lia)). assert (Z := deriv_unique _ _ _ _ X Y). revert Z.
  assert (V : vec3 (rate (if_J g_so3 (map (q_far 0) (indices (if_in g_so3)))) (map dq_so3 (indices (if_inv g_so3)))) = v0) by reflexivity.
  rewrite V, mulv_0, vsub_0. unfold JlogSO3, jlog. destruct (Rlt_dec (PI / 2) (/ 1000000)) as [?|_]; [lra|].
  rewrite madd_v, mscale_v, madd_v, !mscale_v, mul1v, cross_matrixE.
  cbv -[Rplus Rmult Rminus Ropp Rinv Rdiv PI cos sin IZR]. intros Z. lra.
Qed.
