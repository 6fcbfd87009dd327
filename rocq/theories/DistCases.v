From Coq Require Import Reals Lra List.
From Verif Require Import Geo GeoLemmas Rigid RigidExamples DistModel DistProofs DistMain DistExamples.
Import ListNotations.
Local Open Scope R_scope.

Lemma ceq2P a b : ceq2 a b = true <-> a = b.
Proof.
  unfold ceq2. destruct a as [x y], b as [x' y']. cbn. destruct (Req_EM_T x x') as [->|N]; [destruct (Req_EM_T y y') as [->|N]|]; split; try congruence; auto; intros E; injection E; congruence.
Qed.
Lemma arm_moves (c : R -> R * R) t td rd : deriv (fun s => fst (c s)) t td -> deriv (fun s => snd (c s)) t rd ->
  rotation (rot (kM1 (arm (c t)))) /\ rotation (rot (kM2 (arm (c t)))) /\
  moves (fun s => kM1 (arm (c s))) t (japp (kJ1 (arm (c t))) [td; rd]) /\ moves (fun s => kM2 (arm (c s))) t (japp (kJ2 (arm (c t))) [td; rd]).
Proof.
  intros Dt Dr. split; [apply rotz_rotation|]. split; [exact rotation_1|].
  assert (DR : mderiv (fun s => rotz (fst (c s))) t (mul (rotz (fst (c t))) (cross_matrix (vscale td ez)))).
  { pose proof (derivable_pt_lim_comp _ sin t _ _ Dt (derivable_pt_lim_sin _)) as Ds. pose proof (derivable_pt_lim_comp _ cos t _ _ Dt (derivable_pt_lim_cos _)) as Dc.
    repeat split; cbn [rotz ra rb rc vx vy vz];
      (eapply deriv_eq; [|first [exact Dc|exact Ds|exact (deriv_opp _ _ _ Ds)|apply deriv_const]]); cbv beta iota delta [mul mulv mtr cross_matrix vscale ez rotz vdot ra rb rc vx vy vz]; ring. }
  split.
  - split; cbn [kM1 kJ1 arm rot tra].
    + eapply mderiv_eq; [|exact DR]. f_equal. f_equal. cbv beta iota delta [japp tadd tscale t0 ang lin vadd vscale ez ex v0 vx vy vz]. f_equal; ring.
    + assert (Dv : vderiv (fun s => V3 (snd (c s)) 0 0) t (V3 rd 0 0)) by (repeat split; cbn; auto; apply deriv_const).
      eapply vderiv_eq; [|exact (vderiv_mulv _ _ _ _ _ DR Dv)].
      cbv beta iota delta [japp tadd tscale t0 ang lin vadd vscale ez ex v0 mul mulv mtr cross_matrix rotz vdot ra rb rc vx vy vz fst snd]. f_equal; ring.
  - eapply (fun H => proj1 (conj H I)). cbn [kM2 kJ2 arm].
    replace (japp [t0; t0] [td; rd]) with t0 by (cbv beta iota delta [japp tadd tscale t0 lin ang vadd vscale v0 vx vy vz]; f_equal; f_equal; ring).
    exact (still_moves sid t).
Qed.
Lemma jac_arm k d p1 p2 : kJ1 k = [Tw (V3 0 1 0) ez; Tw ex v0] -> kJ2 k = [t0; t0] -> kM2 k = sid ->
  jac_of true k d p1 p2 = [(vdot (vsub p1 p2) (mulv (rot (kM1 k)) (V3 0 1 0)) + vdot (vsub p1 p2) (vcross (mulv (rot (kM1 k)) ez) (vsub p1 (tra (kM1 k))))) / d;
                           vdot (vsub p1 p2) (mulv (rot (kM1 k)) ex) / d].
Proof.
  intros A B D. unfold jac_of. rewrite A, B, D. cbn [row map combine fst snd lin ang t0]. rewrite !colcross_v. rewrite !mulv_0.
  f_equal; [|f_equal]; f_equal; generalize (vsub p1 p2) (vsub p1 (tra (kM1 k))) (vsub p2 (tra sid)) (rot (kM1 k)); geo.
Qed.

Lemma history_refuted : exists q q' k,
  let ev := points_ev true v0 target in
  fst (jacobian ceq2 arm ev true (run ceq2 arm ev true (fresh k) [Value q; Other (arm q')]) q) <> fst (jacobian ceq2 arm ev true (fresh k) q).
Proof.
  exists (0, 1), (PI / 2, 1), park. intros ev. unfold ev.
  rewrite (jacobian_at ceq2 arm _ true ceq2P park [Value (0, 1); Other (arm (PI / 2, 1))] (0, 1)).
  rewrite (jacobian_at ceq2 arm _ true ceq2P park [] (0, 1)). cbn [run fold_left fresh fst snd f_last DistModel.step compute points_ev].
  rewrite (proj2 (ceq2P (0, 1) (0, 1)) eq_refl). rewrite !jac_arm by reflexivity.
  assert (D : dist_at arm (points_ev true v0 target) (0, 1) = 2).
  { unfold dist_at, points_ev. cbn [fst snd]. unfold norm. replace (vdot _ _) with (2 * 2).
    - apply sqrt_square. lra.
    - cbn [arm kM1 kM2 fst snd]. cbv beta iota delta [act sid rot tra rotz vsub vadd mulv vdot target v0 m1 ra rb rc vx vy vz]. rewrite cos_0, sin_0. ring. }
  rewrite D. intros E. injection E as _ E. revert E.
  unfold p1_at, p2_at, points_ev. cbn [fst snd arm kM1 kM2]. cbv beta iota delta [act sid rot tra rotz vsub vadd mulv vdot target v0 ex m1 ra rb rc vx vy vz].
  rewrite cos_0, sin_0, cos_PI2, sin_PI2. intros E. lra.
Qed.
(** a body sliding along an axis, no second joint *)
Definition slide (q : R) : kin := mkkin (SE3 m1 (V3 q 0 0)) sid [Tw ex v0] [t0].
Definition ceq1 (a b : R) : bool := if Req_EM_T a b then true else false.
Lemma ceq1P a b : ceq1 a b = true <-> a = b.
Proof. unfold ceq1. destruct (Req_EM_T a b); split; congruence. Qed.
Lemma slide_moves t : moves (fun s => kM1 (slide s)) t (japp (kJ1 (slide t)) [1]).
Proof.
  split; cbn [slide kM1 kJ1 rot tra].
  - eapply mderiv_eq; [|exact (mderiv_const m1 t)]. cbv beta iota delta [japp tadd tscale t0 ang lin vadd vscale ex v0 mul mulv mtr cross_matrix m1 m0 vdot ra rb rc vx vy vz]. f_equal; f_equal; ring.
  - assert (D : vderiv (fun s => V3 s 0 0) t (V3 1 0 0)) by (split; [exact (derivable_pt_lim_id t)|split; exact (deriv_const 0 t)]).
    eapply vderiv_eq; [|exact D]. cbv beta iota delta [japp tadd tscale t0 ang lin vadd vscale ex v0 mulv m1 vdot ra rb rc vx vy vz]. f_equal; ring.
Qed.
Lemma no_second_refuted : exists point2 t qd d, moves (fun s => kM1 (slide s)) t (japp (kJ1 (slide t)) qd) /\ rotation (rot (kM1 (slide t))) /\
  let ev := points_ev false v0 point2 in
  deriv (fun s => fst (compute ceq1 slide ev (fresh (slide 0)) s)) t d /\ rapp (fst (jacobian ceq1 slide ev false (fresh (slide 0)) t)) qd <> d /\
  fst (compute ceq1 slide ev (fresh (slide 0)) t) <> norm (vsub (act (kM1 (slide t)) v0) point2).
Proof.
  exists target, 1, [1], 1. split; [apply slide_moves|]. split; [exact rotation_1|]. intros ev.
  assert (Nv : forall x, act (kM1 (slide x)) v0 = V3 x 0 0) by (intros x; unfold slide, act; cbn [kM1 rot tra]; rewrite mulv_0; cbv beta iota delta [vadd v0 vx vy vz]; f_equal; ring).
  assert (N1 : norm (V3 1 0 0) = 1) by (unfold norm; replace (vdot _ _) with (1 * 1) by (unfold vdot; cbn; ring); apply sqrt_square; lra).
  split; [|split].
  - assert (D := points_derivative1 ceq1 slide ceq1P (fun s => s) 1 [1] v0 (slide 0) [] (Forall_nil _) rotation_1 (slide_moves 1)). cbn zeta in D.
    unfold ev. apply (deriv_ext (fun s => fst (compute ceq1 slide (points_ev false v0 v0) (fresh (slide 0)) s))); [reflexivity|].
    eapply deriv_eq; [|apply D]; [|rewrite Nv; unfold v0; intros E; injection E; lra].
    cbn [run fold_left]. rewrite (jacobian_pure ceq1 slide _ false ceq1P (slide 0) [] 1) by constructor.
    unfold dist_at, p1_at, p2_at, points_ev. cbn [fst snd]. rewrite Nv, N1. unfold jac_of. cbn [slide kM1 kJ1 row map lin ang rapp rot tra]. rewrite colcross_v.
    cbv beta iota delta [vsub v0 ex mulv m1 vdot vcross ra rb rc vx vy vz]. field.
  - rewrite (jacobian_pure ceq1 slide _ false ceq1P (slide 0) [] 1) by constructor.
    unfold ev, dist_at, p1_at, p2_at, points_ev. cbn [fst snd]. rewrite Nv, N1. unfold jac_of. cbn [slide kM1 kJ1 row map lin ang rapp rot tra]. rewrite colcross_v.
    cbv beta iota delta [vsub v0 ex mulv m1 vdot vcross target ra rb rc vx vy vz]. lra.
  - unfold ev. cbn [compute fresh f_last points_ev fst]. rewrite !Nv, N1. unfold norm. replace (vdot _ _) with (2 * 2) by (unfold vdot, vsub, target; cbn; ring).
    rewrite sqrt_square by lra. lra.
Qed.
Lemma dist_case : let c := fun s : R => (s, 1 + s) in
  rotation (rot (kM1 (arm (c 1)))) /\ rotation (rot (kM2 (arm (c 1)))) /\
  moves (fun s => kM1 (arm (c s))) 1 (japp (kJ1 (arm (c 1))) [1; 1]) /\ moves (fun s => kM2 (arm (c s))) 1 (japp (kJ2 (arm (c 1))) [1; 1]) /\
  length (kJ1 (arm (c 1))) = length (kJ2 (arm (c 1))) /\ act (kM1 (arm (c 1))) v0 <> act (kM2 (arm (c 1))) target.
Proof.
  intros c. destruct (arm_moves c 1 1 1) as (A & B & D & E).
  - apply derivable_pt_lim_id.
  - cbn. eapply deriv_eq; [|apply (deriv_add (fun _ => 1) (fun s => s) 1 0 1); [apply deriv_const|apply derivable_pt_lim_id]]. ring.
  - do 4 (split; [assumption|]). split; [reflexivity|]. intros X. assert (Y : sin 1 > 0) by (apply sin_gt_0; [lra|]; pose proof PI2_1; pose proof PI2_3_2; lra).
    apply (f_equal vy) in X. revert X. cbn [c arm kM1 kM2 fst snd]. cbv beta iota delta [act sid rot tra rotz vadd mulv vdot target v0 m1 ra rb rc vx vy vz]. intros X. nra.
Qed.
