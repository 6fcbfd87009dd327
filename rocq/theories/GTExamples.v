From Coq Require Import Reals Lra Lia List Bool Arith ZArith.
From Verif Require Import Geo GeoLemmas Rigid RigidExamples SegModel ViewModel LogModel LogSpec LogExamples RotProofs DistModel DistProofs GTModel GTSpec GTProofs GTJac GTMain GTDeriv GTTheorems.
Import ListNotations.
Local Open Scope R_scope.

(** exact tests *)
Definition zerov (v : v3) : bool := if Req_EM_T (vx v) 0 then if Req_EM_T (vy v) 0 then if Req_EM_T (vz v) 0 then true else false else false else false.
Definition idm (m : m3) : bool := zerov (vsub (ra m) (V3 1 0 0)) && zerov (vsub (rb m) (V3 0 1 0)) && zerov (vsub (rc m) (V3 0 0 1)).
Lemma zerov_ok v : zerov v = true -> v = v0.
Proof. unfold zerov. destruct v as [x y z]. cbn. destruct (Req_EM_T x 0), (Req_EM_T y 0), (Req_EM_T z 0); try discriminate. subst. reflexivity. Qed.
Lemma idm_ok m : idm m = true -> m = m1.
Proof.
  unfold idm. intros H. apply andb_prop in H. destruct H as [H H3]. apply andb_prop in H. destruct H as [H1 H2].
  apply zerov_ok in H1, H2, H3. destruct m as [[] [] []]. cvin H1. cvin H2. cvin H3. injection H1 as. injection H2 as. injection H3 as. unfold m1. f_equal; f_equal; lra.
Qed.
(** stands for the conversion into a quaternion: four numbers *)
Definition quat_ex (m : m3) : list R := [vx (ra m); vy (ra m); vx (rb m); vz (rc m)].
Lemma quat_ex_ok m : length (quat_ex m) = 4%nat.
Proof. reflexivity. Qed.

(** joint 1 does not move, joint 2 turns and moves forward *)
Definition K_ex (s : R) : kins := Kins (fun j => if (j =? 1)%nat then still (SE3 m1 (V3 0 0 1)) s else turn s)
                                       (fun j => if (j =? 1)%nat then [t0] else [Tw (mulv (mtr (rotz s)) ex) ez]).
(** a relative transformation with a mask, the second frame away from its joint *)
Definition o_ex := Opts true true true false.
Definition mask_ex := [true; false; true; false; false; true].
Definition l_ex := [SetJ1 (Some 1%nat); SetJ2 (Some 2%nat); SetF2 (SE3 m1 (V3 0 0 2))].
(** a position and orientation with values in R^3 x SO(3) *)
Definition o_so := Opts true true true true.
Definition mask_so := [true; false; true; true; true; true].

Lemma m1_rotation : rotation m1.
Proof. exact rot1. Qed.
Lemma japp1 c : japp [c] [1] = c.
Proof. destruct c as [[] []]. unfold japp, tadd, tscale, t0. cbn. f_equal; geo. Qed.
Lemma K_moves1 : joint_moves (Some 1%nat) K_ex 1 [1].
Proof. split; [intros; exact m1_rotation|]. cbn [jjac K_ex Nat.eqb]. rewrite japp1. exact (still_moves (SE3 m1 (V3 0 0 1)) 1). Qed.
Lemma K_moves2 : joint_moves (Some 2%nat) K_ex 1 [1].
Proof. split; [intros; exact (rotz_rotation s)|]. cbn [jjac K_ex Nat.eqb]. rewrite japp1. exact (turn_moves 1). Qed.

Lemma pose_ex so s : relpose (setup idm zerov (Opts true true true so) mask_ex l_ex) (K_ex s) = SE3 (rotz s) (V3 (s + 1) 0 1).
Proof.
  unfold relpose, joint_place, K_ex, still, turn. cbn -[comp sinv rotz].
  unfold comp, sinv, act, sid. cbn [rot tra]. f_equal.
  - generalize (rotz s). geo.
  - unfold rotz. generalize (cos s) (sin s). intros c n. cv. f_equal; ring.
Qed.
Lemma case_gt_value s : / 1000000 < s < PI -> value quat_ex o_ex (setup idm zerov o_ex mask_ex l_ex) (K_ex s) = [s + 1; 1; s].
Proof.
  intros H. rewrite (gt_value idm zerov quat_ex idm_ok zerov_ok quat_ex_ok o_ex).
  - assert (E := pose_ex false s). fold o_ex in E. rewrite E. unfold coords. cbn [position orientation so3 o_ex rot tra]. rewrite rotz_log by exact H. reflexivity.
  - repeat split; discriminate.
  - intros j E. injection E as <-. exact m1_rotation.
Qed.
Lemma case_gt_jac : good_mask o_ex mask_ex /\ let g := setup idm zerov o_ex mask_ex l_ex in
  rotation (rot (F1 g)) /\ rotation (rot (F2 g)) /\ joint_moves (g_j1 g) K_ex 1 [1] /\ joint_moves (g_j2 g) K_ex 1 [1] /\
  (g_j1 g <> None \/ g_j2 g <> None) /\ (forall j, g_j1 g = Some j \/ g_j2 g = Some j -> length (jjac (K_ex 1) j) = 1%nat) /\
  log_ok (fst (logSO3 (rot (relpose g (K_ex 1))))) /\ count mask_ex = 3%nat.
Proof.
  split; [repeat split; discriminate|]. intros g. split; [exact m1_rotation|]. split; [exact m1_rotation|].
  split; [exact K_moves1|]. split; [exact K_moves2|]. split; [left; discriminate|].
  split; [intros j [E|E]; injection E as <-; reflexivity|]. split; [|reflexivity].
  unfold g, o_ex. rewrite pose_ex. cbn [rot]. assert (P := PI_4). assert (Q := PI2_1). unfold PI2 in Q.
  rewrite rotz_log by lra. left. cbn [fst]. lra.
Qed.
Lemma case_gt_so : good_mask o_so mask_so /\ let g := setup idm zerov o_so mask_so l_ex in
  rotation (rot (F1 g)) /\ rotation (rot (F2 g)) /\ joint_moves (g_j1 g) K_ex 1 [1] /\ joint_moves (g_j2 g) K_ex 1 [1] /\
  (g_j1 g <> None \/ g_j2 g <> None) /\ (forall j, g_j1 g = Some j \/ g_j2 g = Some j -> length (jjac (K_ex 1) j) = 1%nat) /\ count mask_so = 5%nat.
Proof.
  split; [repeat split|]. intros g. split; [exact m1_rotation|]. split; [exact m1_rotation|].
  split; [exact K_moves1|]. split; [exact K_moves2|]. split; [left; discriminate|].
  split; [intros j [E|E]; injection E as <-; reflexivity|reflexivity].
Qed.
