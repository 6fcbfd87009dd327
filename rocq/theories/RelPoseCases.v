(** Cases and wrong answers of RelPoseModel. *)
From Coq Require Import String ZArith Reals Lra Lia List Bool Arith.
From Verif Require Import Geo GeoLemmas Rigid LogModel RotProofs LogProofs LogMain SE3Proofs GTModel GTSpec.
From Verif Require Import SegModel EcsModel ImplModel ImplSpec ContactJacModel RelPoseModel RelPoseSpec RelPoseProofs RelPoseContact.
Import ListNotations.
Local Open Scope R_scope.

(** a constraint on the six rows of the transformation *)
Definition c6 (t : cmp) : impl nat := impl_new 0%nat 6 (repeat t 6) ones.
Lemma c6_reach t : impl_reach (c6 t). Proof. constructor. Qed.
Lemma c6_pair t : constrained_joints 6 (c6 t) (gt_joints ga) = (Some 1%nat, Some 2%nat).
Proof. destruct t; reflexivity. Qed.

Lemma half_turns : proper (at2 (SE3 ta v0)) /\ proper (at2 (SE3 tb v0)) /\
  value quat4 o6 ga (at2 (SE3 ta v0)) = value quat4 o6 ga (at2 (SE3 tb v0)) /\
  constrained_joints 6 (c6 Equality) (gt_joints ga) = (Some 1%nat, Some 2%nat) /\
  seen (Some 1%nat, Some 2%nat) (at2 (SE3 ta v0)) <> seen (Some 1%nat, Some 2%nat) (at2 (SE3 tb v0)).
Proof.
  split; [apply at2_proper, ta_rot|]. split; [apply at2_proper, tb_rot|]. split.
  - rewrite !ga_value by first [apply ta_rot|apply tb_rot]. cbn [rot tra]. now rewrite same_log.
  - split; [apply c6_pair|]. change (Some 1%nat, Some 2%nat) with (gt_joints ga). rewrite !ga_seen. intros E. injection E as E1 E2. lra.
Qed.

Lemma m1_log : snd (logSO3 m1) = v0.
Proof. apply log_zero; [apply rotation_1|]. unfold angle, trace. cbn. destruct (Rlt_dec 3 (1 + 1 + 1)); [reflexivity|]. destruct (Rlt_dec (1 + 1 + 1) (-1)); [lra|]. replace ((1 + 1 + 1 - 1) / 2) with 1 by lra. apply acos_1. Qed.
Definition up (x : R) : kins := at2 (SE3 m1 (V3 x x x)).
Lemma up_value x : value quat4 o6 ga (up x) = [x; x; x; 0; 0; 0].
Proof. unfold up. rewrite ga_value by apply rotation_1. cbn [rot tra]. rewrite m1_log. reflexivity. Qed.
Lemma up_proper x : proper (up x). Proof. apply at2_proper, rotation_1. Qed.
Lemma up_seen x : seen (Some 1%nat, Some 2%nat) (up x) = SE3 m1 (V3 x x x).
Proof. change (Some 1%nat, Some 2%nat) with (gt_joints ga). apply ga_seen. Qed.
Lemma inequalities : proper (up 1) /\ proper (up 2) /\
  Forall (row_holds Superior 0) (value quat4 o6 ga (up 1)) /\ Forall (row_holds Superior 0) (value quat4 o6 ga (up 2)) /\
  constrained_joints 6 (c6 Superior) (gt_joints ga) = (Some 1%nat, Some 2%nat) /\
  seen (Some 1%nat, Some 2%nat) (up 1) <> seen (Some 1%nat, Some 2%nat) (up 2).
Proof.
  split; [apply up_proper|]. split; [apply up_proper|]. rewrite !up_value. split; [repeat constructor; cbn; lra|]. split; [repeat constructor; cbn; lra|].
  split; [apply c6_pair|]. rewrite !up_seen. intros E. injection E as E. lra.
Qed.

(** a robot with two translations *)
Definition twice : robot := [mkjoint "arm" 0 3 None; mkjoint "hand" 3 3 (Some 1%nat)].
Definition trans (l : list R) : se3 := SE3 m1 (V3 (nth 0 l 0) (nth 1 l 0) (nth 2 l 0)).
Definition fk2 (q : Z -> R) : kins :=
  Kins (fun i => match i with
                 | 1%nat => trans (vars q 0 3)
                 | 2%nat => comp (trans (vars q 0 3)) (trans (vars q 3 3))
                 | _ => sid end) (fun _ => []).
Lemma fk2_moved n n' q : moved [mkjoint n 0 3 None; mkjoint n' 3 3 (Some 1%nat)] (fun _ => trans) q (fk2 q).
Proof. intros [|[|[|i]]] j; cbn; intros E; try discriminate; injection E as <-; cbn; [now rewrite comp_sid_l|reflexivity]. Qed.
Lemma fk2_proper q : proper (fk2 q).
Proof. split; [reflexivity|]. intros [|[|[|i]]]; cbn; try apply rotation_1. rewrite mulm1. apply rotation_1. Qed.
Lemma two_good n n' : n <> n' -> good_robot [mkjoint n 0 3 None; mkjoint n' 3 3 (Some 1%nat)].
Proof.
  intros D. split; [|split].
  - intros [|[|[|i]]] j; cbn; intros E; try discriminate; injection E as <-; cbn; lia.
  - cbn. lia.
  - cbn. constructor; [cbn; intuition congruence|]. constructor; [cbn; tauto|constructor].
Qed.
Definition qa (x : R) (i : Z) : R := if (i =? 0)%Z then x else 0.
Definition qb (x : R) (i : Z) : R := if (i =? 1)%Z then x else 0.
Lemma straddle : good_robot twice /\ explicit_joints twice 0 [(1%Z, 3%Z)] = (None, Some 1%nat) /\
  moved twice (fun _ => trans) (qa 1) (fk2 (qa 1)) /\ moved twice (fun _ => trans) (qa 2) (fk2 (qa 2)) /\
  vars (qa 1) 1 3 = vars (qa 2) 1 3 /\ seen (None, Some 1%nat) (fk2 (qa 1)) <> seen (None, Some 1%nat) (fk2 (qa 2)).
Proof.
  split; [now apply two_good|]. split; [reflexivity|]. split; [apply fk2_moved|]. split; [apply fk2_moved|]. split; [reflexivity|].
  unfold seen. cbn [fst snd joint_place fk2 place]. rewrite sinv_sid, !comp_sid_l. intros E. injection E. cbn. lra.
Qed.
(** a robot where the name of a joint is the name given to another one partially locked *)
Definition named : robot := [mkjoint "arm" 0 3 None; mkjoint "partial_arm" 3 3 (Some 1%nat)].
Lemma partial_name : good_robot named /\
  (exists lk, partial_lock named 1 = Some lk /\ locked_joints named lk = Some (None, Some 1%nat)) /\
  moved named (fun _ => trans) (qb 1) (fk2 (qb 1)) /\ moved named (fun _ => trans) (qb 2) (fk2 (qb 2)) /\
  vars (qb 1) 0 1 = vars (qb 2) 0 1 /\ seen (None, Some 1%nat) (fk2 (qb 1)) <> seen (None, Some 1%nat) (fk2 (qb 2)).
Proof.
  split; [now apply two_good|]. split; [eexists; split; reflexivity|]. split; [apply fk2_moved|]. split; [apply fk2_moved|]. split; [reflexivity|].
  unfold seen. cbn [fst snd joint_place fk2 place]. rewrite sinv_sid, !comp_sid_l. intros E. injection E. cbn. lra.
Qed.
Definition clash : robot := [mkjoint "r_extraDof0" 0 3 None; mkjoint "hand" 3 3 (Some 1%nat)].
Lemma extra_name : good_robot clash /\ locked_joints clash (extra_lock "r" "0") = None.
Proof. split; [now apply two_good|reflexivity]. Qed.

(** contact: two floors on joint 1, an object on joint 2 *)
Definition square (j : nat) (x : R) : option nat * list v3 := (Some j, [V3 x 0 0; V3 (x + 1) 0 0; V3 (x + 1) 1 0; V3 x 1 0]).
Lemma init_some pts a b c : pts <> [] -> exists s, ShapeModel.init pts a b c = Some s /\ ShapeModel.s_pts s = pts.
Proof. intros N. destruct pts as [|p [|q [|r l]]]; [congruence| | |]; eexists; split; reflexivity. Qed.
Lemma object_ok j pts : pts <> [] -> exists s, add_object (j, pts) = Done (Surf j s).
Proof.
  intros N. unfold add_object, ShapeModel.create, ShapeModel.copy. cbn [fst snd].
  destruct (init_some pts [] [] [] N) as (s & -> & P). cbn [built rbind]. rewrite P.
  destruct (init_some pts [] [] [] N) as (t & -> & _). eexists. reflexivity.
Qed.
Lemma floor_ok j pts : pts <> [] -> exists s, add_floor (j, pts) = Done (Surf j s).
Proof.
  intros N. unfold add_floor, ShapeModel.create, ShapeModel.copy, ShapeModel.reverse. cbn [fst snd].
  destruct (init_some pts [] [] [] N) as (s & -> & P). cbn [built rbind]. rewrite P.
  destruct (init_some pts [] [] [] N) as (t & -> & Q). cbn [built rbind]. rewrite Q.
  assert (M : rev pts <> []) by (intros E; apply N; rewrite <- (rev_involutive pts), E; reflexivity).
  destruct (init_some (rev pts) (ShapeModel.s_Ns t) (ShapeModel.s_Us t) (ShapeModel.s_Ls t) M) as (w & -> & W). cbn [built rbind]. rewrite W.
  destruct (init_some (rev pts) [] [] [] M) as (x & -> & _). eexists. reflexivity.
Qed.
Lemma three a b c x y z : exists s t w, create_contact [square a x; square b y] [square c z] (fun _ => 1) =
  Done (Contact [Surf (Some a) s; Surf (Some b) t] [Surf (Some c) w] 0 1).
Proof.
  unfold create_contact, square. cbn [all].
  edestruct (floor_ok (Some a)) as (s & ->); [discriminate|]. edestruct (floor_ok (Some b)) as (t & ->); [discriminate|].
  edestruct (object_ok (Some c)) as (w & ->); [discriminate|]. exists s, t, w. reflexivity.
Qed.
Lemma contact_case : exists c, create_contact [square 2 0; square 2 5] [square 1 0] (fun _ => 1) = Done c /\
  contact_joints c = (Some 1%nat, Some 2%nat) /\ contact_joints c <> nobody.
Proof. destruct (three 2 2 1 0 5 0) as (s & t & w & ->). eexists. split; [reflexivity|]. split; [reflexivity|discriminate]. Qed.
Lemma contact_mixed : exists c, create_contact [square 2 0; square 3 5] [square 1 0] (fun _ => 1) = Done c /\ contact_joints c = nobody.
Proof. destruct (three 2 3 1 0 5 0) as (s & t & w & ->). eexists. split; [reflexivity|]. reflexivity. Qed.

(** * Statements *)
Lemma gt_transformation : forall (isId : m3 -> bool) (isZero : v3 -> bool) (quat : m3 -> list R),
  (forall m, isId m = true -> m = m1) -> (forall v, isZero v = true -> v = v0) -> (forall m, length (quat m) = 4%nat) ->
  forall o mask l, good_mask o mask -> let g := setup isId isZero o mask l in rotation (rot (F1 g)) -> rotation (rot (F2 g)) ->
  pair_of (gt_joints g) (g_j1 g) (g_j2 g) /\
  forall k k', proper k -> proper k' -> seen (gt_joints g) k = seen (gt_joints g) k' -> value quat o g k = value quat o g k'.
Proof.
  intros isId isZero quat HI HZ HQ o mask l GM g R1 R2. split; [apply in_order_pair|].
  intros k k' P P' E. now apply (gt_depends isId isZero quat HI HZ HQ o mask l GM R1 R2).
Qed.
Lemma constrained_case : good_mask o6 ones /\ rotation (rot (F1 ga)) /\ rotation (rot (F2 ga)) /\ impl_reach (c6 Equality) /\
  constrained_joints (count ones) (c6 Equality) (gt_joints ga) = (Some 1%nat, Some 2%nat) /\
  (forall x, proper (up x) /\ angle (rot (relpose ga (up x))) < PI /\ value quat4 o6 ga (up x) = [x; x; x; 0; 0; 0] /\
     seen (Some 1%nat, Some 2%nat) (up x) = SE3 m1 (V3 x x x)).
Proof.
  split; [exact ga_mask|]. split; [apply rotation_1|]. split; [apply rotation_1|]. split; [apply c6_reach|]. split; [reflexivity|].
  intros x. split; [apply up_proper|]. split; [|split; [apply up_value|apply up_seen]].
  unfold up. rewrite ga_rel. cbn [rot]. replace (angle m1) with 0; [pose proof pi_big; lra|].
  unfold angle, trace. cbn. destruct (Rlt_dec 3 (1 + 1 + 1)); [reflexivity|]. destruct (Rlt_dec (1 + 1 + 1) (-1)); [lra|].
  replace ((1 + 1 + 1 - 1) / 2) with 1 by lra. now rewrite acos_1.
Qed.
Lemma half_turn_refuted : exists k k', proper k /\ proper k' /\ value quat4 o6 ga k = value quat4 o6 ga k' /\
  constrained_joints 6 (c6 Equality) (gt_joints ga) = (Some 1%nat, Some 2%nat) /\
  seen (Some 1%nat, Some 2%nat) k <> seen (Some 1%nat, Some 2%nat) k'.
Proof. exists (at2 (SE3 ta v0)), (at2 (SE3 tb v0)). exact half_turns. Qed.
Lemma inequality_refuted : exists k k', proper k /\ proper k' /\
  Forall (row_holds Superior 0) (value quat4 o6 ga k) /\ Forall (row_holds Superior 0) (value quat4 o6 ga k') /\
  constrained_joints 6 (c6 Superior) (gt_joints ga) = (Some 1%nat, Some 2%nat) /\
  seen (Some 1%nat, Some 2%nat) k <> seen (Some 1%nat, Some 2%nat) k'.
Proof. exists (up 1), (up 2). exact inequalities. Qed.
Lemma robot_case : good_robot twice /\ forall q, moved twice (fun _ => trans) q (fk2 q) /\ proper (fk2 q).
Proof. split; [now apply two_good|]. intros q. split; [apply fk2_moved|apply fk2_proper]. Qed.
Lemma segment_refuted : exists rb mot q q' k k', good_robot rb /\ explicit_joints rb 0 [(1%Z, 3%Z)] = (None, Some 1%nat) /\
  moved rb mot q k /\ moved rb mot q' k' /\ proper k /\ proper k' /\
  vars q 1 3 = vars q' 1 3 /\ seen (None, Some 1%nat) k <> seen (None, Some 1%nat) k'.
Proof.
  exists twice, (fun _ => trans), (qa 1), (qa 2), (fk2 (qa 1)), (fk2 (qa 2)). destruct straddle as (A & B & C & D & E & F).
  pose proof (fk2_proper (qa 1)). pose proof (fk2_proper (qa 2)). tauto.
Qed.
Lemma locked_parts : forall rb,
  (forall i j, nth_error rb i = Some j -> ~ In (String.append "partial_" (j_name j)) (map j_name rb) ->
     exists lk, partial_lock rb (S i) = Some lk /\ locked_joints rb lk = Some nobody) /\
  (forall device number, ~ In (String.append device (String.append "_extraDof" number)) (map j_name rb) ->
     locked_joints rb (extra_lock device number) = Some nobody).
Proof.
  intros rb. split.
  - intros i j N H. unfold partial_lock. cbn [Nat.sub]. rewrite Nat.sub_0_r, N. eexists. split; [reflexivity|]. now apply locked_part.
  - intros device number H. now apply locked_part.
Qed.
Lemma partial_name_refuted : exists rb mot q q' k k', good_robot rb /\
  (exists lk, partial_lock rb 1 = Some lk /\ locked_joints rb lk = Some (None, Some 1%nat)) /\
  moved rb mot q k /\ moved rb mot q' k' /\ proper k /\ proper k' /\
  vars q 0 1 = vars q' 0 1 /\ seen (None, Some 1%nat) k <> seen (None, Some 1%nat) k'.
Proof.
  exists named, (fun _ => trans), (qb 1), (qb 2), (fk2 (qb 1)), (fk2 (qb 2)). destruct partial_name as (A & B & C & D & E & F).
  pose proof (fk2_proper (qb 1)). pose proof (fk2_proper (qb 2)). tauto.
Qed.
Lemma extra_name_refuted : exists rb device number, good_robot rb /\ locked_joints rb (extra_lock device number) = None.
Proof. exists clash, "r"%string, "0"%string. exact extra_name. Qed.
