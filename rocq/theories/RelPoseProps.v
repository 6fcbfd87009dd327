(** C94: pairs of joints of which the relative pose is constrained. *)
From Coq Require Import String ZArith Reals List Bool.
From Verif Require Import Geo GeoLemmas Rigid LogModel GTModel GTSpec SegModel EcsModel ImplModel ImplSpec ContactJacModel.
From Verif Require Import RelPoseModel RelPoseSpec RelPoseProofs RelPoseContact RelPoseCases.
Import ListNotations.
Local Open Scope R_scope.

(** A transformation function gives its two joints, the smallest index first; its value only
    depends on the pose of one seen from the other. *)
Theorem C94_transformation : forall (isId : m3 -> bool) (isZero : v3 -> bool) (quat : m3 -> list R),
  (forall m, isId m = true -> m = m1) -> (forall v, isZero v = true -> v = v0) -> (forall m, length (quat m) = 4%nat) ->
  forall o mask l, good_mask o mask -> let g := setup isId isZero o mask l in rotation (rot (F1 g)) -> rotation (rot (F2 g)) ->
  pair_of (gt_joints g) (g_j1 g) (g_j2 g) /\
  forall k k', proper k -> proper k' -> seen (gt_joints g) k = seen (gt_joints g) k' -> value quat o g k = value quat o g k'.
Proof. exact gt_transformation. Qed.
Print Assumptions C94_transformation.

(** The contact of convex shapes, its complement and both together give a pair of joints only if
    all floors are on one joint and all objects on another one; their values only depend on the
    pose of one seen from the other. *)
Theorem C94_contact : forall (isId : m3 -> bool) (isZero : v3 -> bool) c, contact_joints c <> nobody ->
  floors c <> [] /\ objects c <> [] /\
  (forall f o, In f (floors c) -> In o (objects c) ->
     exists a b, pair_of (contact_joints c) a b /\ jindex a = jindex (sj f) /\ jindex b = jindex (sj o)) /\
  forall k k', proper k -> proper k' -> seen (contact_joints c) k = seen (contact_joints c) k' ->
    contact_value isId isZero c k = contact_value isId isZero c k' /\
    complement_value isId isZero c k = complement_value isId isZero c k' /\
    hold_fun_value isId isZero c k = hold_fun_value isId isZero c k'.
Proof. exact contact_depends. Qed.
Print Assumptions C94_contact.
Example C94_contact_case : exists c, create_contact [square 2 0; square 2 5] [square 1 0] (fun _ => 1) = Done c /\
  contact_joints c = (Some 1%nat, Some 2%nat) /\ contact_joints c <> nobody.
Proof. exact contact_case. Qed.
Example C94_contact_mixed_case : exists c, create_contact [square 2 0; square 3 5] [square 1 0] (fun _ => 1) = Done c /\ contact_joints c = nobody.
Proof. exact contact_mixed. Qed.

(** A constraint gives the joints of its function exactly when it has six rows and all are active. *)
Theorem C94_reported : forall F nv (c : impl F) d, impl_reach c ->
  (constrained_joints nv c d <> nobody <-> nv = 6%nat /\ Forall (fun b => b = true) (m_mask c) /\ d <> nobody) /\
  (constrained_joints nv c d <> nobody -> constrained_joints nv c d = d).
Proof. exact @reported. Qed.
Print Assumptions C94_reported.

(** For a transformation, the active rows then determine the relative pose of the two joints, if
    relative rotations are of less than a half turn (or different quaternions for different
    rotations when the output is in SO(3)). *)
Theorem C94_constrained : forall (isId : m3 -> bool) (isZero : v3 -> bool) (quat : m3 -> list R),
  (forall m, isId m = true -> m = m1) -> (forall v, isZero v = true -> v = v0) -> (forall m, length (quat m) = 4%nat) ->
  forall o mask l, good_mask o mask -> let g := setup isId isZero o mask l in rotation (rot (F1 g)) -> rotation (rot (F2 g)) ->
  forall F (c : impl F), impl_reach c -> length (m_mask c) = count mask ->
  let p := constrained_joints (count mask) c (gt_joints g) in p <> nobody ->
  pair_of p (g_j1 g) (g_j2 g) /\
  forall k k', proper k -> proper k' ->
    (if so3 o then forall a b, rotation a -> rotation b -> quat a = quat b -> a = b
     else angle (rot (relpose g k)) < PI /\ angle (rot (relpose g k')) < PI) ->
    same_rows o (m_mask c) (value quat o g k) (value quat o g k') -> seen p k = seen p k'.
Proof. exact gt_constraint. Qed.
Print Assumptions C94_constrained.
(** six equalities on joints 1 and 2; two places of joint 2 with different values *)
Example C94_constrained_case : good_mask o6 ones /\ rotation (rot (F1 ga)) /\ rotation (rot (F2 ga)) /\ impl_reach (c6 Equality) /\
  constrained_joints (count ones) (c6 Equality) (gt_joints ga) = (Some 1%nat, Some 2%nat) /\
  (forall x, proper (up x) /\ angle (rot (relpose ga (up x))) < PI /\ value quat4 o6 ga (up x) = [x; x; x; 0; 0; 0] /\
     seen (Some 1%nat, Some 2%nat) (up x) = SE3 m1 (V3 x x x)).
Proof. exact constrained_case. Qed.

(** Half turns: six equalities are reported as fixing the relative pose, two relative poses have the same value. *)
Theorem C94_half_turn_refuted : exists k k', proper k /\ proper k' /\ value quat4 o6 ga k = value quat4 o6 ga k' /\
  constrained_joints 6 (c6 Equality) (gt_joints ga) = (Some 1%nat, Some 2%nat) /\
  seen (Some 1%nat, Some 2%nat) k <> seen (Some 1%nat, Some 2%nat) k'.
Proof. exact half_turn_refuted. Qed.
Print Assumptions C94_half_turn_refuted.

(** Comparison types are not looked at: six inequalities are reported as fixing the relative pose. *)
Theorem C94_inequality_refuted : exists k k', proper k /\ proper k' /\
  Forall (row_holds Superior 0) (value quat4 o6 ga k) /\ Forall (row_holds Superior 0) (value quat4 o6 ga k') /\
  constrained_joints 6 (c6 Superior) (gt_joints ga) = (Some 1%nat, Some 2%nat) /\
  seen (Some 1%nat, Some 2%nat) k <> seen (Some 1%nat, Some 2%nat) k'.
Proof. exact inequality_refuted. Qed.
Print Assumptions C94_inequality_refuted.

(** An explicit function gives a pair only if it is constant with one segment of output that
    starts in the variables of a joint and has their number; the pair is the joint and its parent. *)
Theorem C94_constant : forall rb input out, good_robot rb -> explicit_joints rb input out <> nobody ->
  input = O /\ exists r i j, out = [(r, j_size j)] /\ nth_error rb i = Some j /\ (j_rank j <= r < j_rank j + j_size j)%Z /\
    explicit_joints rb input out = (j_parent j, Some (S i)).
Proof. exact explicit_constant. Qed.
Print Assumptions C94_constant.

(** If the segment is that of the joint, the pair is given and the output fixes the relative pose. *)
Theorem C94_constant_joint : forall rb i j, good_robot rb -> nth_error rb i = Some j ->
  explicit_joints rb 0 [(j_rank j, j_size j)] = (j_parent j, Some (S i)) /\
  forall mot q q' k k', moved rb mot q k -> moved rb mot q' k' -> proper k -> proper k' ->
    vars q (j_rank j) (j_size j) = vars q' (j_rank j) (j_size j) -> seen (j_parent j, Some (S i)) k = seen (j_parent j, Some (S i)) k'.
Proof. exact explicit_aligned. Qed.
Print Assumptions C94_constant_joint.
Example C94_robot_case : good_robot twice /\ forall q, moved twice (fun _ => trans) q (fk2 q) /\ proper (fk2 q).
Proof. exact robot_case. Qed.

(** A segment across two joints is taken for the first one. *)
Theorem C94_segment_refuted : exists rb mot q q' k k', good_robot rb /\ explicit_joints rb 0 [(1%Z, 3%Z)] = (None, Some 1%nat) /\
  moved rb mot q k /\ moved rb mot q' k' /\ proper k /\ proper k' /\
  vars q 1 3 = vars q' 1 3 /\ seen (None, Some 1%nat) k <> seen (None, Some 1%nat) k'.
Proof. exact segment_refuted. Qed.
Print Assumptions C94_segment_refuted.

(** A locked joint gives its parent and itself, and locking its variables fixes the relative pose. *)
Theorem C94_locked : forall rb i j, good_robot rb -> nth_error rb i = Some j ->
  exists lk, whole_lock rb (S i) = Some lk /\ locked_joints rb lk = Some (j_parent j, Some (S i)) /\
  forall mot q q' k k', moved rb mot q k -> moved rb mot q' k' -> proper k -> proper k' ->
    vars q (j_rank j) (j_size j) = vars q' (j_rank j) (j_size j) -> seen (j_parent j, Some (S i)) k = seen (j_parent j, Some (S i)) k'.
Proof. exact locked_whole. Qed.
Print Assumptions C94_locked.

(** A joint partially locked or extra variables give no pair, unless a joint of the robot has their name. *)
Theorem C94_locked_part : forall rb,
  (forall i j, nth_error rb i = Some j -> ~ In (String.append "partial_" (j_name j)) (map j_name rb) ->
     exists lk, partial_lock rb (S i) = Some lk /\ locked_joints rb lk = Some nobody) /\
  (forall device number, ~ In (String.append device (String.append "_extraDof" number)) (map j_name rb) ->
     locked_joints rb (extra_lock device number) = Some nobody).
Proof. exact locked_parts. Qed.
Print Assumptions C94_locked_part.

(** With a joint of that name, one variable locked out of three is reported as fixing the relative pose. *)
Theorem C94_partial_name_refuted : exists rb mot q q' k k', good_robot rb /\
  (exists lk, partial_lock rb 1 = Some lk /\ locked_joints rb lk = Some (None, Some 1%nat)) /\
  moved rb mot q k /\ moved rb mot q' k' /\ proper k /\ proper k' /\
  vars q 0 1 = vars q' 0 1 /\ seen (None, Some 1%nat) k <> seen (None, Some 1%nat) k'.
Proof. exact partial_name_refuted. Qed.
Print Assumptions C94_partial_name_refuted.

(** With a joint that has the name of the extra variables, a null joint is dereferenced. *)
Theorem C94_extra_name_refuted : exists rb device number, good_robot rb /\ locked_joints rb (extra_lock device number) = None.
Proof. exact extra_name_refuted. Qed.
Print Assumptions C94_extra_name_refuted.
