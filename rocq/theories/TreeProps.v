(** Theorems of property C51: active variables of relative transformations. *)
From Coq Require Import ZArith List Bool Arith.
From Verif Require Import SegModel SegSpec TreeModel TreeSpec TreeProofs TreeExamples TreeMain.
Import ListNotations.
Open Scope Z_scope.

(** setActiveParameters terminates and raises exactly the flags of the variables of the
    joints on the path; the other flags keep their value. *)
Theorem C51_active : forall par seg i1 i2 f fuel, tree par -> (i1 + i2 <= fuel)%nat ->
  exists f', set_active par seg fuel i1 i2 f = Some f' /\
    forall v, f' v = true <-> f v = true \/ on_path par seg i1 i2 v.
Proof. exact active_spec. Qed.
Print Assumptions C51_active.
Example C51_active_case : flags (set_active tpar tseg 20 4 5 (fun _ => false)) = [(7, 4)]
  /\ flags (set_active tpar tseg 20 4 2 (fun _ => false)) = [(8, 1)]
  /\ flags (set_active tpar tseg 20 5 6 (fun _ => false)) = [(0, 7); (9, 9)] /\ tree tpar.
Proof. repeat split; try (vm_compute; reflexivity). exact tpar_tree. Qed.

(** The input variables of an explicit relative pose are those of the path between the
    first joint and the parent of the second one. *)
Theorem C51_relative_pose : forall par seg i1 i2 fuel, tree par -> disjoint seg ->
  (i1 <= fuel)%nat -> (i2 <= fuel)%nat -> (0 < i2)%nat ->
  exists f, rel_pose_vars par seg fuel i1 i2 = Some f /\ forall v, f v = true <-> on_path par seg i1 (par i2) v.
Proof. exact rel_pose_inputs. Qed.
Print Assumptions C51_relative_pose.
Example C51_relative_pose_case : flags (rel_pose_vars tpar tseg 20 4 6) = [(0, 9)]
  /\ flags (rel_pose_vars tpar tseg 20 4 5) = [(7, 3)] /\ tree tpar /\ disjoint tseg.
Proof. repeat split; try (vm_compute; reflexivity). - exact tpar_tree. - exact tseg_disjoint. Qed.

(** The two algorithms agree: when joint 2 does not carry joint 1, the active variables
    are the inputs and the variables of joint 2, and the latter are no inputs. *)
Theorem C51_agree : forall par seg i1 i2 fuel, tree par -> disjoint seg ->
  (i1 + i2 <= fuel)%nat -> (0 < i2)%nat -> ~ anc par i1 i2 ->
  exists f g, set_active par seg fuel i1 i2 (fun _ => false) = Some f /\ rel_pose_vars par seg fuel i1 i2 = Some g /\
    (forall v, f v = true <-> g v = true \/ of_joint seg i2 v) /\
    (forall v, of_joint seg i2 v -> g v = false).
Proof. exact two_algorithms. Qed.
Print Assumptions C51_agree.
Example C51_agree_case : flags (set_active tpar tseg 20 4 5 (fun _ => false)) = [(7, 4)]
  /\ flags (rel_pose_vars tpar tseg 20 4 5) = [(7, 3)] /\ tseg 5 = (10, 1).
Proof. repeat split; vm_compute; reflexivity. Qed.

(** When joint 2 carries joint 1, the explicit constraint has its output among its
    inputs. *)
Theorem C51_loop_refuted : forall par seg i1 i2 fuel, tree par -> disjoint seg ->
  (i1 <= fuel)%nat -> (i2 <= fuel)%nat -> (0 < i2)%nat -> anc par i1 i2 ->
  exists g, rel_pose_vars par seg fuel i1 i2 = Some g /\ forall v, of_joint seg i2 v -> g v = true.
Proof. exact output_in_inputs. Qed.
Print Assumptions C51_loop_refuted.
Example C51_loop_refuted_case : flags (rel_pose_vars tpar tseg 20 4 2) = [(7, 2)] /\ tseg 2 = (7, 1) /\ anc tpar 4 2.
Proof. repeat split; try (vm_compute; reflexivity). constructor; [auto with arith|constructor]. Qed.

(** The intervals built from the flags cover exactly the flagged indices, sorted, disjoint,
    not adjacent and not empty. *)
Theorem C51_intervals : forall n f, 0 <= n ->
  (forall i, covers (to_intervals n f) i <-> 0 <= i < n /\ f i = true) /\
  sorted_separated (to_intervals n f) /\ positive (to_intervals n f).
Proof. exact to_intervals_spec. Qed.
Print Assumptions C51_intervals.
Example C51_intervals_case : to_intervals 10 (fun i => Z.odd (i / 2)) = [(2, 2); (6, 2)].
Proof. reflexivity. Qed.

(** The relative pose of two joints does not depend on the other variables.  Poses are
    elements of any group; the pose of a joint is the pose of its parent composed with a
    function of the variables of the joint. *)
Theorem C51_independent : forall (V G : Type) (mul : G -> G -> G) (inv : G -> G) (one : G),
  (forall a b c, mul a (mul b c) = mul (mul a b) c) -> (forall a, mul one a = a) -> (forall a, mul (inv a) a = one) ->
  forall par seg (jm oM : nat -> (Z -> V) -> G), tree par ->
  (forall i q q', (0 < i)%nat -> (forall v, of_joint seg i v -> q v = q' v) -> jm i q = jm i q') ->
  (forall i q, (0 < i)%nat -> oM i q = mul (oM (par i) q) (jm i q)) ->
  forall i j q q' fuel f, (i + j <= fuel)%nat ->
  set_active par seg fuel i j (fun _ => false) = Some f ->
  (forall v, f v = true -> q v = q' v) ->
  mul (inv (oM i q)) (oM j q) = mul (inv (oM i q')) (oM j q').
Proof. exact @independent. Qed.
Print Assumptions C51_independent.
Example C51_independent_case :
  (forall i q, (0 < i < 7)%nat -> tpose (S i) i q = tpose i (tpar i) q + tjm i q) /\
  let q := fun v => v * v + 1 in let q' := fun v => if (7 <=? v) && (v <? 11) then q v else 0 in
  - tpose 7 4 q + tpose 7 5 q = - tpose 7 4 q' + tpose 7 5 q' /\ - tpose 7 4 q + tpose 7 5 q = 68 /\ tpose 7 4 q <> tpose 7 4 q'.
Proof. split; [intros [|i] q H; [inversion H as [X]; inversion X|reflexivity]|]. repeat split; vm_compute; congruence. Qed.

(** The same for the pose of joint 1 in the frame of the parent of joint 2, that
    determines the output of the explicit constraint. *)
Theorem C51_inputs_suffice : forall (V G : Type) (mul : G -> G -> G) (inv : G -> G) (one : G),
  (forall a b c, mul a (mul b c) = mul (mul a b) c) -> (forall a, mul one a = a) -> (forall a, mul (inv a) a = one) ->
  forall par seg (jm oM : nat -> (Z -> V) -> G), tree par -> disjoint seg ->
  (forall i q q', (0 < i)%nat -> (forall v, of_joint seg i v -> q v = q' v) -> jm i q = jm i q') ->
  (forall i q, (0 < i)%nat -> oM i q = mul (oM (par i) q) (jm i q)) ->
  forall i j q q' fuel g, (i <= fuel)%nat -> (j <= fuel)%nat -> (0 < j)%nat ->
  rel_pose_vars par seg fuel i j = Some g ->
  (forall v, g v = true -> q v = q' v) ->
  mul (inv (oM (par j) q)) (oM i q) = mul (inv (oM (par j) q')) (oM i q').
Proof. exact @inputs_suffice. Qed.
Print Assumptions C51_inputs_suffice.
Example C51_inputs_suffice_case :
  let q := fun v => v * v + 1 in let q' := fun v => if (7 <=? v) && (v <? 10) then q v else 0 in
  - tpose 7 (tpar 5) q + tpose 7 4 q = - tpose 7 (tpar 5) q' + tpose 7 4 q' /\ flags (rel_pose_vars tpar tseg 20 4 5) = [(7, 3)].
Proof. repeat split; vm_compute; reflexivity. Qed.

(** Contact of convex shapes: union over the pairs of surfaces of the variables on the
    path of the two joints. *)
Theorem C51_contact : forall par seg floors objects fuel, tree par ->
  (forall j o, In j floors -> In o objects -> (j + o <= fuel)%nat) ->
  exists f, contact_active par seg fuel floors objects (fun _ => false) = Some f /\
    forall v, f v = true <-> exists j o, In j floors /\ In o objects /\ on_path par seg j o v.
Proof. exact contact_active_set. Qed.
Print Assumptions C51_contact.
Example C51_contact_case : flags (contact_active tpar tseg 20 [0; 4]%nat [6; 6]%nat (fun _ => false)) = [(0, 9); (11, 7)].
Proof. vm_compute. reflexivity. Qed.

(** Explicit contact: the inputs are the variables between a floor and the parent of the
    first object; if all the objects are on one joint that carries no floor, the active
    variables are the inputs and the variables of that joint. *)
Theorem C51_contact_inputs : forall par seg floors objects o fuel, tree par -> disjoint seg ->
  (forall j, In j floors -> (j + o <= fuel)%nat) -> (0 < o <= fuel)%nat ->
  objects <> [] -> (forall o', In o' objects -> o' = o) -> floors <> [] -> (forall j, In j floors -> ~ anc par j o) ->
  exists f g, contact_active par seg fuel floors objects (fun _ => false) = Some f /\
    contact_vars par seg fuel floors o (fun _ => false) = Some g /\
    (forall v, g v = true <-> exists j, In j floors /\ on_path par seg j (par o) v) /\
    (forall v, f v = true <-> g v = true \/ of_joint seg o v).
Proof. exact contact_inputs. Qed.
Print Assumptions C51_contact_inputs.
Example C51_contact_inputs_case : flags (contact_vars tpar tseg 20 [0; 4]%nat 6%nat (fun _ => false)) = [(0, 9)].
Proof. vm_compute. reflexivity. Qed.

(** With objects on several joints, only the first one is looked at: variables that the
    function depends on are missing from the inputs. *)
Theorem C51_contact_inputs_refuted :
  exists par seg floors o1 o2 f g v, tree par /\ disjoint seg /\
    contact_active par seg 20 floors [o1; o2] (fun _ => false) = Some f /\
    contact_vars par seg 20 floors o1 (fun _ => false) = Some g /\
    f v = true /\ g v = false /\ ~ of_joint seg o1 v /\ ~ of_joint seg o2 v.
Proof. exact contact_several_joints. Qed.
Print Assumptions C51_contact_inputs_refuted.
