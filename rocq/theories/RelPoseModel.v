(** Pairs of joints of which the relative pose is constrained: dependsOnRelPoseBetween of the
    functions, doesConstrainRelPoseBetween of the constraints.

    Source: include/hpp/constraints/generic-transformation.hh:310-321,
            include/hpp/constraints/explicit/relative-transformation.hh:91-103,
            include/hpp/constraints/convex-shape-contact.hh:167-201, 312-315, 372-375,
            include/hpp/constraints/differentiable-function.hh:174-177,
            src/explicit/implicit-function.cc:298-327, src/implicit.cc:231-244,
            src/locked-joint.cc:213-229.

    A joint is given by its positive index in the robot, a null pointer is the universe, of
    index 0 (Joint::index of hpp-pinocchio). *)
From Coq Require Import ZArith List Bool Arith String.
From Verif Require Import SegModel EcsModel ImplModel GTModel ContactJacModel.
Import ListNotations.
Local Open Scope nat_scope.

Definition jindex (j : option nat) : nat := match j with Some i => i | None => 0 end.
Definition jpair := (option nat * option nat)%type.
Definition nobody : jpair := (None, None).
(** the two joints, the one of smallest index first *)
Definition in_order (j1 j2 : option nat) : jpair := if jindex j1 <=? jindex j2 then (j1, j2) else (j2, j1).

(** generic-transformation.hh:310-321; the same code in explicit/relative-transformation.hh:91-103 *)
Definition gt_joints (g : gt) : jpair := in_order (g_j1 g) (g_j2 g).

(** convex-shape-contact.hh:167-201; the complement and both together call it, 312-315 and 372-375 *)
Definition contact_joints (c : contact) : jpair :=
  match floors c, objects c with
  | f :: _, o :: _ =>
      if forallb (fun x => jindex (sj x) =? jindex (sj f)) (floors c)
      then if forallb (fun x => jindex (sj x) =? jindex (sj o)) (objects c)
           then in_order (sj f) (sj o) else nobody
      else nobody
  | _, _ => nobody
  end.

(** joints of a robot, index 1 first: name, rank in the configuration, number of configuration
    variables, parent *)
Record joint := mkjoint { j_name : string; j_rank : Z; j_size : Z; j_parent : option nat }.
Definition robot := list joint.
(** Device::getJointAtConfigRank of hpp-pinocchio: the joint that has this configuration variable *)
Fixpoint joint_at (rb : robot) (i : nat) (r : Z) : option (nat * joint) :=
  match rb with
  | [] => None
  | j :: t => if ((j_rank j <=? r) && (r <? j_rank j + j_size j))%Z then Some (i, j) else joint_at t (S i) r
  end.
(** implicit-function.cc:298-327; [input]: size of the input of the explicit function *)
Definition explicit_joints (rb : robot) (input : nat) (out : list (Z * Z)) : jpair :=
  if negb (input =? 0) then nobody
  else match out with
       | [row] =>
           match joint_at rb 1 (fst row) with
           | Some (i, j) => if (snd row =? j_size j)%Z then in_order (Some i) (j_parent j) else nobody
           | None => nobody
           end
       | _ => nobody
       end.

(** implicit.cc:231-244; [nv]: dimension of the output space of the function *)
Definition constrained_joints {F} (nv : nat) (c : impl F) (depends : jpair) : jpair :=
  if negb (nv =? 6) || negb (cardinal (m_inactive c) =? 0)%Z then nobody else depends.

(** a locked joint, locked-joint.cc:104-173: name and joint *)
Record locked_joint := mklj { lj_name : string; lj_joint : option nat }.
Definition whole_lock (rb : robot) (i : nat) : option locked_joint :=
  option_map (fun j => mklj (j_name j) (Some i)) (nth_error rb (i - 1)).
Definition partial_lock (rb : robot) (i : nat) : option locked_joint :=
  option_map (fun j => mklj ("partial_" ++ j_name j) (Some i)) (nth_error rb (i - 1)).
Definition extra_lock (device number : string) : locked_joint := mklj (device ++ "_extraDof" ++ number) None.
(** locked-joint.cc:213-229; [None]: null joint dereferenced *)
Definition locked_joints (rb : robot) (k : locked_joint) : option jpair :=
  if negb (existsb (fun j => String.eqb (j_name j) (lj_name k)) rb) then Some nobody
  else match lj_joint k with
       | None => None
       | Some i =>
           match nth_error rb (i - 1) with
           | None => None
           | Some j => Some (if jindex (j_parent j) <=? i then (j_parent j, Some i) else (Some i, j_parent j))
           end
       end.
