(** Configuration variables along a kinematic chain.

    Source: /repo/src/generic-transformation/helper.hh:502-530 (setActiveParameters),
            /repo/src/explicit/input-configurations.hh:41-160,
            /repo/src/convex-shape-contact.cc:56-112.

    A kinematic tree is the function [par] giving the index of the parent joint
    (pinocchio's model.parents; index 0 is the universe, also denoted by a null joint)
    and the interval [seg i] of the variables of joint i, either in configurations or in
    velocities: both are handled by the same code.  A vector of flags is a function of
    the index. *)
From Coq Require Import ZArith List Bool Arith.
From Verif Require Import SegModel.
Import ListNotations.
Open Scope Z_scope.

Section Tree.
Variable par : nat -> nat.
Variable seg : nat -> Z * Z.

Definition in_joint (i : nat) (v : Z) : bool := (fst (seg i) <=? v) && (v <? send (seg i)).
(** segment(...).setConstant(true) *)
Definition raise_ (i : nat) (f : Z -> bool) : Z -> bool := fun v => if in_joint i v then true else f v.

(** helper.hh:508-528; None = fuel exhausted *)
Fixpoint set_active (fuel i1 i2 : nat) (f : Z -> bool) : option (Z -> bool) :=
  if Nat.eqb i1 i2 then Some f
  else match fuel with
       | O => None
       | S n =>
           if Nat.ltb i2 i1
           then set_active n (par i1) i2 (if Nat.ltb 0 i1 then raise_ i1 f else f)
           else set_active n i1 (par i2) (if Nat.ltb 0 i2 then raise_ i2 f else f)
       end.

(** input-configurations.hh:61-67, loop on one joint: the flags are inverted *)
Definition invert (i : nat) (f : Z -> bool) : Z -> bool := fun v => if in_joint i v then negb (f v) else f v.
Fixpoint climb (fuel i : nat) (f : Z -> bool) : option (Z -> bool) :=
  if Nat.eqb i 0 then Some f
  else match fuel with
       | O => None
       | S n => climb n (par i) (invert i f)
       end.
(** lines 56-76, relPoseConfVariables, and 84-103, relPoseVelVariables *)
Definition rel_pose_vars (fuel i1 i2 : nat) : option (Z -> bool) :=
  match climb fuel i1 (fun _ => false) with
  | Some f => climb fuel (par i2) f
  | None => None
  end.

(** lines 141-158: union over the floor joints, object joint of the first surface *)
Fixpoint contact_vars (fuel : nat) (floors : list nat) (obj : nat) (res : Z -> bool) : option (Z -> bool) :=
  match floors with
  | [] => Some res
  | j :: t =>
      match rel_pose_vars fuel j obj with
      | Some conf => contact_vars fuel t obj (fun v => if conf v then true else res v)
      | None => None
      end
  end.

(** convex-shape-contact.cc:56-66, 90-112: floors are added first, then each object with
    all floors *)
Fixpoint add_object (fuel : nat) (floors : list nat) (o : nat) (f : Z -> bool) : option (Z -> bool) :=
  match floors with
  | [] => Some f
  | j :: t => match set_active fuel j o f with Some f' => add_object fuel t o f' | None => None end
  end.
Fixpoint contact_active (fuel : nat) (floors objects : list nat) (f : Z -> bool) : option (Z -> bool) :=
  match objects with
  | [] => Some f
  | o :: t => match add_object fuel floors o f with Some f' => contact_active fuel floors t f' | None => None end
  end.
End Tree.
(** vectorOfBoolToIntervals, lines 41-47: as BlockIndex::fromLogicalExpression *)
Definition to_intervals (n : Z) (f : Z -> bool) : list (Z * Z) :=
  from_logical (map (fun k => f (Z.of_nat k)) (seq 0 (Z.to_nat n))).
