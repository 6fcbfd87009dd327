(** Specification of RelativeCom. *)
From Coq Require Import Reals List Bool Arith.
From Verif Require Import Geo Rigid GTModel GTSpec RelComModel.
Import ListNotations.
Local Open Scope R_scope.

(** Three flags, and none after them. *)
Definition three_flags (mask : list bool) : Prop := (3 <= length mask)%nat /\ count (skipn 3 mask) = 0%nat.
(** [p]: center of mass in the frame of the joint *)
Definition com_in_joint (k : ckin) (j : nat) (p : v3) : Prop := act (place (ck k) j) p = ccom k.
(** Joint and center of mass move with the velocity [d] of the robot. *)
Definition com_moves (K : R -> ckin) (j : nat) (t : R) (d : list R) : Prop :=
  joint_moves (Some j) (fun s => ck (K s)) t d /\
  vderiv (fun s => ccom (K s)) t (vapp (ccomJ (K t)) d) /\ length (ccomJ (K t)) = length (jjac (ck (K t)) j).
