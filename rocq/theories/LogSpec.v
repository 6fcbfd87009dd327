(** Specification of the logarithms.  The exponential of a vector is where the rotation that
    turns at that constant velocity is at time 1; the exponential of a velocity is where a body
    with that constant velocity, seen from itself, is at time 1. *)
From Coq Require Import Reals.
From Verif Require Import Geo Rigid.
Local Open Scope R_scope.

Definition turns_to (r : v3) (m : m3) : Prop :=
  exists E : R -> m3, E 0 = m1 /\ (forall t, mderiv E t (mul (E t) (cross_matrix r))) /\ E 1 = m.
Definition screws_to (T : twist) (M : se3) : Prop :=
  exists E : R -> se3, E 0 = sid /\ (forall t, moves E t T) /\ E 1 = M.
