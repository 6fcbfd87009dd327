(** Specification of ConfigurationConstraint. *)
From Coq Require Import Reals List Bool Arith.
From Verif Require Import Geo ConfModel.
Import ListNotations.
Local Open Scope R_scope.

(** [D] times the velocity [v] *)
Definition apply (n : nat) (D : nat -> R) (v : nat -> R) : R := rsum n (fun j => D j * v j).
(** [dd] is the derivative of [diff] along the motion [A] with velocity [v] *)
Definition diff_moves {Q} (n : nat) (diff : Q -> nat -> R) (dd : Q -> nat -> nat -> R) (A : R -> Q) (t : R) (v : nat -> R) : Prop :=
  forall i, (i < n)%nat -> deriv (fun s => diff (A s) i) t (apply n (dd (A t) i) v).
(** Variables mixed by the difference have the same weight. *)
Definition same_weights {Q} (n : nat) (dd : Q -> nat -> nat -> R) (ws : list R) (q : Q) : Prop :=
  forall i j, (i < n)%nat -> (j < n)%nat -> dd q i j <> 0 -> nth i ws 0 = nth j ws 0.

(** Joints cover disjoint intervals of the configuration and of the velocity. *)
Definition inq (j : jnt) (i : nat) : Prop := (jiq j <= i < jiq j + jnq j)%nat.
Definition inv (j : jnt) (i : nat) : Prop := (jiv j <= i < jiv j + jnv j)%nat.
Definition good_dev (d : dev) : Prop :=
  (forall j, In j (d_joints d) -> (jiq j + jnq j <= d_nq d)%nat /\ (jiv j + jnv j <= d_nv d)%nat) /\
  (forall j j' i, In j (d_joints d) -> In j' (d_joints d) -> inv j i -> inv j' i -> j = j') /\
  (forall j j' i, In j (d_joints d) -> In j' (d_joints d) -> inq j i -> inq j' i -> j = j').
(** Coordinates of the difference: those of a joint depend on the configuration of that joint,
    the others on the variables of no joint. *)
Definition local_diff (d : dev) (diff : (nat -> R) -> nat -> R) : Prop :=
  forall i q q', (i < d_nv d)%nat ->
    (forall j, In j (d_joints d) -> inv j i -> forall k, inq j k -> q k = q' k) ->
    ((forall j, In j (d_joints d) -> ~ inv j i) -> forall k, (k < d_nq d)%nat -> (forall j, In j (d_joints d) -> ~ inq j k) -> q k = q' k) ->
    diff q i = diff q' i.
