From Coq Require Import Reals List Bool.
From Verif Require Import Geo Rigid GTModel GTSpec RelComModel RelComSpec RelComProofs RelComExamples.
Import ListNotations.
Local Open Scope R_scope.

(** The value is the part selected by the mask of the position of the center of mass in the frame
    of the joint, minus the reference. *)
Theorem C72_value : forall j ref mask, three_flags mask -> exists f, rc_create (Some j) ref mask = Some f /\
  forall k old, rotation (rot (place (ck k) j)) -> length old = rc_size mask ->
  exists p, com_in_joint k j p /\ rc_value f k old = Some (select mask (v3l (vsub p ref))).
Proof. exact rc_value_all. Qed.
Print Assumptions C72_value.

(** The Jacobian is the derivative of the value, zero for the extra degrees of freedom. *)
Theorem C72_jacobian : forall j ref mask, three_flags mask -> exists f, rc_create (Some j) ref mask = Some f /\
  forall K t d old out, com_moves K j t d -> Forall (fun c => length c = rc_size mask) old -> (length (jjac (ck (K t)) j) <= length old)%nat -> length out = rc_size mask ->
  exists J, rc_jacobian f (K t) old = Some J /\ length J = length old /\ Forall (fun c => length c = rc_size mask) J /\
    (forall c, In c (skipn (length (jjac (ck (K t)) j)) J) -> Forall (fun x => x = 0) c) /\
    forall i, (i < rc_size mask)%nat -> deriv (fun s => match rc_value f (K s) out with Some v => nth i v 0 | None => 0 end) t (row_times J i d).
Proof. exact rc_jac_all. Qed.
Print Assumptions C72_jacobian.

(** A null joint, printed as the world, is dereferenced. *)
Theorem C72_world_refuted : forall ref mask f k old oldJ, rc_create None ref mask = Some f -> rc_value f k old = None /\ rc_jacobian f k oldJ = None.
Proof. exact rc_null. Qed.
Print Assumptions C72_world_refuted.

(** A mask of less than three elements is read out of bounds, by the constructor or by the first evaluation. *)
Theorem C72_short_mask_refuted : forall j ref mask, (length mask < 3)%nat -> forall f, rc_create j ref mask = Some f -> forall k old, rc_value f k old = None.
Proof. exact rc_short. Qed.
Print Assumptions C72_short_mask_refuted.

(** With a longer mask the output has more rows than are written. *)
Theorem C72_long_mask_refuted : forall j ref, exists f, rc_create (Some j) ref [true; false; false; true] = Some f /\ rc_size (rc_mask f) = 2%nat /\
  forall k a b, exists x, rc_value f k [a; b] = Some [x; b].
Proof. exact rc_long. Qed.
Print Assumptions C72_long_mask_refuted.

Example C72_case : three_flags [true; false; true] /\ com_moves K_com 2 1 [1] /\
  forall s, rotation (rot (place (ck (K_com s)) 2)) /\ exists f, rc_create (Some 2%nat) (V3 0 0 1) [true; false; true] = Some f /\
  rc_value f (K_com s) [0; 0] = Some [cos s * (s - 1); 2].
Proof. exact case_com. Qed.
