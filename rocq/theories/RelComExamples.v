From Coq Require Import Reals List Bool Arith Lia Lra.
From Verif Require Import Geo GeoLemmas Rigid RigidExamples DistModel GTModel GTSpec GTExamples RelComModel RelComSpec RelComProofs.
Import ListNotations.
Local Open Scope R_scope.
(** joint 2 turns and moves forward, the center of mass moves forward twice as fast *)
Definition K_com (s : R) : ckin := CK (K_ex s) (V3 (2 * s) 0 3) [V3 2 0 0].
Lemma case_com : three_flags [true; false; true] /\ com_moves K_com 2 1 [1] /\
  forall s, rotation (rot (place (ck (K_com s)) 2)) /\ exists f, rc_create (Some 2%nat) (V3 0 0 1) [true; false; true] = Some f /\
  rc_value f (K_com s) [0; 0] = Some [cos s * (s - 1); 2].
Proof.
  split; [split; cbn; lia|]. split.
  - split; [exact K_moves2|]. split; [|reflexivity]. repeat split; cbn; try apply deriv_const.
    + eapply deriv_eq; [|apply (deriv_scale 2 (fun s => s) 1 1), derivable_pt_lim_id]. ring.
    + eapply deriv_eq; [|apply deriv_const]. ring.
    + eapply deriv_eq; [|apply deriv_const]. ring.
  - intros s. split; [apply rotz_rotation|]. eexists. split; [reflexivity|]. cbn -[cos sin]. unfold vdot. cbn -[cos sin]. f_equal. f_equal; [ring|]. f_equal. ring.
Qed.
