From Coq Require Import ZArith List Bool Arith Lia ZifyBool.
From Verif Require Import SegModel SegSpec TreeModel TreeSpec TreeProofs TreeExamples.
Import ListNotations.
Open Scope Z_scope.

Lemma contact_several_joints :
  exists par seg floors o1 o2 f g v, tree par /\ disjoint seg /\
    contact_active par seg 20 floors [o1; o2] (fun _ => false) = Some f /\
    contact_vars par seg 20 floors o1 (fun _ => false) = Some g /\
    f v = true /\ g v = false /\ ~ of_joint seg o1 v /\ ~ of_joint seg o2 v.
Proof.
  exists tpar, tseg, [0%nat], 6%nat, 4%nat. eexists. eexists. exists 7.
  split; [exact tpar_tree|]. split; [exact tseg_disjoint|]. split; [vm_compute; reflexivity|]. split; [vm_compute; reflexivity|].
  unfold of_joint. repeat split; try (vm_compute; reflexivity); cbn; lia.
Qed.
