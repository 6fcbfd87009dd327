(** Rotations: Rodrigues' formula from the trace and the antisymmetric part. *)
From Coq Require Import Reals Lra.
From Verif Require Import Geo GeoLemmas Rigid LogModel.
Local Open Scope R_scope.

Ltac cv := cbv beta iota delta [vadd vsub vopp vscale vdot vcross mulv mtr mul m1 m0 v0 madd msub mopp mscale det cross_matrix trace vee outer vx vy vz ra rb rc].
Ltac cvin H := cbv beta iota delta [vadd vsub vopp vscale vdot vcross mulv mtr mul m1 m0 v0 madd msub mopp mscale det cross_matrix trace vee outer vx vy vz ra rb rc] in H.

Lemma vee_rate m w : vee (mul (cross_matrix w) m) = vsub (vscale (trace m) w) (mulv m w).
Proof. destruct m as [[] [] []], w; cv; f_equal; ring. Qed.
Lemma vee_rate_r m w : vee (mul m (cross_matrix w)) = vsub (vscale (trace m) w) (mulv (mtr m) w).
Proof. destruct m as [[] [] []], w; cv; f_equal; ring. Qed.
Lemma trace_rate m w : trace (mul (cross_matrix w) m) = - vdot w (vee m).
Proof. destruct m as [[] [] []], w; cv; ring. Qed.
Lemma trace_rate_r m w : trace (mul m (cross_matrix w)) = - vdot w (vee m).
Proof. destruct m as [[] [] []], w; cv; ring. Qed.
Lemma vee_tr m : vee (mtr m) = vopp (vee m).
Proof. destruct m as [[] [] []]; cv; f_equal; ring. Qed.
Lemma trace_tr m : trace (mtr m) = trace m.
Proof. reflexivity. Qed.

(** the symmetric part *)
Lemma sym_part m : rotation m -> mscale (1 + trace m) (madd (madd m (mtr m)) (mscale (1 - trace m) m1)) = outer (vee m) (vee m).
Proof.
  intros H. pose proof (rotation_mtr_l m H) as Hl. pose proof (rotation_cof m H) as Hc. destruct H as [Hr _].
  destruct m as [[a b c] [d e f] [g h i]].
  unfold cof in Hc. cvin Hc. cvin Hr. cvin Hl. injection Hc as c1 c2 c3 c4 c5 c6 c7 c8 c9.
  injection Hr as r1 r2 r3 r4 r5 r6 r7 r8 r9. injection Hl as l1 l2 l3 l4 l5 l6 l7 l8 l9.
  cv. f_equal; f_equal; lra.
Qed.
