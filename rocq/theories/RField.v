(** The reals of the standard library as a field of mathcomp.  A choice operator is needed for
    the choiceType, the epsilon of Coq.Logic.Epsilon. *)
From Coq Require Import Reals Epsilon FunctionalExtensionality Lra.
From mathcomp Require Import all_ssreflect all_algebra.
Set Implicit Arguments. Unset Strict Implicit. Unset Printing Implicit Defensive.
Import GRing.Theory.

Definition req (x y : R) : bool := if Req_EM_T x y is left _ then true else false.
Lemma reqP : Equality.axiom req.
Proof. move=> x y; rewrite /req; case: Req_EM_T => h; by constructor. Qed.
Definition R_eqMixin := EqMixin reqP.
Canonical R_eqType := Eval hnf in EqType R R_eqMixin.

Definition rpick (P : pred R) (n : nat) : option R :=
  let x := epsilon (inhabits R0) (fun r => is_true (P r)) in if P x then Some x else None.
Lemma rpick_some P n x : rpick P n = Some x -> P x.
Proof. rewrite /rpick; case: ifP => // h [<-]; exact: h. Qed.
Lemma rpick_ex (P : pred R) : (exists x : R, P x) -> exists n, rpick P n.
Proof. move=> h; exists O; rewrite /rpick. by rewrite (epsilon_spec (inhabits R0) (fun r => is_true (P r)) h). Qed.
Lemma rpick_ext (P Q : pred R) : P =1 Q -> rpick P =1 rpick Q.
Proof. move=> E n; have -> : P = Q by apply: functional_extensionality. by []. Qed.
Definition R_choiceMixin := Choice.Mixin rpick_some rpick_ex rpick_ext.
Canonical R_choiceType := Eval hnf in ChoiceType R R_choiceMixin.

Fact RplusA : associative Rplus. Proof. by move=> x y z; rewrite Rplus_assoc. Qed.
Fact RplusC : commutative Rplus. Proof. exact: Rplus_comm. Qed.
Fact Rplus0 : left_id R0 Rplus. Proof. exact: Rplus_0_l. Qed.
Fact RplusN : left_inverse R0 Ropp Rplus. Proof. exact: Rplus_opp_l. Qed.
Definition R_zmodMixin := ZmodMixin RplusA RplusC Rplus0 RplusN.
Canonical R_zmodType := Eval hnf in ZmodType R R_zmodMixin.
Fact RmultA : associative Rmult. Proof. by move=> x y z; rewrite Rmult_assoc. Qed.
Fact RmultC : commutative Rmult. Proof. exact: Rmult_comm. Qed.
Fact Rmult1 : left_id R1 Rmult. Proof. exact: Rmult_1_l. Qed.
Fact RmultD : left_distributive Rmult Rplus. Proof. move=> x y z; exact: Rmult_plus_distr_r. Qed.
Fact R1n0 : R1 != R0 :> R. Proof. by apply/eqP; exact: R1_neq_R0. Qed.
Definition R_ringMixin := ComRingMixin RmultA RmultC Rmult1 RmultD R1n0.
Canonical R_ringType := Eval hnf in RingType R R_ringMixin.
Canonical R_comRingType := Eval hnf in ComRingType R RmultC.
