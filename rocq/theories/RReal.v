(** The reals of the standard library as an ordered field of mathcomp. *)
From Coq Require Import Reals Lra.
From mathcomp Require Import all_ssreflect all_algebra.
From Verif Require Import RField.
Set Implicit Arguments. Unset Strict Implicit. Unset Printing Implicit Defensive.
Import GRing.Theory Num.Theory Order.Theory.

Definition Rinvx (r : R) : R := if r == R0 then r else Rinv r.
Definition unit_R (r : R) : bool := r != R0.
Fact RmultRinvx : {in unit_R, left_inverse R1 Rinvx Rmult}.
Proof. move=> r; rewrite -topredE /unit_R /Rinvx => /= /negPf h; rewrite h. by apply: Rinv_l => /eqP; rewrite h. Qed.
Fact RinvxRmult : {in unit_R, right_inverse R1 Rinvx Rmult}.
Proof. move=> r h. by rewrite RmultC; exact: RmultRinvx. Qed.
Fact intro_unit_R (x y : R) : Rmult y x = R1 /\ Rmult x y = R1 -> unit_R x.
Proof. move=> [h _]; apply/eqP => e; move: h; rewrite e Rmult_0_r => /esym; exact: R1_neq_R0. Qed.
Fact Rinvx_out : {in predC unit_R, Rinvx =1 id}.
Proof. move=> x; rewrite -topredE /= /unit_R negbK /Rinvx => h; by rewrite h. Qed.
Definition R_unitRingMixin := UnitRingMixin RmultRinvx RinvxRmult intro_unit_R Rinvx_out.
Canonical R_unitRingType := Eval hnf in UnitRingType R R_unitRingMixin.
Canonical R_comUnitRingType := Eval hnf in [comUnitRingType of R].
Fact R_idomainMixin (x y : R) : Rmult x y = R0 -> (x == R0) || (y == R0).
Proof. by move=> /Rmult_integral [->|->]; rewrite eqxx ?orbT. Qed.
Canonical R_idomainType := Eval hnf in IdomainType R R_idomainMixin.
Fact R_field_axiom : GRing.Field.mixin_of R_unitRingType. Proof. by []. Qed.
Canonical R_fieldType := FieldType R R_field_axiom.

Definition Rleb (x y : R) : bool := if Rle_dec x y is left _ then true else false.
Definition Rltb (x y : R) : bool := if Rlt_dec x y is left _ then true else false.
Lemma RlebP x y : reflect (Rle x y) (Rleb x y).
Proof. rewrite /Rleb; case: Rle_dec => h; by constructor. Qed.
Lemma RltbP x y : reflect (Rlt x y) (Rltb x y).
Proof. rewrite /Rltb; case: Rlt_dec => h; by constructor. Qed.
Fact Rleb_norm_add x y : Rleb (Rabs (Rplus x y)) (Rplus (Rabs x) (Rabs y)).
Proof. by apply/RlebP; exact: Rabs_triang. Qed.
Fact addr_Rgtb0 x y : Rltb R0 x -> Rltb R0 y -> Rltb R0 (Rplus x y).
Proof. by move=> /RltbP h /RltbP k; apply/RltbP; lra. Qed.
Fact Rnorm0_eq0 x : Rabs x = R0 -> x = R0.
Proof. move=> h; case: (Req_dec x R0) => // n; case: (Rabs_no_R0 _ n h). Qed.
Fact Rleb_leVge x y : Rleb R0 x -> Rleb R0 y -> Rleb x y || Rleb y x.
Proof. move=> _ _; case: (Rle_dec x y) => h; [by rewrite (introT (RlebP _ _) h)|]. by rewrite (introT (RlebP y x)) ?orbT //; lra. Qed.
Fact RnormM : {morph Rabs : x y / Rmult x y}. Proof. exact: Rabs_mult. Qed.
Fact Rleb_def x y : Rleb x y = (Rabs (Rminus y x) == Rminus y x).
Proof.
apply/RlebP/eqP => h; first by apply: Rabs_pos_eq; lra.
have := Rabs_pos (Rminus y x); rewrite h; lra.
Qed.
Fact Rltb_def x y : Rltb x y = (y != x) && Rleb x y.
Proof.
apply/RltbP/andP => [h|[/eqP h /RlebP k]]; last by lra.
split; [by apply/eqP => e; lra | by apply/RlebP; lra].
Qed.
Definition R_numMixin := NumMixin Rleb_norm_add addr_Rgtb0 Rnorm0_eq0 Rleb_leVge RnormM Rleb_def Rltb_def.
Canonical R_porderType := POrderType ring_display R R_numMixin.
Canonical R_numDomainType := NumDomainType R R_numMixin.
Canonical R_normedZmodType := NormedZmodType R R R_numMixin.
Canonical R_numFieldType := [numFieldType of R].
Lemma R_total : totalPOrderMixin R_porderType.
Proof. move=> x y; change (Rleb x y || Rleb y x); case: (Rle_dec x y) => h; [by rewrite (introT (RlebP x y) h)|]. by rewrite (introT (RlebP y x)) ?orbT //; lra. Qed.
Canonical R_latticeType := LatticeType R R_total.
Canonical R_distrLatticeType := DistrLatticeType R R_total.
Canonical R_orderType := OrderType R R_total.
Canonical R_realDomainType := [realDomainType of R].
Canonical R_realFieldType := [realFieldType of R].

Open Scope ring_scope.
Lemma leR (x y : R) : (x <= y) <-> Rle x y.
Proof. split; [by move/RlebP|by move=> h; apply/RlebP]. Qed.
Lemma ltR (x y : R) : (x < y) <-> Rlt x y.
Proof. split; [by move/RltbP|by move=> h; apply/RltbP]. Qed.
