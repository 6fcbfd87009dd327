(** An implicit and an explicit constraint with the same function. *)
From Coq Require Import ZArith List Bool Floats.SpecFloat Lia.
From Verif Require Import EcsModel EcsSpec EcsRhsModel EcsRhsSpec EcsRhsExamples NanModel ImplModel HierModel HierSpec BySubModel BySubSpec BySubExamples
  AccModel AccExamples OneConModel.
Import ListNotations.
Local Open Scope nat_scope.

Definition n42 := bn 1 4 2 Equality Equality true true.
Definition twice := built [(e4, 0); (n42, 0)].
Lemma twice_breach : cbreach (fst twice) (snd twice).
Proof. apply built_breach. wfs. Qed.
(** the right hand side set for the explicit one is that of the other *)
Definition twice_set : bs nat Z := match bset_of Nat.eqb 0%Z (fst twice) e4 [7; 3]%Z with Some (s, _) => s | None => fst twice end.
Lemma twice_set_breach : cbreach twice_set (snd twice).
Proof.
  eapply (br_set _ _ _ _ _ _ _ _ (fst twice) (snd twice) e4 [7; 3]%Z twice_set true); [exact twice_breach| |vm_compute; reflexivity].
  intros d h _ _. exists 7%Z, 3%Z. split; [reflexivity|lia].
Qed.
Lemma shared_refuted : exists (s : bs nat Z) l c b p q,
  breach Nat.eqb 0%Z Z.add clk_mem clk_ok clkP 6 6 s l /\ l = [(c, Explicitly); (b, Numerically p)] /\ bc_f b = bc_f c /\
  bcon_sat Nat.eqb 0%Z zsqn s c (fl 1) (fl 1) q [0; 0]%Z = Some (true, true, [0; 0]%Z) /\
  bcon_sat Nat.eqb 0%Z zsqn s b (fl 1) (fl 1) q [0; 0]%Z = Some (true, true, [0; 0]%Z) /\
  bsat 0%Z Z.add Z.sub Z.opp Z.ltb zsqn (fl 1) (fl 1) 0%Z s q = Some false.
Proof.
  exists twice_set, (snd twice), e4, n42, 0, (fun i => if (i =? 4)%Z then 7%Z else if (i =? 5)%Z then 3%Z else 0%Z).
  split; [exact twice_set_breach|]. vm_compute. auto 10.
Qed.
