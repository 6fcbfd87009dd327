From Coq Require Import Reals ZArith Lra Lia.
From mathcomp Require Import all_ssreflect all_algebra.
From Verif Require Import SolveModel LineModel LineProofs DescentModel DescentSpec RField RReal AffModel AffSpec.
Set Implicit Arguments. Unset Strict Implicit. Unset Printing Implicit Defensive.
Import Order.TTheory GRing.Theory Num.Theory.
Delimit Scope R_scope with coqR.
Open Scope ring_scope.

Section Line.
Variables (n : nat).
Notation vec := 'cV[R]_n.
Notation alv := (alevel R_realFieldType n).
Notation mv I m descent ls := (moves_by (F := R_realFieldType) (@along R_realFieldType n) (fun a (d : vec) => (a : R) *: d) I (m : R) descent ls).
Lemma moves_constant St (descent : St -> vec -> vec * St) : mv (fun _ => True) 1 descent (@ls_constant n St).
Proof.
move=> s q _. exists 1, (descent s q).1, (descent s q).2, (descent s q).2; split; first by case: (descent s q).
by rewrite /ls_constant /= /vadd /along !scale1r lexx.
Qed.
Definition fixed_range (s : fixed) : Prop := (fx_max s = 95 / 100 /\ fx_K s = 8 / 10 /\ 2 / 10 <= fx_alpha s <= 95 / 100)%coqR.
Lemma fixed_new_range : fixed_range fixed_new.
Proof. rewrite /fixed_range /=; repeat split; lra. Qed.
Lemma moves_fixed (descent : fixed -> vec -> vec * fixed) : (forall s q, (descent s q).2 = s) ->
  mv fixed_range (2 / 10)%coqR descent (@ls_fixed n).
Proof.
move=> Hd s q [H1 [H2 H3]].
exists (fx_alpha s), (descent s q).1, s, (mkfixed (fx_max s - fx_K s * (fx_max s - fx_alpha s))%coqR (fx_max s) (fx_K s)).
split; first by have := Hd s q; case: (descent s q) => d' s' /= ->. split=> //. split; last by rewrite /fixed_range /= H1 H2; repeat split; lra.
apply/andP; split; apply/leR; first lra. change (fx_alpha s <= 1)%coqR; lra.
Qed.
Lemma moves_error_norm St (req : seq alv) m a b thr (descent : St -> vec -> vec * St) : (m < 1)%coqR ->
  mv (fun _ => True) m descent (@ls_error_norm n St req (enb_new3 m a b) thr).
Proof.
move=> Hm s q _. pose r := (aresidual req q / thr)%coqR.
exists (enb_alpha (enb_new3 m a b) r), (descent s q).1, (descent s q).2, (descent s q).2; split; first by case: (descent s q).
split=> //; split=> //. have [H1 H2] := @enb_range m a b r Hm. by apply/andP; split; apply/leR; apply: Rlt_le.
Qed.
Lemma backtracking_some St (ls : seq alv) (s : St) q d :
  exists a, (2 / 10 <= a <= 1)%coqR /\ ls_backtracking ls s q d = Some (q + (a : R) *: d, (a : R) *: d, s).
Proof.
rewrite /ls_backtracking /bt_step. case: Rlt_dec => _.
  exists (bt_small bt_new); split=> //=; lra.
have step f (al : R) : (al <= 1)%coqR -> forall fuel, (2 / 10 * (10 / 7) ^ fuel >= al)%coqR ->
   match bt_loop (@vadd n) (@vscale n) (aresidual ls) fuel bt_new f (aresidual ls q) q d al with
   | None => False | Some None => True | Some (Some (q', d')) => exists a, (2 / 10 <= a <= 1)%coqR /\ q' = q + (a : R) *: d /\ d' = (a : R) *: d end.
  move=> H1 fuel; elim: fuel al H1 => [|fuel IH] al H1 H2 /=; case: Rlt_dec => //= H3; try (simpl in H2; lra).
  case: Rle_dec => _; first by exists al; split; [simpl in H3; lra|].
  apply: IH; [lra|]. simpl in H2. lra.
have := step (2 * bt_c bt_new * aslope ls q d)%coqR 1%coqR (Rle_refl 1) 6%N.
case: (bt_loop _ _ _ _ _ _ _ _ _ _) => [[[q' d']|]|] H.
- case: H; first by simpl; lra. by move=> a [Ha [-> ->]]; exists a.
- by exists (bt_small bt_new); split=> //=; lra.
- by case: H; simpl; lra.
Qed.
Lemma moves_backtracking St (ls : seq alv) (descent : St -> vec -> vec * St) :
  mv (fun _ => True) (2 / 10)%coqR descent (fun s q d => odflt (q, d, s) (ls_backtracking ls s q d)) /\
  forall (s : St) q d, ls_backtracking ls s q d <> None.
Proof.
split=> [s q _|s q d]; last by have [a [_ ->]] := backtracking_some ls s q d.
have [a [[H1 H2] H]] := backtracking_some ls (descent s q).2 q (descent s q).1.
exists a, (descent s q).1, (descent s q).2, (descent s q).2; split; first by case: (descent s q).
rewrite H; split=> //; split=> //. by apply/andP; split; apply/leR.
Qed.
End Line.
Lemma moves_fixed_new n (descent : fixed -> 'cV[R]_n -> 'cV[R]_n * fixed) : (forall s q, (descent s q).2 = s) ->
  exists I : fixed -> Prop, I fixed_new /\
  moves_by (F := R_realFieldType) (@along R_realFieldType n) (fun a (d : 'cV[R]_n) => (a : R) *: d) I (2 / 10)%coqR descent (@ls_fixed n).
Proof. by move=> H; exists fixed_range; split; [exact: fixed_new_range|exact: moves_fixed]. Qed.
