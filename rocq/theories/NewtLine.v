From Coq Require Import Reals ZArith Lra Lia.
From mathcomp Require Import all_ssreflect all_algebra.
From Verif Require Import SolveModel LineModel LineProofs DescentModel DescentSpec RField RReal AffModel AffSpec AffLine NewtModel.
Set Implicit Arguments. Unset Strict Implicit. Unset Printing Implicit Defensive.
Import Order.TTheory GRing.Theory Num.Theory.
Delimit Scope R_scope with coqR.
Open Scope ring_scope.

Section Line.
Variables (n : nat).
Notation vec := 'cV[R]_n.
Notation nlv := (nlevel R_realFieldType n).
Notation mv I m descent ls := (moves_by (F := R_realFieldType) (@along R_realFieldType n) (fun a (d : vec) => (a : R) *: d) I (m : R) descent ls).
Lemma nmoves_error_norm St (ls : seq nlv) m a b thr (descent : St -> vec -> vec * St) : (m < 1)%coqR ->
  mv (fun _ => True) m descent (@nls_error_norm n St ls (enb_new3 m a b) thr).
Proof.
move=> Hm s q _. pose r := (nresidual ls q / thr)%coqR.
exists (enb_alpha (enb_new3 m a b) r), (descent s q).1, (descent s q).2, (descent s q).2; split; first by case: (descent s q).
split=> //; split=> //. have [H1 H2] := @enb_range m a b r Hm. by apply/andP; split; apply/leR; apply: Rlt_le.
Qed.
Lemma nbacktracking_some St (ls : seq nlv) (s : St) q d :
  exists a, (2 / 10 <= a <= 1)%coqR /\ nls_backtracking ls s q d = Some (q + (a : R) *: d, (a : R) *: d, s).
Proof.
rewrite /nls_backtracking /bt_step. case: Rlt_dec => _.
  exists (bt_small bt_new); split=> //=; lra.
have step f (al : R) : (al <= 1)%coqR -> forall fuel, (2 / 10 * (10 / 7) ^ fuel >= al)%coqR ->
   match bt_loop (@vadd n) (@vscale n) (nresidual ls) fuel bt_new f (nresidual ls q) q d al with
   | None => False | Some None => True | Some (Some (q', d')) => exists a, (2 / 10 <= a <= 1)%coqR /\ q' = q + (a : R) *: d /\ d' = (a : R) *: d end.
  move=> H1 fuel; elim: fuel al H1 => [|fuel IH] al H1 H2 /=; case: Rlt_dec => //= H3; try (simpl in H2; lra).
  case: Rle_dec => _; first by exists al; split; [simpl in H3; lra|].
  apply: IH; [lra|]. simpl in H2. lra.
have := step (2 * bt_c bt_new * nslope ls q d)%coqR 1%coqR (Rle_refl 1) 6%N.
case: (bt_loop _ _ _ _ _ _ _ _ _ _) => [[[q' d']|]|] H.
- case: H; first by simpl; lra. by move=> a [Ha [-> ->]]; exists a.
- by exists (bt_small bt_new); split=> //=; lra.
- by case: H; simpl; lra.
Qed.
Lemma nmoves_backtracking St (ls : seq nlv) (descent : St -> vec -> vec * St) :
  mv (fun _ => True) (2 / 10)%coqR descent (fun s q d => odflt (q, d, s) (nls_backtracking ls s q d)) /\
  forall (s : St) q d, nls_backtracking ls s q d <> None.
Proof.
split=> [s q _|s q d]; last by have [a [_ ->]] := nbacktracking_some ls s q d.
have [a [[H1 H2] H]] := nbacktracking_some ls (descent s q).2 q (descent s q).1.
exists a, (descent s q).1, (descent s q).2, (descent s q).2; split; first by case: (descent s q).
rewrite H; split=> //; split=> //. by apply/andP; split; apply/leR.
Qed.
End Line.
