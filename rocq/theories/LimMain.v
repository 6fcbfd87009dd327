(** One equation under bounds: the loop. *)
From Coq Require Import Reals ZArith Lra Lia.
From mathcomp Require Import all_ssreflect all_algebra.
From Verif Require Import SolveModel LineModel SatModel DescentModel DescentSpec DescentProofs DescentMain RField RReal AffModel AffProofs AffMain NewtModel LimModel LimSpec LimScalar LimProofs.
Set Implicit Arguments. Unset Strict Implicit. Unset Printing Implicit Defensive.
Import Order.TTheory GRing.Theory Num.Theory.
Delimit Scope R_scope with coqR.
Open Scope ring_scope.

Section Loop.
Variables (n : nat) (St : Type) (lm : limits FR n) (a : 'rV[FR]_n) (b dmin thr thr' inf : FR) (maxit rdim : Z).
Variable descent : St -> 'cV[FR]_n -> 'cV[FR]_n * St.
Notation vec := 'cV[FR]_n.
Notation inside := (within (lo lm) (hi lm)).
Notation e := (e a b).
Notation ltb := (fun x y : FR => x < y).
Hypotheses (Hlh : forall i, lo lm i 0 < hi lm i 0) (Hd : 0 < dmin) (Ht : dmin * row_norm a <= thr).
Hypothesis Desc : forall s q, inside q -> descends thr' [:: at_lim lm q (row_level a b)] (descent s q).1.
Notation loop := (hloop ltb (nresidual [:: row_level a b]) descent (@sqn FR n) dmin thr maxit (@lls_constant FR n lm St)).

Lemma thr_ge0 : 0 <= thr.
Proof. by apply: le_trans Ht; rewrite mulr_ge0 ?(ltW Hd) // sumr_ge0 // => i _; exact: sqr_ge0. Qed.
Lemma ca_le q i : ca lm a b q i ^+ 2 <= a 0 i ^+ 2.
Proof. rewrite /ca /coef; case: Rlt_dec => _ //; rewrite [X in X <= _]expr2 [X in X <= _](_ : _ = 0); [exact: sqr_ge0|exact: mul0r]. Qed.
Lemma cn_le q : cn lm a b q <= row_norm a.
Proof. by apply: ler_sum => i _; exact: ca_le. Qed.
Lemma step_norm q : cn lm a b q != 0 -> sqn (step lm a b q) = e q ^+ 2 / cn lm a b q.
Proof.
move=> c0; rewrite sqn_norm2 /norm2 (eq_bigr (fun i => (e q * (cn lm a b q)^-1) ^+ 2 * ca lm a b q i ^+ 2)); last by move=> i _; rewrite mxE exprMn sqrrN.
by rewrite -mulr_sumr -/(cn lm a b q) exprMn -mulrA expr2 -(mulrA (cn _ _ _ _)^-1) mulVf // mulr1.
Qed.
Lemma long_step q : cn lm a b q != 0 -> thr < e q ^+ 2 -> dmin <= sqn (step lm a b q).
Proof.
move=> c0 h; have cp : 0 < cn lm a b q by rewrite lt_neqAle eq_sym c0 sumr_ge0 // => i _; exact: sqr_ge0.
rewrite step_norm // ler_pdivl_mulr //; apply: le_trans (ltW h); apply: le_trans Ht.
by rewrite ler_pmul2l // cn_le.
Qed.
Lemma loop_exit fuel s q past prev ed iter st : e q ^+ 2 <= thr ->
  loop fuel s q past (e q ^+ 2) prev ed iter st = Some (st, q, past, e q ^+ 2, iter).
Proof. by case: fuel => [|f] h /=; rewrite ltNge h. Qed.
Lemma loop_runs m : forall fuel s q past prev iter st, inside q -> (#|free_of lm a b q| <= m)%N -> (m < fuel)%N ->
  Z.lt (Z.add iter (Z.of_nat m)) maxit -> e q ^+ 2 <= prev ->
  exists st' q' past' iter', loop fuel s q past (e q ^+ 2) prev (Zpos 3) iter st = Some (st', q', past', e q' ^+ 2, iter') /\
    inside q' /\ Z.le iter iter' /\ Z.le iter' (Z.add iter (Z.of_nat m)) /\
    (e q' ^+ 2 <= thr \/ (thr < e q' ^+ 2 /\ st' = Some INFEASIBLE /\ forall x, inside x -> e q' ^+ 2 <= e x ^+ 2)).
Proof.
elim: m => [|m IH] fuel s q past prev iter st hq hm hf hi hp.
all: case: (lerP (e q ^+ 2) thr) => c; first by
  (rewrite loop_exit //; do 4 eexists; split; [reflexivity|]; split=> //; split; [exact: Z.le_refl|split; [lia|by left]]).
all: have e0 : e q != 0 by (apply: contraTneq c => ->; rewrite expr0n /= -leNgt; exact: thr_ge0).
all: case: fuel hf => // fuel hf; rewrite /=.
all: have -> : (iter <? maxit)%Z by (apply/Z.ltb_lt; lia).
all: rewrite c /=; case Ed: (descent s q) => [d s1].
all: have dE : d = step lm a b q by (have := stepE (Desc s hq); rewrite Ed).
all: have [c0|c0] := eqVneq (cn lm a b q) 0.
1,3: have [d0 best] := step_zero hq c0.
1,2: rewrite dE d0 sqn0 Hd; do 4 eexists; split; [reflexivity|]; split=> //; split; [exact: Z.le_refl|split; [lia|by right]].
  exfalso; move/eqP: c0; apply; rewrite /cn big1 // => i _.
  have : ca lm a b q i == R0 by apply: contraT => h; move: hm; rewrite leqn0 cards_eq0 => /eqP/setP/(_ i); rewrite !inE h.
  by move=> /eqP ->; rewrite expr2; exact: mul0r.
rewrite ltNge dE long_step //= residualE.
set q' := lintegrate lm q (step lm a b q).
have lt : e q' ^+ 2 < e q ^+ 2 by exact: e'_sq.
have hq' : inside q' by exact: inside'.
rewrite (lt_le_trans lt hp).
have [z|z] := eqVneq (e q') 0.
  rewrite loop_exit; last by rewrite z expr0n /=; exact: thr_ge0.
  do 4 eexists; split; [reflexivity|]; split=> //; split; [lia|split; [lia|]].
  by left; rewrite z expr0n; exact: thr_ge0.
have hm' : (#|free_of lm a b q'| <= m)%N by rewrite -ltnS; apply: leq_trans hm; exact: fewer.
have hi' : Z.lt (Z.add (Z.add iter (Zpos 1)) (Z.of_nat m)) maxit by lia.
have [st' [q2 [past' [iter' [h1 [h2 [h3 [h4 h5]]]]]]]] := IH fuel s1 q' (q :: past) (e q' ^+ 2) (Z.add iter (Zpos 1)) st hq' hm' hf hi' (lexx _).
by exists st', q2, past', iter'; split=> //; split=> //; split; [lia|split; [lia|]].
Qed.
Lemma one_row fuel s q : inside q -> rdim <> Z0 -> Z.lt (Z.of_nat n) maxit -> (n < fuel)%N -> row_error a b q <= inf ->
  exists st q' past it, hsolve ltb (nresidual [:: row_level a b]) descent (@sqn FR n) dmin thr maxit rdim (@lls_constant FR n lm St) inf fuel s q
      = Some (Some st, q', past, it) /\
    Z.le it (Z.of_nat n) /\ inside q' /\
    ((st = SUCCESS /\ row_error a b q' <= thr) \/
     (st = INFEASIBLE /\ thr < row_error a b q' /\ forall x, inside x -> row_error a b q' <= row_error a b x)).
Proof.
move=> hq hr hi hf hinf; rewrite /hsolve; have -> : (rdim =? 0)%Z = false by apply/Z.eqb_neq.
rewrite andbF residualE.
have hm : (#|free_of lm a b q| <= n)%N by rewrite -[X in (_ <= X)%N]card_ord; exact: max_card.
have hi0 : Z.lt (Z.add Z0 (Z.of_nat n)) maxit by [].
have [st' [q' [past' [iter' [-> [h1 [h2 [h3 h4]]]]]]]] := loop_runs s [::] None hq hm hf hi0 hinf.
case: h4 => [h4|[h4 [-> h5]]].
  rewrite ltNge h4 /=; do 4 eexists; split; [reflexivity|]; split; [lia|]; split=> //; by left.
rewrite h4; have -> : (maxit <=? iter')%Z = false by apply/Z.leb_gt; lia.
by do 4 eexists; split; [reflexivity|]; split; [lia|]; split=> //; right.
Qed.
End Loop.
