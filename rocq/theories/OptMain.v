From Coq Require Import ZArith Lia.
From mathcomp Require Import all_ssreflect all_algebra.
From Verif Require Import SolveModel DescentModel DescentSpec DescentProofs DescentMain AffModel AffSpec AffProofs AffMain AffBySub NewtModel OptModel OptSpec.
Set Implicit Arguments. Unset Strict Implicit. Unset Printing Implicit Defensive.
Import Order.TTheory GRing.Theory Num.Theory.
Open Scope ring_scope.

(** minimum of a parabola *)
Lemma vertex (F : realFieldType) (u w : F) : 0 <= u -> (forall s, 0 <= s * w *+ 2 + s ^+ 2 * u) -> w = 0.
Proof.
move=> u0 H. have u1 : 0 < u + 1 by rewrite ltr_paddl ?ltr01.
set s := - (w / (u + 1)). have Ew : w = - (s * (u + 1)) by rewrite /s mulNr divfK ?opprK // gt_eqF.
have := H s. rewrite Ew mulrN mulrA -expr2 mulNrn -mulrnAr addrC -mulrBr => K.
have P : 0 < (u + 1) *+ 2 - u by rewrite mulr2n -addrA addr_gt0 // addrAC subrr add0r ltr01.
have s0 : s ^+ 2 <= 0.
  rewrite leNgt; apply/negP => S. move: K; rewrite -oppr_le0 -mulrN opprB leNgt => /negP; apply. exact: mulr_gt0.
have /eqP : s ^+ 2 = 0 by apply: le_anti; rewrite s0 sqr_ge0.
by rewrite sqrf_eq0 => /eqP ->; rewrite mul0r oppr0.
Qed.

Lemma norm2_sum (F : realFieldType) k (u v : 'cV[F]_k) : norm2 (u + v) = norm2 u + (v^T *m u) 0 0 *+ 2 + norm2 v.
Proof.
rewrite /norm2 !mxE -sumrMnl -!big_split /=. by apply: eq_bigr => i _; rewrite !mxE sqrrD [v i 0 * _]mulrC.
Qed.

Section Affine.
Variables (F : realFieldType) (n p : nat) (St : Type) (req : seq (blevel F n p)) (o : blevel F n p) (G : 'M[F]_(p, n)) (h : 'cV[F]_p).
Variables (I : St -> Prop) (m L dmin thr thr' : F) (maxit rdim : Z).
Variables (descent : St -> conf F n p -> 'cV[F]_n * St) (lsearch : St -> conf F n p -> 'cV[F]_n -> option (conf F n p * 'cV[F]_n * St)).
Hypothesis Feas : exists c, bsolution G h req c.
Hypothesis Desc : forall s c, computed G h c -> descends thr' [seq at_c G l c | l <- req ++ [:: o]] (descent s c).1.
Notation rd := (red G h).
Notation go x := (x, (G *m x + h)%R).

Lemma sol_red x : bsolution G h req (go x) <-> solution [seq rd l | l <- req] x.
Proof.
split=> [[_ H] l Hl|H].
- have [l' [-> Hl']] := @in_map_inv _ _ _ _ _ Hl. rewrite /= -(H _ Hl') /= mulmxDl mulmxDr mulmxA. by rewrite addrA addrK.
- split=> // l Hl. have := H _ (in_map rd Hl). rewrite /= mulmxDl mulmxDr mulmxA => E. by rewrite addrA E subrK.
Qed.
Lemma go_computed c : computed G h c -> c = go c.1. Proof. by case: c => u v; rewrite /computed /= => ->. Qed.
Lemma opt_of_least x : least_violation ([seq rd l | l <- req] ++ [:: rd o]) x -> optimum G h req o (go x).
Proof.
have Fe := feas_red Feas. rewrite /least_violation /lex map_cat seq.foldl_cat /= => -[Hx Hy].
have S0 : solution [seq rd l | l <- req] x.
  have [z Hz] := Fe. move=> l Hl. have : cost (violation l) x = 0.
    apply: (@foldl_zero _ _ _ (fun _ => True) z Logic.I _ x Hx); last exact: in_map.
    by move=> pb Hb; have [l1 [-> H1]] := @in_map_inv _ _ _ _ _ Hb; rewrite /cost /= (Hz _ H1) subrr -sqn_norm2 sqn0.
  rewrite /cost -sqn_norm2 => /sqn_eq0 /eqP. by rewrite subr_eq0 => /eqP.
split; first by apply/sol_red.
move=> c' Hc'. have C' : computed G h c' by case: Hc'. move: Hc'; rewrite (go_computed C') => /sol_red Hs.
rewrite !(berr_red (G := G) (h := h)) //. have := Hy c'.1; rewrite /cost /= /aerr; apply. apply: foldl_zero_in => // pb Hb.
have [l1 [-> H1]] := @in_map_inv _ _ _ _ _ Hb. by rewrite /cost /= (Hs _ H1) subrr -sqn_norm2 sqn0.
Qed.
Section At.
Variables (s : St) (c : conf F n p).
Hypothesis Hc : computed G h c.
Let d := (descent s c).1.
Let DR : descends thr' [seq at_q l c.1 | l <- [seq rd l | l <- req] ++ [:: rd o]] d. Proof. exact: (desc_red Desc s Hc). Qed.
Lemma step_least : least_violation ([seq rd l | l <- req] ++ [:: rd o]) (c.1 + d).
Proof. by apply/lex_shift; apply: descends_lex DR. Qed.
Lemma step_opt : optimum G h req o (go (c.1 + d)).
Proof. exact: opt_of_least step_least. Qed.
Lemma step_err a : berr o (go (c.1 + a *: d)) = berr o c + a *: ((bl_A o + bl_B o *m G) *m d).
Proof. by rewrite !(berr_red (G := G) (h := h)) // /aerr /= mulmxDr -scalemxAr addrAC. Qed.
(** from a solution *)
Hypothesis Sol : bsolution G h req c.
Lemma stays a : bsolution G h req (go (c.1 + a *: d)).
Proof.
split=> // l Hl. apply/eqP; rewrite -subr_eq0; apply/eqP. rewrite -/(berr l (go _)).
have -> : berr l (go (c.1 + a *: d)) = (1 - a) *: berr l c by have := bstep Feas Desc s a Hc Hl.
have [_ H] := Sol. by rewrite /berr (H l Hl) subrr scaler0.
Qed.
Lemma orth : let e := berr o c in let j := (bl_A o + bl_B o *m G) *m d in (j^T *m (e + j)) 0 0 = 0.
Proof.
move=> e j. apply: (@vertex _ (norm2 j)); first by rewrite -sqn_norm2 sqn_ge0.
move=> t. have [_ H] := step_opt. have := H _ (stays (1 + t)). rewrite step_err -[X in berr o (go (c.1 + X))]scale1r step_err scale1r -/e -/j.
rewrite scalerDl scale1r addrA [X in _ <= X]norm2_sum norm2_scale linearZ /= -scalemxAl mxE.
by rewrite -[X in _ <= X]addrA ler_addl.
Qed.
(** cost left above the least one *)
Lemma gap a : norm2 (berr o (go (c.1 + a *: d))) - norm2 (berr o (go (c.1 + d))) = (1 - a) ^+ 2 * (norm2 (berr o c) - norm2 (berr o (go (c.1 + d)))).
Proof.
have O := orth. move: O. set e := berr o c; set j := _ *m d => O.
have K b : norm2 (berr o (go (c.1 + b *: d))) = norm2 (e + j) + (1 - b) ^+ 2 * norm2 j.
  rewrite step_err -/e -/j. have -> : e + b *: j = (e + j) + (b - 1) *: j by rewrite scalerBl scale1r addrACA subrr addr0.
  by rewrite norm2_sum norm2_scale linearZ /= -scalemxAl mxE O mulr0 mul0rn addr0 -[b - 1]opprB sqrrN.
have K1 := K 1. rewrite scale1r subrr expr0n mul0r addr0 in K1.
have K0 := K 0. rewrite scale0r addr0 subr0 expr1n mul1r -(go_computed Hc) in K0.
by rewrite K K1 K0 ![norm2 (e + j) + _]addrC !addrK.
Qed.
Lemma gap_le : bstretch G [:: o] L -> norm2 (berr o c) - norm2 (berr o (go (c.1 + d))) <= L * norm2 d.
Proof.
move=> [L0 H]. have := H o d (or_introl _ erefl). rewrite mulmxA -mulmxDl => Hj. apply: le_trans Hj.
have O := orth. move: O. set e := berr o c; set j := _ *m d => O.
have -> : norm2 e = norm2 ((e + j) + (-1) *: j) by rewrite scaleN1r addrK.
rewrite -[X in berr o (go (_ + X))]scale1r step_err -/e -/j scale1r [norm2 (_ + _ *: j)]norm2_sum norm2_scale linearZ /= -scalemxAl mxE O mulr0 mul0rn addr0.
by rewrite sqrrN expr1n mul1r addrC addKr.
Qed.
End At.
End Affine.
