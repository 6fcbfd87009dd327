(** Attraction by a solution where the equations are smooth and independent. *)
From Coq Require Import Reals ZArith Lra.
From mathcomp Require Import all_ssreflect all_algebra.
From Verif Require Import RField RReal SolveModel DescentSpec AffModel AffSpec NewtModel NewtSpec NewtProofs NewtBySub NearSpec NearMat NearBall.
Set Implicit Arguments. Unset Strict Implicit. Unset Printing Implicit Defensive.
Import Order.TTheory GRing.Theory Num.Theory.
Delimit Scope R_scope with coqR.
Open Scope ring_scope.

Lemma ball_sub (F : realFieldType) n (c c' : 'cV[F]_n) r r' d q : 0 <= r -> 0 <= d -> r + d <= r' -> ball c' d c -> ball c r q -> ball c' r' q.
Proof.
move=> Hr Hd H H1 H2. rewrite /ball. have -> : q - c' = q - c + (c - c') by rewrite addrA subrK.
apply: le_trans (norm2_triangle Hr Hd H2 H1) _. rewrite ler_pexpn2r // ?nnegrE ?addr_ge0 //. by apply: le_trans H; rewrite addr_ge0.
Qed.
Lemma ball_le (F : realFieldType) n (c : 'cV[F]_n) r r' q : 0 <= r -> r <= r' -> ball c r q -> ball c r' q.
Proof. move=> Hr H H1. apply: le_trans H1 _. by rewrite ler_pexpn2r // ?nnegrE //; apply: le_trans H. Qed.
(** a positive bound under which a non-negative factor gives at most b *)
Lemma small (F : realFieldType) (T b : F) : 0 <= T -> 0 < b -> exists d, 0 < d /\ forall x, 0 <= x <= d -> T * x <= b.
Proof.
move=> HT Hb. have P : 0 < T + 1 by rewrite ltr_paddl ?ltr01.
exists (b / (T + 1)); split; first by rewrite divr_gt0. move=> x /andP[x0 Hx].
apply: (@le_trans _ _ ((T + 1) * x)); first by rewrite mulrDl mul1r ler_addl.
by rewrite mulrC -ler_pdivl_mulr.
Qed.
Lemma powR (x : FR) k : x ^+ k = pow x k. Proof. by elim: k => [|k IH]; rewrite ?expr0 // exprS IH. Qed.
Lemma decay (x : FR) c b : 0 <= x < 1 -> 0 <= c -> 0 < b -> exists M, forall k, (M <= k)%N -> x ^+ k * c <= b.
Proof.
move=> /andP[x0 x1] c0 b0. have [d [d0 Hd]] := small c0 b0.
have A : (Rabs x < 1)%coqR by move/leR: (x0) => y0; move/ltR: x1 => y1; rewrite Rabs_pos_eq.
have [M HM] := pow_lt_1_zero x A d (proj1 (ltR _ _) d0). exists M => k /ssrnat.leP Hk.
rewrite mulrC; apply: Hd. rewrite exprn_ge0 //=. rewrite powR. apply: ltW; apply/ltR. apply: Rle_lt_trans (HM k Hk). exact: Rle_abs.
Qed.

Section Near.
Variables (n : nat) (ls : seq (nlevel FR n)) (qs : 'cV[FR]_n) (rho a : FR).
Hypotheses (S : smooth ls qs rho a) (rho0 : 0 < rho) (C : covered ls) (Ind : independent ls qs) (Rt : root ls qs).
Lemma near_well : exists r B K L, 0 < r /\ r <= rho /\ 0 <= B /\ 0 <= K /\ 0 <= L /\ well_behaved ls qs r B K L /\
  forall q, ball qs r q -> nresidual ls q <= L * norm2 (q - qs).
Proof.
have [X HX] := right_inverse Ind. have [x [x0 Hx]] := bnd_ex X. have [jb [jb0 HJ]] := bnd_ex (stacked ls qs).
pose b : FR := `|a|. have b0 : 0 <= b by exact: normr_ge0.
have [d [d0 Hd]] : exists d : FR, 0 < d /\ forall r, 0 <= r <= d -> ((all_rows ls)%:R * (n%:R * (b * x)) * 2%:R) * r <= 1.
  by apply: small; rewrite ?ltr01 ?mulr_ge0 ?ler0n.
pose r := Num.min rho d. have r0 : 0 < r by rewrite lt_minr rho0.
have r1 : r <= rho by rewrite le_minl lexx. have r2 : r <= d by rewrite le_minl lexx orbT.
have Sr : smooth ls qs r b.
  move=> l q Hl Hq. have [H1 H2] := S Hl (ball_le (ltW r0) r1 Hq). split=> // q' i j Hq'.
  by rewrite real_normK ?num_real //; apply: H2; exact: ball_le (ltW r0) r1 Hq'.
have r0' := ltW r0.
exists r, (n%:R * ((all_rows ls)%:R * (x * (2%:R * (all_rows ls)%:R)))), ((all_rows ls)%:R * (n%:R * b)), ((all_rows ls)%:R * (n%:R * (jb + b * r)) ^+ 2).
do 4! (split; first by rewrite ?mulr_ge0 ?ler0n). split; first by apply: mulr_ge0; rewrite ?ler0n ?sqr_ge0. split; last by move=> q; apply: residual_ball.
split=> [q Hq|q e Hq He]; last exact (curved_ball Sr b0 Hq He).
split; last exact (stretch_ball Sr b0 r0' HJ Hq). refine (regular_ball Sr b0 r0' C HX Hx _ Hq).
have -> : (all_rows ls)%:R * (n%:R * (b * r * x)) * 2%:R = (all_rows ls)%:R * (n%:R * (b * x)) * 2%:R * r.
  by rewrite -[b * r * x]mulrA [r * x]mulrC !mulrA mulrAC.
by apply: Hd; rewrite r0' r2.
Qed.

Lemma near_constants m : 0 < m <= 1 -> exists delta D : FR, 0 < delta /\ 0 <= D /\ forall thr, 0 < thr -> exists dm (M : nat), 0 < dm /\
  forall q0, ball qs delta q0 -> exists r B K L s0, let gain := m * (1 - (K * B ^+ 2 * s0) ^+ 2) in
    [/\ well_behaved ls q0 r B K L, forall q, ball q0 r q -> ball qs rho q & nresidual ls q0 <= s0 ^+ 2] /\
    [/\ 0 <= B, 0 <= s0, 0 <= L & (K * B ^+ 2 * s0) ^+ 2 < 1] /\ B * s0 * 2%:R <= r * gain /\ L * dm <= thr /\
    r ^+ 2 = D * norm2 (q0 - qs) /\ forall k, (M <= k)%N -> (1 - gain) ^+ k * nresidual ls q0 <= thr.
Proof.
move=> /andP[m0 m1]. have [r [B [K [L [r0 [r1 [B0 [K0 [L0 [[W1 W2] HR]]]]]]]]]] := near_well.
pose f := 4%:R * B * rt L / m. have f0 : 0 <= f by rewrite divr_ge0 ?mulr_ge0 ?rt_ge0 // ltW.
have [d1 [d10 Hd1]] : exists d : FR, 0 < d /\ forall x, 0 <= x <= d -> (f + 1) * x <= r by apply: small => //; rewrite addr_ge0.
have [d2 [d20 Hd2]] : exists d : FR, 0 < d /\ forall x, 0 <= x <= d -> (K * B ^+ 2 * rt L) * x <= 2%:R^-1.
  by apply: small; rewrite ?invr_gt0 ?ltr0n // !mulr_ge0 ?sqr_ge0 ?rt_ge0.
pose delta := Num.min d1 d2. have dl0 : 0 < delta by rewrite lt_minr d10.
exists delta, (f ^+ 2). do 2! (split; first by rewrite ?sqr_ge0).
move=> thr t0. have [dm [dm0 Hdm]] := small L0 t0.
have [||M HM] := @decay (1 - m / 2%:R) (L * delta ^+ 2) thr _ _ t0.
- have h : m / 2%:R <= 1 by rewrite ler_pdivr_mulr ?ltr0n // mul1r; apply: le_trans m1 _; rewrite ler1n.
  by rewrite subr_ge0 h /= gtr_addl oppr_lt0 divr_gt0 // ltr0n.
- by rewrite mulr_ge0 ?sqr_ge0.
exists dm, M; split=> // q0 H0. pose D := rt (norm2 (q0 - qs)). have D0 : 0 <= D := rt_ge0 _.
have DD : D ^+ 2 = norm2 (q0 - qs) by rewrite rt_sq ?norm2_ge0.
have Ddl : D <= delta by apply: rt_le => //; exact: ltW.
have D1 : (f + 1) * D <= r by apply: Hd1; rewrite D0 /=; apply: le_trans Ddl _; rewrite le_minl lexx.
have D2 : K * B ^+ 2 * (rt L * D) <= 2%:R^-1 by rewrite mulrA; apply: Hd2; rewrite D0 /=; apply: le_trans Ddl _; rewrite le_minl lexx orbT.
have In : forall q, ball q0 (f * D) q -> ball qs r q.
  move=> q; apply: (ball_sub (mulr_ge0 f0 D0) D0); last by rewrite /ball DD.
  by move: D1; rewrite mulrDl mul1r.
have q0r : ball qs r q0.
  apply: In. by rewrite /ball subrr /norm2 big1 ?sqr_ge0 // => i _; rewrite mxE expr0n.
pose s0 := rt L * D. have s00 : 0 <= s0 := mulr_ge0 (rt_ge0 L) D0.
have Th0 : 0 <= K * B ^+ 2 * s0 := mulr_ge0 (mulr_ge0 K0 (sqr_ge0 B)) s00.
have Th : (K * B ^+ 2 * s0) ^+ 2 <= 2%:R^-1.
  apply: (@le_trans _ _ (2%:R^-1 ^+ 2)); first by rewrite ler_pexpn2r // ?nnegrE ?invr_ge0 ?ler0n.
  by rewrite expr2 ler_pimulr ?invr_ge0 ?ler0n // invf_le1 ?ltr0n // ler1n.
have half : 1 - 2%:R^-1 = 2%:R^-1 :> FR by rewrite {1}(splitr 1) div1r addrK.
have G : m / 2%:R <= m * (1 - (K * B ^+ 2 * s0) ^+ 2).
  by apply: ler_wpmul2l; [exact: ltW|rewrite -[X in X <= _]half ler_add2l ler_opp2].
exists (f * D), B, K, L, s0; cbv zeta. split; first split.
- by split=> [q Hq|q e Hq He]; [apply: W1|apply: W2]; exact: In.
- by move=> q Hq; apply: ball_le r1 (In q Hq); exact: ltW.
- by apply: le_trans (HR q0 q0r) _; rewrite exprMn rt_sq // DD.
split.
  split=> //. apply: le_lt_trans Th _. by rewrite invf_lt1 ?ltr0n // ltr1n.
split.
  apply: (@le_trans _ _ (f * D * (m / 2%:R))); last by apply: ler_wpmul2l => //; rewrite mulr_ge0.
  have Em : f * m = 4%:R * (B * rt L) by rewrite /f divfK ?gt_eqF // mulrA.
  have E4 : 4%:R / 2%:R = 2%:R :> FR by rewrite -[4%N]/(2 * 2)%N natrM mulfK // pnatr_eq0.
  have -> : f * D * (m / 2%:R) = B * s0 * 2%:R; last exact: lexx.
  have -> : f * D * (m / 2%:R) = (f * m) * (D / 2%:R) by exact: mulrACA.
  rewrite Em [4%:R * (B * rt L)]mulrC. have -> : B * rt L * 4%:R * (D / 2%:R) = B * rt L * (D * (4%:R / 2%:R)) by rewrite -(mulrA _ 4%:R) (mulrCA 4%:R).
  by rewrite E4 /s0 !mulrA.
split; first by apply: Hdm; rewrite lexx andbT ltW.
split; first by rewrite exprMn DD.
move=> k Hk. apply: le_trans (HM k Hk).
have g1 : m * (1 - (K * B ^+ 2 * s0) ^+ 2) <= 1.
  apply: (@le_trans _ _ (m * 1)); last by rewrite mulr1. by apply: ler_wpmul2l; [exact: ltW|rewrite ger_addl oppr_le0 sqr_ge0].
apply: ler_pmul; rewrite ?exprn_ge0 ?subr_ge0 ?nres_ge0 //.
  by apply: ler_expn2r; rewrite ?nnegrE ?subr_ge0 //; [apply: le_trans G g1|rewrite ler_add2l ler_opp2].
apply: le_trans (HR q0 q0r) _. by apply: ler_wpmul2l.
Qed.
End Near.
