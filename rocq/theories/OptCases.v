(** Optimisation: results on concrete systems. *)
From Coq Require Import Reals ZArith Lia Lra.
From mathcomp Require Import all_ssreflect all_algebra.
From Verif Require Import RField RReal SolveModel LineModel DescentModel DescentSpec DescentProofs DescentExamples AffModel AffSpec AffExamples AffBySub NewtModel NewtSpec NewtExamples IneqExamples OptModel OptSpec OptProofs OptMain OptLoop OptExamples.
Set Implicit Arguments. Unset Strict Implicit. Unset Printing Implicit Defensive.
Import Order.TTheory GRing.Theory Num.Theory.
Delimit Scope R_scope with coqR.
Open Scope ring_scope.
Notation FR := R_realFieldType.

Lemma quarterR : 4%:R^-1 = (/ 4)%coqR :> FR.
Proof.
have E4 : 4%:R = 4%coqR :> FR by change (1 + (1 + (1 + 1)) = 4)%coqR; ring.
apply: (mulfI (x := (4%coqR : FR))); first by apply/eqP; change (4 <> 0)%coqR; lra.
rewrite -E4 divff; last by rewrite pnatr_eq0. rewrite E4. change (1 = 4 * / 4)%coqR. field.
Qed.
Lemma threeR : 3%:R = 3%coqR :> FR. Proof. by change (1 + (1 + 1) = 3)%coqR; ring. Qed.
Notation xreq := [:: ox_req FR].
Notation xopt := (ox_opt FR).
Notation xdesc := (@ox_descent FR fixed).
Notation dls := (on_x (p := 1) (@ls_fixed 2)).
(** from (1, 0) with the default line search *)
Lemma case_steps y fuel : (100 <= fuel)%N ->
  let c0 : conf FR 2 1 := (p2 (1 : FR) 0, y) in let best : conf FR 2 1 := (p2 1 3%:R, const_mx 3%:R) in
  bsolution (e2 FR) 0 xreq (go (e2 FR) 0 c0.1) /\ optimum (e2 FR) 0 xreq xopt best /\ bstretch (e2 FR) [:: xopt] 1 /\
  (forall s c, computed (e2 FR) 0 c -> descends (thr8R : FR) [seq at_c (e2 FR) l c | l <- xreq ++ [:: xopt]] (xdesc s c).1) /\ (forall s c, (xdesc s c).2 = s) /\
  exists st c b, aosolve xreq xopt (e2 FR) 0 xdesc dls dmin12R thr8R (Z.of_nat 100) (Z.of_nat 1) fuel fixed_new c0 = Done st c b /\
    c.1 0 0 = 1 /\ c.2 0 0 = c.1 1 0 /\ let v : R := c.2 0 0 in (- (1 / 1000000) <= v - 3 <= 1 / 1000000)%coqR.
Proof.
move=> Hf c0 best.
have S1 : bsolution (e2 FR) 0 xreq (go (e2 FR) 0 c0.1).
  rewrite /c0 /= ox_go; split; first by rewrite /computed /= addr0 e2_p2. move=> l [<-|[]]. by rewrite /= e1_p2 mul0mx addr0.
have De : forall s c, computed (e2 FR) 0 c -> descends (thr8R : FR) [seq at_c (e2 FR) l c | l <- xreq ++ [:: xopt]] (xdesc s c).1 by move=> s c; apply: ox_desc.
do 5! (split; first by [|exact: ox_optimum|exact: ox_stretch]).
have [I [I0 Mv]] := @moves_default 2 1 (e2 FR) 0 xdesc (fun s c => erefl).
have T0 : (0 : FR) <= thr8R by apply/leR; change (0 <= / 100000000)%coqR; lra.
have m0 : (0 : FR) <= (2 / 10)%coqR by apply/leR; change (0 <= 2 / 10)%coqR; lra.
have [st [c [b [Es [[Hc Sc] [Le Hst]]]]]] := @steps_solve FR 2 1 fixed xreq xopt (e2 FR) 0 I (2 / 10)%coqR 1 dmin12R thr8R thr8R (Z.of_nat 100) (Z.of_nat 1) xdesc dls
  (ex_intro _ _ (ox_feas FR)) De Mv T0 fixed_new c0 fuel best m0 (ox_stretch FR) I0 Hf (ox_optimum FR) S1.
exists st, c, b; split=> //. case: c Hc Sc Le Hst Es => x v Hc Sc Le Hst _ /=.
have X1 : x 0 0 = 1.
  have := Sc _ (or_introl _ erefl); rewrite /= mul0mx addr0 [x]p2_eta e1_p2 => /matrixP /(_ 0 0). by rewrite !mxE.
split=> //. split; first by move: Hc; rewrite /computed /= addr0 {1}[x]p2_eta e2_p2 => ->; rewrite mxE.
have Cb : norm2 (berr xopt best) = 0 by rewrite ox_opt_err norm2_1 !mxE subrr expr0n.
have C1 : norm2 (berr xopt (go (e2 FR) 0 c0.1)) = 9%coqR.
  rewrite /c0 /= ox_go ox_opt_err norm2_1 !mxE sub0r sqrrN expr2 threeR. change (3 * 3 = 9)%coqR. ring.
rewrite Cb !subr0 C1 ox_opt_err norm2_1 mxE threeR in Hst.
have K : (v 0 0 - 3%coqR) ^+ 2 <= dmin12R :> FR.
  case: Hst => [[_ H]|[_ H]]; last by rewrite mul1r in H. apply: le_trans H _.
  have P11 : (1 - (2 / 10)%coqR : FR) ^+ 11 <= (1 / 10)%coqR.
    rewrite !exprS expr0; apply/leR. set z := (1 - (2 / 10)%coqR : FR). have -> : z = (8 / 10)%coqR by rewrite /z; change (1 - 2 / 10 = 8 / 10)%coqR; field.
    toR; lra.
  have P0 : (0 : FR) <= 1 - (2 / 10)%coqR by apply/leR; change (0 <= 1 - 2 / 10)%coqR; lra.
  have P1 : (1 - (2 / 10)%coqR : FR) <= 1 by rewrite ler_subl_addr ler_addl.
  apply: (@le_trans _ _ (((1 / 10)%coqR : FR) ^+ 18 * 9%coqR)).
    apply: ler_wpmul2r; first by apply/leR; change (0 <= 9)%coqR; lra.
    apply: (@le_trans _ _ ((1 - (2 / 10)%coqR : FR) ^+ (11 * 18))); first by apply: ler_wiexpn2l => //; rewrite Nat2Z.id.
    rewrite exprM. apply: ler_expn2r => //; rewrite nnegrE; first exact: exprn_ge0.
    by apply/leR; change (0 <= 1 / 10)%coqR; lra.
  rewrite !exprS expr0; apply/leR; rewrite /dmin12R; toR. lra.
move: K; rewrite expr2 => /leR. set u := v 0 0. change ((u - 3) * (u - 3) <= dmin12R -> - (1 / 1000000) <= u - 3 <= 1 / 1000000)%coqR.
rewrite /dmin12R => K. split; nra.
Qed.
(** from (0, 0) *)
Lemma case_default y fuel : (100 <= fuel)%N ->
  let c0 : conf FR 2 1 := (p2 (0 : FR) 0, y) in
  (exists c, bsolution (e2 FR) 0 xreq c) /\
  (forall s c, computed (e2 FR) 0 c -> descends (thr8R : FR) [seq at_c (e2 FR) l c | l <- xreq ++ [:: xopt]] (xdesc s c).1) /\ (forall s c, (xdesc s c).2 = s) /\
  4%:R^-1 * (thr8R : FR) < (9 / 25)%coqR * bresidual xreq (c0.1, (e2 FR) *m c0.1 + 0) /\
  exists st c b, aosolve xreq xopt (e2 FR) 0 xdesc dls dmin12R thr8R (Z.of_nat 100) (Z.of_nat 1) fuel fixed_new c0 = Done st c b /\ st <> SUCCESS /\
    let x1 : R := c.1 0 0 in (0 <= x1 < 2 / 5)%coqR.
Proof.
move=> Hf c0.
have De : forall s c, computed (e2 FR) 0 c -> descends (thr8R : FR) [seq at_c (e2 FR) l c | l <- xreq ++ [:: xopt]] (xdesc s c).1 by move=> s c; apply: ox_desc.
have Fe := ex_intro _ _ (ox_feas FR).
have Ab : 4%:R^-1 * (thr8R : FR) < (9 / 25)%coqR * bresidual xreq (c0.1, (e2 FR) *m c0.1 + 0).
  rewrite ox_res sub0r sqrrN expr1n quarterR mulr1; apply/ltR. change (/ 4 * / 100000000 < 9 / 25)%coqR. lra.
do 4! (split; first by []).
have [|st [c [b [t [Es [Hst [/andP[/leR t0 /ltR t1] [He _]]]]]]]] := @default_solve 2 1 xreq xopt (e2 FR) 0 dmin12R thr8R thr8R (Z.of_nat 100) (Z.of_nat 1) xdesc (fun s c => erefl) c0 fuel Fe De Ab Hf => //.
exists st, c, b; split=> //. split; first by case: Hst => ->.
have := He _ (or_introl _ erefl). case: c {Es He} => x v. rewrite [x]p2_eta ox_req_err /c0 /= ox_req_err => /matrixP /(_ 0 0). rewrite !mxE /= sub0r.
set u := x 0 0. move=> H. change (u - 1 = (1 - t) * - (1))%coqR in H. change (0 <= t)%coqR in t0. change (t < 2 / 5)%coqR in t1. lra.
Qed.

(** y = x^2, y = 2 required, x = 5 wished, from 3 / 2 *)
Definition sub_opt : nblevel FR 1 1 := @mknb FR 1 1 1 (fun c => let t : R := c.1 0 0 in const_mx (t - 5)%coqR) (fun _ => 1%:M) (fun _ => 0) [:: 1%N].
Lemma sub_two thr s (c : conf FR 1 1) : on_graph sub_g c -> ball (const_mx (3 / 2)%coqR : 'cV[FR]_1) (1 / 4)%coqR c.1 ->
  descends (thr : FR) [seq at_nb sub_G c l | l <- [:: sub_level] ++ [:: sub_opt]] (sub_descent s c).1.
Proof.
case: c => x y'; rewrite /on_graph [(x, y').2]/= [(x, y').1]/= => -> Hb.
have N : (sq2' (x 0 0) : FR) != 0.
  move: Hb; rewrite /ball norm2_1 !mxE !expr2. set z := x 0 0 => /leR Hb.
  change ((z - 3 / 2) * (z - 3 / 2) <= 1 / 4 * (1 / 4))%coqR in Hb. apply/eqP; rewrite /sq2'. change (2 * z <> 0)%coqR. nra.
pose l1 := at_nb sub_G (x, sub_g x) sub_level; pose l2 := at_nb sub_G (x, sub_g x) sub_opt.
have Hm : jac l1 *m pmat (null_proj FR 1) = const_mx (sq2' (x 0 0)) by rewrite mulmx1 /l1 /at_nb [jac _]sub_jac.
pose D := svd_eq Hm (NewtExamples.svd1 N). have R1 : rows l1 <> 0%N by [].
have T := @run_stop FR 1 false thr l1 0 [:: (l2, 0%N)] true 0 (null_proj FR 1) D R1 isT.
apply: (@desc_many FR 1 thr _ _ [:: (l1, 0%N); (l2, 0%N)] 0 _ _ erefl).
suff Eq : (sub_descent s (x, sub_g x)).1 = 0 + pmat (null_proj FR 1) *m solve D (- err l1 - 0) by move: T; rewrite -Eq; exact.
rewrite add0r mul1mx subr0 /l1 /at_nb [err _]sub_err /sub_descent /eqn_descent /solve /= mul1mx.
apply/matrixP => i j; rewrite !ord1 !mxE big_ord1 !mxE big_ord1 !mxE mulr1n.
have E (c : FR) : `|c|^-1 * Num.sg c = c^-1 by rewrite [in RHS](numEsg c) invfM invr_sg mulrC.
by rewrite E mulrN mulrC.
Qed.
Lemma invX (k : nat) : 0 < (2%:R : FR) ^- k <= 1.
Proof. by rewrite invr_gt0 exprn_gt0 ?ltr0n //= invf_le1 ?exprn_gt0 ?ltr0n // exprn_ege1 // ler1n. Qed.
Lemma case_regular (y : 'cV[FR]_1) maxit fuel : (Z.to_nat maxit <= fuel)%N ->
  let q0 : 'cV[FR]_1 := const_mx (3 / 2)%coqR in
  (forall s c, on_graph sub_g c -> ball q0 (1 / 4)%coqR c.1 -> descends (thr8R : FR) [seq at_nb sub_G c l | l <- [:: sub_level] ++ [:: sub_opt]] (sub_descent s c).1) /\
  exists st c b, nosolve [:: sub_level] sub_opt sub_g sub_descent sub_full dmin12R thr8R maxit (Z.of_nat 1) fuel tt (q0, y) = Done st c b /\
    st <> SUCCESS /\ let v : R := c.2 0 0 in (v - 2 <= - (7 / 64) \/ 1 / 144 <= v - 2)%coqR.
Proof.
move=> Hf q0; split; first by move=> s c; apply: sub_two.
have D0 : (sub_descent tt (q0, sub_g q0)).1 = const_mx (- (1 / 12))%coqR.
  rewrite /sub_descent /= /eqn_descent /=; congr const_mx. rewrite mxE /sq2 /sq2'.
  have -> : ((2 * (3 / 2))%coqR : FR)^-1 = (/ 3)%coqR.
    apply: (mulfI (x := (3%coqR : FR))); first by apply/eqP; change (3 <> 0)%coqR; lra.
    have -> : (2 * (3 / 2) = 3)%coqR by field. rewrite divff; last by apply/eqP; change (3 <> 0)%coqR; lra. change (1 = 3 * / 3)%coqR; field.
  change (- ((3 / 2 * (3 / 2) - 2) * / 3) = - (1 / 12))%coqR. field.
have Far (k : nat) : let v : R := (on_line sub_g q0 (sub_descent tt (q0, sub_g q0)).1 (2%:R - 2%:R * 2%:R ^- k)).2 0 0 in (v - 2 <= - (7 / 64) \/ 1 / 144 <= v - 2)%coqR.
  rewrite D0 /on_line /= /sub_g mxE !mxE.
  have : (2%:R : FR) ^- k = 1 \/ (2%:R : FR) ^- k = (/ 2)%coqR \/ ((2%:R : FR) ^- k <= (/ 4)%coqR).
    case: k => [|[|k]]; first by left; rewrite expr0 invr1.
    + right; left. rewrite expr1. apply: (mulfI (x := (2%coqR : FR))); first by apply/eqP; change (2 <> 0)%coqR; lra.
      have E2 : 2%:R = 2%coqR :> FR by change (1 + 1 = 2)%coqR; ring.
      rewrite -E2 divff; last by rewrite pnatr_eq0. rewrite E2; change (1 = 2 * / 2)%coqR; field.
    + right; right. have /andP[_ K] := invX k. have E4 : (2%:R : FR) ^- k.+2 = 2%:R ^- k * 4%:R^-1 by rewrite !exprSr -mulrA invfM -natrM.
      rewrite E4 -quarterR. have P4 : (0 : FR) <= 4%:R^-1 by rewrite invr_ge0 ler0n.
      by have := ler_wpmul2r P4 K; rewrite mul1r.
  have /andP[/ltR P0 _] := invX k. set w := (2%:R ^- k : FR) in P0 *. change (0 < w)%coqR in P0.
  set z : R := (3 / 2 + (2%:R - 2%:R * w) * - (1 / 12))%coqR. have Ez : z = (4 / 3 + w / 6)%coqR.
    rewrite /z. have -> : 2%:R = 2%coqR :> FR by change (1 + 1 = 2)%coqR; ring. change (3 / 2 + (2 - 2 * w) * - (1 / 12) = 4 / 3 + w / 6)%coqR. field.
  move=> Hw. change (z * z - 2 <= - (7 / 64) \/ 1 / 144 <= z * z - 2)%coqR. rewrite Ez.
  case: Hw => [->|[->|/leR Hw]]; [right; change (1 / 144 <= (4 / 3 + 1 / 6) * (4 / 3 + 1 / 6) - 2)%coqR; lra|right; lra|left; nra].
have Fu : bfull sub_full by move=> s c d; exists s, c.2.
have Ab k : 4%:R^-1 * (thr8R : FR) < nbresidual [:: sub_level] (on_line sub_g q0 (sub_descent tt (q0, sub_g q0)).1 (2%:R - 2%:R * 2%:R ^- k)).
  have := Far k. set c := on_line _ _ _ _ => H. have -> : nbresidual [:: sub_level] c = (c.2 0 0 - 2%coqR) ^+ 2.
    rewrite /nbresidual [foldl _ _ _]/= /seg_norm (eq_bigl xpredT) ?big_ord1; last by move=> i; rewrite ord1.
    by rewrite mxE max_r // sqr_ge0.
  rewrite quarterR expr2; apply/ltR. move: H. set v := c.2 0 0 => H. change (/ 4 * / 100000000 < (v - 2) * (v - 2))%coqR. change (v - 2 <= - (7 / 64) \/ 1 / 144 <= v - 2)%coqR in H. case: H => H; nra.
have [|st [b [k [Es [_ [_ Hst]]]]]] := @line_full FR 1 1 unit (nbresidual [:: sub_level]) (fun c => sqn (nb_err sub_opt c)) sub_g sub_descent sub_full dmin12R thr8R maxit (Z.of_nat 1) tt q0 y fuel Fu Ab Hf => //.
do 2 eexists; exists b; split; first exact: Es. split; last exact: Far.
by case: Hst => [[-> _]|[-> _]].
Qed.
