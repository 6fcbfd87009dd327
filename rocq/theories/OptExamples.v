(** Optimisation: the default line search, concrete systems. *)
From Coq Require Import Reals ZArith Lia Lra.
From mathcomp Require Import all_ssreflect all_algebra.
From Verif Require Import RField RReal SolveModel LineModel DescentModel DescentSpec DescentProofs DescentMain DescentExamples AffModel AffSpec AffProofs AffMain AffBySub AffLine AffExamples NewtModel NewtExamples IneqExamples OptModel OptSpec OptProofs OptMain OptLoop.
Set Implicit Arguments. Unset Strict Implicit. Unset Printing Implicit Defensive.
Import Order.TTheory GRing.Theory Num.Theory.
Delimit Scope R_scope with coqR.
Open Scope ring_scope.
Notation FR := R_realFieldType.

Section Default.
Variables (n p : nat) (req : seq (blevel FR n p)) (o : blevel FR n p) (G : 'M[FR]_(p, n)) (h : 'cV[FR]_p) (dmin thr thr' : R) (maxit rdim : Z).
Variable descent : fixed -> conf FR n p -> 'cV[FR]_n * fixed.
Hypothesis Same : forall s c, (descent s c).2 = s.
Lemma moves_default : exists I : fixed -> Prop, I fixed_new /\ bmoves_by G h I (2 / 10)%coqR descent (on_x (p := p) (@ls_fixed n)).
Proof.
exists fixed_range; split; first exact: fixed_new_range. move=> s c [H1 [H2 H3]] _.
exists (fx_alpha s), (descent s c).1, s, (mkfixed (fx_max s - fx_K s * (fx_max s - fx_alpha s))%coqR (fx_max s) (fx_K s)), c.2.
split; first by have := Same s c; case: (descent s c) => d' s' /= ->. split=> //. split; last by rewrite /fixed_range /= H1 H2; repeat split; lra.
apply/andP; split; apply/leR; first lra. change (fx_alpha s <= 1)%coqR; lra.
Qed.
Lemma default_solve c0 fuel : let c1 := (c0.1, G *m c0.1 + h) in
  (exists c, bsolution G h req c) ->
  (forall s c, computed G h c -> descends (thr' : FR) [seq at_c G l c | l <- req ++ [:: o]] (descent s c).1) ->
  4%:R^-1 * (thr : FR) < (9 / 25)%coqR * bresidual req c1 -> (Z.to_nat maxit <= fuel)%N -> rdim <> Z0 ->
  exists st c b t, aosolve req o G h descent (on_x (p := p) (@ls_fixed n)) dmin thr maxit rdim fuel fixed_new c0 = Done st c b /\
    (st = MAX_ITERATION_REACHED \/ st = INFEASIBLE) /\ 0 <= t < ((2 / 5)%coqR : FR) /\
    (forall l, List.In l req -> berr l c = (1 - t) *: berr l c1) /\ 4%:R^-1 * (thr : FR) < bresidual req c.
Proof.
case: c0 => x0 y0 c1 Feas Desc Res Hf Hr. have C1 : computed G h c1 by [].
set d := (descent fixed_new c1).1.
have Err t l : List.In l req -> berr l (on_line (fun x => G *m x + h) x0 d t) = (1 - t) *: berr l c1.
  move=> Hl. exact: (bstep Feas Desc fixed_new t C1 Hl).
have M2 : 2%:R * (1 / 5)%coqR = (2 / 5)%coqR :> FR by rewrite mulr_natl mulr2n; change (1 / 5 + 1 / 5 = 2 / 5)%coqR; field.
have Ab t : 0 <= t < 2%:R * ((1 / 5)%coqR : FR) -> 4%:R^-1 * (thr : FR) < bresidual req (on_line (fun x => G *m x + h) x0 d t).
  rewrite M2 => /andP[/leR t0 /ltR t1]. apply: lt_le_trans Res _.
  have -> : bresidual req (on_line (fun x => G *m x + h) x0 d t) = (1 - t) ^+ 2 * bresidual req c1.
    by apply: bresidual_scale (C1) _ _ => // l; apply: Err.
  apply: ler_wpmul2r; first exact: (bresidual_ge0 req C1).
  rewrite expr2; apply/leR. change (9 / 25 <= (1 - t) * (1 - t))%coqR. change (0 <= t)%coqR in t0. nra.
have B0 : bsteps fixed_range (1 / 5)%coqR (on_x (p := p) (@ls_fixed n)) (descent fixed_new c1).2 c1 d.
  exists (2 / 10)%coqR, (mkfixed (95 / 100 - 8 / 10 * (95 / 100 - 2 / 10))%coqR (95 / 100)%coqR (8 / 10)%coqR), c1.2.
  rewrite Same; split=> //. split; last by rewrite /fixed_range /=; repeat split; lra.
  apply/andP; split; apply/leR; [change (0 <= 2 / 10)%coqR|]; lra.
have BS s c v : fixed_range s -> bsteps fixed_range 1 (on_x (p := p) (@ls_fixed n)) s c v.
  move=> [H1 [H2 H3]]. exists (fx_alpha s), (mkfixed (fx_max s - fx_K s * (fx_max s - fx_alpha s))%coqR (fx_max s) (fx_K s)), c.2.
  split=> //. split; last by rewrite /fixed_range /= H1 H2; repeat split; lra.
  apply/andP; split; apply/leR; [change (0 <= fx_alpha s)%coqR|change (fx_alpha s <= 1)%coqR]; lra.
have P0 : 0 < (1 / 5)%coqR :> FR by apply/ltR; change (0 < 1 / 5)%coqR; lra.
have [st [b [t [Es [Ht [Hst _]]]]]] := @line_within FR n p fixed (bresidual req) (fun c => sqn (berr o c)) (fun x => G *m x + h) descent (on_x (p := p) (@ls_fixed n)) dmin thr maxit rdim
  fixed_range (1 / 5)%coqR fixed_new x0 y0 fuel P0 B0 BS Ab Hf Hr.
exists st, (on_line (fun x => G *m x + h) x0 d t), b, t; split=> //. split; first by case: Hst => [[-> _]|->]; [left|right].
split; first by rewrite -M2. split; last exact: Ab. by move=> l; apply: Err.
Qed.
End Default.

(** x1 = 1 required, y = x2 computed, y = 3 wished *)
Section Ex.
Variable F : realFieldType.
Definition e2 : 'rV[F]_2 := delta_mx 0 1.
Definition ox_req : blevel F 2 1 := @mkbl F 2 1 1%N (e1 F) 0 (const_mx 1) [:: 1%N].
Definition ox_opt : blevel F 2 1 := @mkbl F 2 1 1%N 0 1%:M (const_mx 3%:R) [:: 1%N].
Definition p2 (a b : F) : 'cV[F]_2 := \col_i (if i == 0 then a else b).
Lemma p2_eta (x : 'cV[F]_2) : x = p2 (x 0 0) (x 1 0).
Proof. by apply/matrixP => i j; rewrite ord1 mxE; case: i => [[|[|//]] Hi] /=; congr (x _ _); apply: val_inj. Qed.
Lemma e1_p2 a b : (e1 F) *m p2 a b = const_mx a.
Proof. by apply/matrixP => i j; rewrite !ord1 !mxE big_ord_recl big_ord1 !mxE /= mul1r mul0r addr0. Qed.
Lemma e2_p2 a b : e2 *m p2 a b = const_mx b.
Proof. by apply/matrixP => i j; rewrite !ord1 !mxE big_ord_recl big_ord1 !mxE /= mul0r mul1r add0r. Qed.
Definition ox_descent (St : Type) (s : St) (c : conf F 2 1) : 'cV[F]_2 * St := (p2 (1 - c.1 0 0) (3%:R - c.2 0 0), s).
Lemma ox_req_err a b y : berr ox_req (p2 a b, y) = const_mx (a - 1).
Proof. by rewrite /berr /= e1_p2 mul0mx addr0; apply/matrixP => i j; rewrite !mxE. Qed.
Lemma ox_opt_err x (y : 'cV[F]_1) : berr ox_opt (x, y) = const_mx (y 0 0 - 3%:R).
Proof. by rewrite /berr /= mul0mx mul1mx add0r; apply/matrixP => i j; rewrite !ord1 !mxE. Qed.
Lemma ox_jac1 : jac (at_c e2 ox_req (0, 0)) *m pmat (null_proj F 2) = 1 *: e1 F.
Proof. by rewrite mulmx1 /= mul0mx addr0 scale1r. Qed.
Lemma one_isom : (1%:M *m (1%:M *m c2 F : 'M[F]_(2, 1)))^T *m (1%:M *m (1%:M *m c2 F)) = 1%:M.
Proof. by rewrite !mul1mx c2_isom. Qed.
Lemma e2c2 : e2 *m c2 F = 1%:M. Proof. by rewrite mul_delta_mx delta_1. Qed.
Lemma solve_row (D := svd_row (@ltr01 F)) (v : F) : solve D (const_mx v) = p2 v 0.
Proof.
rewrite /solve /= trmx1 mulmx1. apply/matrixP => i j; rewrite ord1 !mxE big_ord1 !mxE big_ord1 !mxE /= mulr1n invr1 mulr1.
by case: i => [[|[|//]] Hi] /=; rewrite ?mul1r ?mul0r.
Qed.
Lemma ox_desc St thr (s : St) c : computed e2 0 c -> descends thr [seq at_c e2 l c | l <- [:: ox_req] ++ [:: ox_opt]] (ox_descent s c).1.
Proof.
case: c => x y; rewrite /computed /= addr0 [x]p2_eta; set a := x 0 0; set b := x 1 0. rewrite e2_p2 => ->.
set c := (_, _).
pose l1 := at_c e2 ox_req c; pose l2 := at_c e2 ox_opt c.
have Hm : jac l1 *m pmat (null_proj F 2) = 1 *: e1 F by exact: ox_jac1.
pose D := svd_eq Hm (svd_row ltr01).
pose P := mkproj (pmat (null_proj F 2) *m V2 D).
have Hi : jac l2 *m pmat P = 1%:M by rewrite /= add0r !mul1mx e2c2.
have H1 : (1%:M : 'M[F]_1)^T *m 1%:M = 1%:M by rewrite trmx1 mulmx1.
pose D2 := svd_eq Hi (svd_isom H1).
have R1 : rows l1 <> 0%N by []. have R2 : rows l2 <> 0%N by [].
pose e := - err l1 - 0. pose q1 := 0 + pmat (null_proj F 2) *m solve D e.
have T2 := @run_stop F 2 false thr l2 0 [::] false q1 P D2 R2 isT.
have T1 := @run_next F 2 false thr l1 0 [:: (l2, 0%N)] true 0 (null_proj F 2) D _ _ _ R1 isT T2.
apply: (@desc_many F 2 thr _ _ [:: (l1, 0%N); (l2, 0%N)] 0 _ _ erefl).
suff Eq : (ox_descent s c).1 = q1 + pmat P *m solve D2 (- err l2 - jac l2 *m q1) by move: T1; rewrite -/P -Eq; exact.
have Q1 : q1 = p2 (1 - a) 0.
  rewrite /q1 add0r mul1mx /e subr0. have -> : - err l1 = const_mx (1 - a).
    by rewrite /l1 [err _]ox_req_err; apply/matrixP => i j; rewrite !mxE opprB.
  exact: solve_row.
have Q2 : - err l2 - jac l2 *m q1 = const_mx (3%:R - b).
  rewrite Q1 /l2 [err _]ox_opt_err /= add0r mul1mx e2_p2. by apply/matrixP => i j; rewrite !mxE opprB subr0.
have PP : pmat P = c2 F by rewrite /= mul1mx.
rewrite Q2 Q1. have -> : solve D2 (const_mx (3%:R - b)) = const_mx (3%:R - b).
  rewrite /solve /= !mul1mx trmx1 mulmx1. apply/matrixP => i j; rewrite !ord1 !mxE big_ord1 !mxE mulr1n invr1 mul1r //.
rewrite PP. apply/matrixP => i j; rewrite ord1 !mxE big_ord1 !mxE. by case: i => [[|[|//]] Hi'] /=; rewrite ?mul0r ?mul1r ?addr0 ?add0r.
Qed.
Lemma ox_feas : bsolution e2 0 [:: ox_req] (p2 1 3%:R, const_mx 3%:R).
Proof.
split; first by rewrite /computed /= addr0 e2_p2. move=> l [<-|[]]. by rewrite /= e1_p2 mul0mx addr0.
Qed.
Lemma ox_res a b y : bresidual [:: ox_req] (p2 a b, y) = (a - 1) ^+ 2.
Proof.
rewrite /bresidual [foldl _ _ _]/= /seg_norm (eq_bigl xpredT) ?big_ord1; last by move=> i; rewrite ord1.
by rewrite ox_req_err mxE max_r // sqr_ge0.
Qed.
Lemma ox_go a b : go e2 0 (p2 a b) = (p2 a b, const_mx b). Proof. by rewrite /go addr0 e2_p2. Qed.
Lemma ox_d St (s : St) a b : (ox_descent s (p2 a b, const_mx b)).1 = p2 (1 - a) (3%:R - b). Proof. by rewrite /= !mxE. Qed.
Lemma p2_add a b a' b' : p2 a b + p2 a' b' = p2 (a + a') (b + b').
Proof. by apply/matrixP => i j; rewrite !mxE; case: ifP. Qed.
Lemma norm2_p2 a b : norm2 (p2 a b) = a ^+ 2 + b ^+ 2. Proof. by rewrite /norm2 big_ord_recl big_ord1 !mxE. Qed.
Lemma ox_stretch : bstretch e2 [:: ox_opt] 1.
Proof.
split; first exact: ler01. move=> l x [<-|[]] /=. rewrite mul0mx mul1mx add0r mul1r [x]p2_eta e2_p2 norm2_1 mxE.
by rewrite /norm2 big_ord_recl big_ord1 !mxE /= ler_addr sqr_ge0.
Qed.
Definition ox_full (s : unit) (c : conf F 2 1) (d : 'cV[F]_2) : option (conf F 2 1 * 'cV[F]_2 * unit) := on_x (@full F 2) s c d.
Lemma ox_moves : bmoves_by e2 0 (fun _ => True) 1 (@ox_descent unit) ox_full.
Proof. by move=> s c _ _; exists 1, (ox_descent s c).1, s, s, c.2; rewrite !scale1r lexx. Qed.
Lemma ox_optimum : optimum e2 0 [:: ox_req] ox_opt (p2 1 3%:R, const_mx 3%:R).
Proof.
split; first exact: ox_feas. move=> c' _. rewrite ox_opt_err norm2_1 !mxE subrr expr0n. by rewrite -sqn_norm2 sqn_ge0.
Qed.
Lemma case_full y fuel : (100 <= fuel)%N ->
  (exists c, bsolution e2 0 [:: ox_req] c) /\
  (forall s c, computed e2 0 c -> descends (thr8 F) [seq at_c e2 l c | l <- [:: ox_req] ++ [:: ox_opt]] (@ox_descent unit s c).1) /\
  bmoves_by e2 0 (fun _ => True) 1 (@ox_descent unit) ox_full /\
  exists b, aosolve [:: ox_req] ox_opt e2 0 (@ox_descent unit) ox_full (dmin12 F) (thr8 F) (Z.of_nat 100) (Z.of_nat 1) fuel tt (0, y) =
    Done INFEASIBLE (p2 1 3%:R, const_mx 3%:R) b.
Proof.
move=> Hf. have Fe : exists c, bsolution e2 0 [:: ox_req] c by eexists; exact: ox_feas.
have De : forall s c, computed e2 0 c -> descends (thr8 F) [seq at_c e2 l c | l <- [:: ox_req] ++ [:: ox_opt]] (@ox_descent unit s c).1 by move=> s c; apply: ox_desc.
do 3! (split; first by [|exact: ox_moves]).
have Z : (0 : 'cV[F]_2) = p2 0 0 by apply/matrixP => i j; rewrite !mxE if_same.
have T0 : 0 <= thr8 F by rewrite invr_ge0 exprn_ge0 // ler0n.
have D0 : 0 < dmin12 F by rewrite invr_gt0 exprn_gt0 // ltr0n.
have [|||_ [_ [b E]]] := @full_solve F 2 1 unit [:: ox_req] ox_opt e2 0 (fun _ => True) 1 (dmin12 F) (thr8 F) (thr8 F) (Z.of_nat 100) (Z.of_nat 1) (@ox_descent unit) ox_full
  Fe De ox_moves T0 _ erefl _ D0 tt (0, y) fuel I Hf _ => //.
  by do 2 eexists.
exists b. rewrite E Z [(p2 0 0, y).1]/= ox_go ox_d p2_add ox_go ox_res norm2_p2 !subr0 !add0r sqrrN expr1n.
have -> : 4%:R^-1 * thr8 F < 1.
  apply: le_lt_trans (thr8_lt1 F). by rewrite -{2}(mul1r (thr8 F)); apply: ler_wpmul2r => //; rewrite invf_le1 ?ler1n ?ltr0n.
suff -> : (1 + 3%:R ^+ 2 < dmin12 F) = false by [].
apply/negP/negP; rewrite -leNgt. apply: (@le_trans _ _ 1); last by rewrite ler_addl sqr_ge0.
by rewrite invf_le1 ?exprn_gt0 ?ltr0n // exprn_ege1 // ler1n.
Qed.
End Ex.
