(** Concrete affine systems. *)
From Coq Require Import ZArith Lia.
From mathcomp Require Import all_ssreflect all_algebra.
From Verif Require Import SolveModel SolveSpec SolveProofs DescentModel DescentSpec DescentProofs DescentExamples AffModel AffSpec AffProofs AffMain AffBySub.
Set Implicit Arguments. Unset Strict Implicit. Unset Printing Implicit Defensive.
Import Order.TTheory GRing.Theory Num.Theory.
Open Scope ring_scope.

Section Ex.
Variable F : realFieldType.
Notation e1 := (@e1 F).
(** a full step *)
Definition full n (s : unit) (q d : 'cV[F]_n) : 'cV[F]_n * 'cV[F]_n * unit := (q + d, d, s).
Lemma moves_full n (descent : unit -> 'cV[F]_n -> 'cV[F]_n * unit) : moves_by (@along F n) (fun a d => a *: d) (fun _ => True) 1 descent (@full n).
Proof.
move=> s q _. exists 1, (descent s q).1, (descent s q).2, (descent s q).2; split; first by case: (descent s q).
by rewrite /full /along !scale1r lexx.
Qed.
(** a x1 = b *)
Definition row_level (a b : F) : alevel F 2 := @mkal F 2 1%N (a *: e1) (const_mx b) [:: 1%N].
Definition row_descent (a b : F) (Ha : 0 < a) (s : unit) (q : 'cV[F]_2) : 'cV[F]_2 * unit :=
  (solve (svd_row Ha) (- aerr (row_level a b) q), s).
Lemma row_desc thr a b (Ha : 0 < a) s q : descends thr [seq at_q l q | l <- [:: row_level a b] ++ [::]] (row_descent b Ha s q).1.
Proof. exact: (@desc_one F 2 thr _ _ (at_q (row_level a b) q) (svd_row Ha) 0). Qed.
Lemma row_direction a b (Ha : 0 < a) s : (row_descent b Ha s 0).1 = (b / a) *: e1^T.
Proof.
rewrite /row_descent /= /solve /aerr /= mulmx0 sub0r opprK trmx1 mulmx1.
apply/matrixP => i j; rewrite ord1 !mxE big_ord1 !mxE big_ord1 !mxE /= mulr1n. by rewrite mulrC mulrA mulrAC.
Qed.
Lemma norm2_1 (x : 'cV[F]_1) : norm2 x = x 0 0 ^+ 2. Proof. by rewrite /norm2 big_ord1. Qed.
Lemma row_residual a b q : aresidual [:: row_level a b] q = (a * q 0 0 - b) ^+ 2.
Proof.
rewrite /aresidual /= /seg_norm. rewrite (eq_bigl xpredT) ?big_ord1; last by move=> i; rewrite ord1.
rewrite /aerr /= mxE -scalemxAl !mxE. rewrite big_ord_recl big_ord1 !mxE /= mul1r mul0r addr0. by rewrite max_r // sqr_ge0.
Qed.
Lemma row_stretch a b : stretch [:: row_level a b] (a ^+ 2).
Proof.
split; first exact: sqr_ge0. move=> l x [<-|[]] /=. rewrite norm2_1 -scalemxAl !mxE big_ord_recl big_ord1 !mxE /= mul1r mul0r addr0.
by rewrite exprMn; apply: ler_wpmul2l; [exact: sqr_ge0|rewrite /norm2 big_ord_recl ler_addl; apply: sumr_ge0 => i _; apply: sqr_ge0].
Qed.
Lemma row_solution a b q : solution [:: row_level a b] q <-> a * q 0 0 = b.
Proof.
have E : (al_A (row_level a b) *m q) 0 0 = a * q 0 0.
  by rewrite /= -scalemxAl mxE mxE big_ord_recl big_ord1 !mxE /= mul1r mul0r addr0.
split=> [H|H l [<-|[]]]; first by rewrite -E (H _ (or_introl _ erefl)) mxE.
by apply/matrixP => i j; rewrite !ord1 E mxE.
Qed.
Lemma row_first a (Ha : 0 < a) b s : (0 + (row_descent b Ha s 0).1) 0 0 = b / a.
Proof. by rewrite row_direction !mxE /= mulr1 add0r. Qed.

Lemma tens (i j : nat) : (i <= j)%N -> 10%:R ^- j <= 10%:R ^- i :> F.
Proof. by move=> H; rewrite lef_pinv ?posrE ?exprn_gt0 ?ltr0n // ler_eexpn2l // ltr1n. Qed.
Definition thr8 : F := 10%:R ^- 8.
Definition dmin12 : F := 10%:R ^- 12.
Lemma thr8_lt1 : thr8 < 1. Proof. by rewrite /thr8 invf_lt1 ?exprn_gt0 ?ltr0n // exprn_egt1 // ltr1n. Qed.

(** x1 = 1 from 0: hypotheses of the theorem and result *)
Lemma case_one fuel inf : (100 <= fuel)%N ->
  let req := [:: row_level 1 1] in let ds := row_descent 1 (@ltr01 F) in
  feasible req /\ (forall s q, descends thr8 [seq at_q l q | l <- req ++ [::]] (ds s q).1) /\
  moves_by (@along F 2) (fun a d => a *: d) (fun _ => True) 1 ds (@full 2) /\ stretch req 1 /\ 1 * dmin12 <= thr8 /\ 0 <= thr8 /\
  thr8 < aresidual req 0 /\
  asolve req ds (@full 2) dmin12 thr8 inf (Z.of_nat 100) (Z.of_nat 1) fuel tt 0 = Some (Some SUCCESS, e1^T, [:: 0], Z.of_nat 1).
Proof.
move=> Hf req ds.
have Fe : feasible req by exists (e1^T); apply/row_solution; rewrite !mxE mul1r.
have De : forall s q, descends thr8 [seq at_q l q | l <- req ++ [::]] (ds s q).1 by move=> s q; apply: row_desc.
have Mv : moves_by (@along F 2) (fun a d => a *: d) (fun _ => True) 1 ds (@full 2) by apply: moves_full.
have St : stretch req 1 by have := row_stretch 1 1; rewrite expr1n.
have Sc : 1 * dmin12 <= thr8 by rewrite mul1r; apply: tens.
have T0 : 0 <= thr8 by rewrite invr_ge0 exprn_ge0 // ler0n.
have Ab : thr8 < aresidual req 0 by rewrite row_residual mxE mulr0 sub0r sqrrN expr1n; exact: thr8_lt1.
do 7! split=> //.
have [] := @one_step F 2 unit req [::] (fun _ => True) 1 dmin12 thr8 thr8 inf (Z.of_nat 100) (Z.of_nat 1) ds (@full 2) De Mv tt 0 I fuel Fe St Sc T0 Hf _ _ Ab => //.
by rewrite add0r row_direction divr1 scale1r => ->.
Qed.

(** 1000 x1 = 1 / 2000 from 0 *)
Lemma case_scale fuel inf lsearch : (100 <= fuel)%N ->
  let Ha : 0 < 1000%:R :> F := ltr0n F 1000 in
  let req := [:: row_level 1000%:R 2000%:R^-1] in let ds := row_descent 2000%:R^-1 Ha in
  (forall s q, descends thr8 [seq at_q l q | l <- req ++ [::]] (ds s q).1) /\
  asolve req ds lsearch dmin12 thr8 inf (Z.of_nat 100) (Z.of_nat 1) fuel tt 0 = Some (Some INFEASIBLE, 0, [::], Z0) /\
  thr8 < aresidual req 0 /\ solution req (0 + (ds tt 0).1).
Proof.
move=> Hf Ha req ds. split; first by move=> s q; apply: row_desc.
have Sol : solution req (0 + (ds tt 0).1) by apply/row_solution; rewrite row_first mulrCA divff ?mulr1 // pnatr_eq0.
have Ab : thr8 < aresidual req 0.
  rewrite row_residual mxE mulr0 sub0r sqrrN /thr8 -exprVn -[8%N]/(4 * 2)%N exprM.
  rewrite ltr_pexpn2r ?nnegrE ?exprn_ge0 ?invr_ge0 ?ler0n //.
  by rewrite exprVn -natrX ltf_pinv ?posrE ?ltr0n // ltr_nat.
have Sm : sqn (ds tt 0).1 < dmin12.
  rewrite sqn_norm2 /ds row_direction /norm2 big_ord_recl big_ord1 !mxE /= mulr1 mulr0 expr0n addr0 -invfM.
  rewrite /dmin12 -exprVn -[12%N]/(6 * 2)%N exprM.
  rewrite ltr_pexpn2r ?nnegrE ?exprn_ge0 ?invr_ge0 ?mulr_ge0 ?ler0n //.
  rewrite exprVn -[6%N]/(3 * 2)%N exprM -natrX expr2 ltf_pinv ?posrE ?mulr_gt0 ?ltr0n // ltr_pmul2r ?ltr0n // ltr_nat //.
split; last by [].
have Hf' : (Z.to_nat (Z.of_nat 100) <= fuel)%coq_nat by apply/ssrnat.leP.
have [k [st [Es [Hk [Hs Hrest]]]]] := @hsolve_spec _ _ _ _ (fun a b : F => a < b) (aresidual req) ds (@sqn F 2) dmin12 thr8 (Z.of_nat 100) (Z.of_nat 1) lsearch inf (tt, 0) fuel Hf'.
case: Hrest => [[_ [H0 _]]|[_ [Hstop [Hfirst [_ [_ Hinf]]]]]]; first by [].
case: k Es Hk Hs Hstop Hfirst Hinf => [|k] Es Hk Hs Hstop Hfirst Hinf; last first.
  by case: (Hfirst 0%N); [lia|right; right; right].
by rewrite /asolve Es (proj2 Hinf) //; split=> //; split; [lia|case; lia].
Qed.

(** .6 x = 1, .8 x = 0 from 0: least squares .6 *)
Definition two_rows : 'M[F]_(2, 1) := \col_i (if i == 0 then 3%:R / 5%:R else 4%:R / 5%:R).
Lemma two_isom : two_rows^T *m two_rows = 1%:M.
Proof.
apply/matrixP => i j; rewrite !ord1 !mxE big_ord_recl big_ord1 !mxE /=.
by rewrite !(mulrACA _ 5%:R^-1) -!natrM -mulrDl -natrD -invfM -natrM divff // pnatr_eq0.
Qed.
Definition two_level : alevel F 1 := @mkal F 1 2%N two_rows (delta_mx 0 0) [:: 1%N; 1%N].
Definition two_descent (s : unit) (q : 'cV[F]_1) : 'cV[F]_1 * unit := (solve (svd_isom two_isom) (- aerr two_level q), s).
Lemma two_direction s : (two_descent s 0).1 = const_mx (3%:R / 5%:R).
Proof.
rewrite /two_descent /= /solve /aerr /= mulmx0 sub0r opprK.
have -> : (\row_i ((const_mx 1 : 'rV[F]_1) 0 i)^-1) = const_mx 1 by apply/rowP => i; rewrite !mxE invr1.
rewrite diag_const_mx !mul1mx. by apply/matrixP => i j; rewrite !ord1 !mxE big_ord_recl big_ord1 !mxE /= mulr1 mulr0 addr0.
Qed.
Lemma case_infeasible fuel inf : (100 <= fuel)%N ->
  asolve [:: two_level] two_descent (@full 1) dmin12 thr8 inf (Z.of_nat 100) (Z.of_nat 1) fuel tt 0 = Some (Some INFEASIBLE, const_mx (3%:R / 5%:R), [:: 0], Z.of_nat 1) /\
  least_violation [:: two_level] (const_mx (3%:R / 5%:R)) /\ ~ feasible [:: two_level].
Proof.
move=> Hf.
have De : forall s q, descends thr8 [seq at_q l q | l <- [:: two_level] ++ [::]] (two_descent s q).1.
  by move=> s q; apply: (@desc_one F 1 thr8 _ _ (at_q two_level q) (svd_isom two_isom) 0).
have Res q : aresidual [:: two_level] q = Num.max ((3%:R / 5%:R * q 0 0 - 1) ^+ 2) ((4%:R / 5%:R * q 0 0) ^+ 2).
  have S0 (e : 'cV[F]_2) : seg_norm e 0 1 = e 0 0 ^+ 2 by rewrite /seg_norm big_mkcond !big_ord_recl big_ord0 /= !addr0.
  have S1 (e : 'cV[F]_2) : seg_norm e (0 + 1) 1 = e 1 0 ^+ 2.
    by rewrite /seg_norm big_mkcond !big_ord_recl big_ord0 /= add0r addr0; congr (e _ 0 ^+ 2); apply: val_inj.
  rewrite /aresidual /= S0 S1 /aerr !mxE !big_ord1 !mxE /= subr0.
  by rewrite (max_r (sqr_ge0 _)).
have A0 : thr8 < aresidual [:: two_level] 0.
  by rewrite Res mxE !mulr0 sub0r sqrrN expr1n; apply: lt_le_trans thr8_lt1 _; rewrite le_maxr lexx.
have T1 : thr8 < 10%:R^-1 ^+ 2 by rewrite /thr8 -exprVn ltr_iexpn2l // ?invr_gt0 ?ltr0n // invf_lt1 ?ltr0n // ltr1n.
have A1 : thr8 < aresidual [:: two_level] (0 + (two_descent tt 0).1).
  rewrite Res two_direction !mxE add0r. apply: lt_le_trans T1 _. rewrite le_maxr; apply/orP; right.
  apply: ler_expn2r; rewrite ?nnegrE ?invr_ge0 ?ler0n //; first by rewrite !mulr_ge0 ?invr_ge0 ?ler0n.
  rewrite mulrACA -invfM -!natrM ler_pdivl_mulr ?ltr0n // mulrC ler_pdivr_mulr ?ltr0n // -natrM ler_nat //.
have [Lv H] := @infeasible F 1 unit [:: two_level] [::] (fun _ => True) dmin12 thr8 thr8 inf (Z.of_nat 100) (Z.of_nat 1) two_descent (@full 1) De
  (moves_full _) tt 0 I fuel (ex_intro _ two_level (ex_intro _ [::] (conj erefl (fun H : 2%N = 0%N => Bool.diff_false_true (match H with end))))) Hf ltac:(lia) ltac:(by rewrite invr_gt0 exprn_gt0 // ltr0n) A0 A1.
rewrite add0r two_direction in Lv H. split; last split=> //.
- case: H => // -[_ [//|]]. rewrite norm2_1 mxE => H. exfalso; move: H; apply/negP; rewrite -leNgt /dmin12 -exprVn -[12%N]/(6 * 2)%N exprM.
  apply: ler_expn2r; rewrite ?nnegrE ?exprn_ge0 ?invr_ge0 ?ler0n // ?mulr_ge0 ?invr_ge0 ?ler0n //.
  rewrite exprVn; apply: le_trans (tens (i := 1) _) _ => //. by rewrite expr1 ler_pdivl_mulr ?ltr0n // mulrC ler_pdivr_mulr ?ltr0n // -natrM ler_nat.
- case=> x Hx. have := Hx _ (or_introl _ erefl) => /matrixP E. have := E 0 0; have := E 1 0. rewrite !mxE !big_ord1 !mxE /=.
  move/eqP; rewrite mulf_eq0 => /orP [|/eqP ->]; last by move/eqP; rewrite mulr0 eq_sym oner_eq0.
  by rewrite mulf_eq0 invr_eq0 !pnatr_eq0.
Qed.

(** y = x1 + 1 computed, y = 3 required: x1 = 2 *)
Definition bs_G : 'M[F]_(1, 2) := e1.
Definition bs_level : blevel F 2 1 := @mkbl F 2 1 1%N 0 1%:M (const_mx 3%:R) [:: 1%N].
Lemma bs_red : bl_A bs_level + bl_B bs_level *m bs_G = 1 *: e1. Proof. by rewrite /= add0r mul1mx scale1r. Qed.
Definition bs_descent (s : unit) (c : conf F 2 1) : 'cV[F]_2 * unit := (solve (svd_eq bs_red (svd_row ltr01)) (- berr bs_level c), s).
Definition bs_full (s : unit) (c : conf F 2 1) (d : 'cV[F]_2) : option (conf F 2 1 * 'cV[F]_2 * unit) := Some ((c.1 + d, c.2), d, s).
Lemma case_by_substitution y fuel : (100 <= fuel)%N ->
  (exists c, bsolution bs_G (const_mx 1) [:: bs_level] c) /\
  (forall s c, computed bs_G (const_mx 1) c -> descends thr8 [seq at_c bs_G l c | l <- [:: bs_level] ++ [::]] (bs_descent s c).1) /\
  bmoves_by bs_G (const_mx 1) (fun _ => True) 1 bs_descent bs_full /\ bstretch bs_G [:: bs_level] 1 /\ 1 * dmin12 <= 4%:R^-1 * thr8 /\
  4%:R^-1 * thr8 < bresidual [:: bs_level] (0, bs_G *m 0 + const_mx 1) /\
  exists x b, absolve [:: bs_level] bs_G (const_mx 1) bs_descent bs_full dmin12 thr8 (Z.of_nat 100) (Z.of_nat 1) fuel tt (0, y) = Done SUCCESS (x, const_mx 3%:R) b /\ x 0 0 = 2%:R.
Proof.
move=> Hf.
have G0 (x : 'cV[F]_2) : (bs_G *m x) 0 0 = x 0 0 by rewrite mxE big_ord_recl big_ord1 !mxE /= mul1r mul0r addr0.
have Fe : exists c, bsolution bs_G (const_mx 1) [:: bs_level] c.
  exists (2%:R *: e1^T, const_mx 3%:R); split.
    by rewrite /computed /=; apply/matrixP => i j; rewrite !ord1 mxE [RHS]mxE G0 !mxE /= mulr1 -(natrD _ 2 1).
  by move=> l [<-|[]] /=; rewrite mul0mx mul1mx add0r.
have De : forall s c, computed bs_G (const_mx 1) c -> descends thr8 [seq at_c bs_G l c | l <- [:: bs_level] ++ [::]] (bs_descent s c).1.
  by move=> s c _; apply: (@desc_one F 2 thr8 _ _ (at_c bs_G bs_level c) (svd_eq bs_red (svd_row ltr01)) 0).
have Mv : bmoves_by bs_G (const_mx 1) (fun _ => True) 1 bs_descent bs_full.
  by move=> s c _ _; exists 1, (bs_descent s c).1, (bs_descent s c).2, (bs_descent s c).2, c.2; rewrite /bs_full scale1r lexx.
have St : bstretch bs_G [:: bs_level] 1.
  split; first exact: ler01. move=> l x [<-|[]] /=. rewrite mul0mx mul1mx add0r norm2_1 G0 mul1r.
  by rewrite /norm2 big_ord_recl ler_addl; apply: sumr_ge0 => i _; apply: sqr_ge0.
have Sc : 1 * dmin12 <= 4%:R^-1 * thr8.
  rewrite mul1r /dmin12 /thr8 -[12%N]/(4 + 8)%N exprD invfM; apply: ler_wpmul2r; first by rewrite invr_ge0 exprn_ge0 // ler0n.
  by rewrite -natrX lef_pinv ?posrE ?ltr0n // ler_nat.
have T0 : 0 <= thr8 by rewrite invr_ge0 exprn_ge0 // ler0n.
have Rs : bresidual [:: bs_level] (0, bs_G *m 0 + const_mx 1) = 2%:R ^+ 2.
  rewrite /bresidual /= /seg_norm. rewrite (eq_bigl xpredT) ?big_ord1; last by move=> i; rewrite ord1.
  rewrite /berr /= mul0mx mul1mx mulmx0 !add0r !mxE max_r ?sqr_ge0 //. by rewrite -opprB sqrrN -(natrB F (isT : (1 <= 3)%N)).
have Ab : 4%:R^-1 * thr8 < bresidual [:: bs_level] (0, bs_G *m 0 + const_mx 1).
  rewrite Rs; apply: (@le_lt_trans _ _ thr8).
    by rewrite -{2}(mul1r thr8); apply: ler_wpmul2r => //; rewrite invf_le1 ?ler1n ?ltr0n.
  by apply: lt_le_trans thr8_lt1 _; rewrite -natrX ler1n.
do 6! split=> //.
have [||c [b [E [Hc [_ [_ [_ H]]]]]]] := @affine_by_substitution F 2 1 unit [:: bs_level] [::] bs_G (const_mx 1) (fun _ => True) 1 1 dmin12 thr8 thr8 (Z.of_nat 100) (Z.of_nat 1)
  bs_descent bs_full tt (0, y) fuel Fe De Mv I ltr01 St Sc T0 Hf => //.
  by rewrite subrr expr0n /= mul0r mulr_ge0 // invr_ge0 ler0n.
have [Hc' Hs] := H erefl ltac:(lia) Ab. have := Hs _ (or_introl _ erefl). rewrite /= mul0mx mul1mx add0r => Hy.
exists c.1, b; split; first by rewrite E; congr Done; case: (c) Hy => u v /= ->.
have : (bs_G *m c.1 + const_mx 1) 0 0 = 3%:R by rewrite -Hc' Hy mxE.
by rewrite mxE G0 mxE => /(congr1 (fun t => t - 1)); rewrite addrK => ->; rewrite -(natrB F (isT : (1 <= 3)%N)).
Qed.
End Ex.
