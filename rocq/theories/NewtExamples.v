(** Concrete equations in one variable. *)
From Coq Require Import Reals ZArith Lia Lra.
From mathcomp Require Import all_ssreflect all_algebra.
From Verif Require Import RField RReal SolveModel SolveSpec DescentModel DescentSpec DescentProofs AffModel AffSpec AffExamples NewtModel NewtSpec NewtProofs NewtBySub.
Set Implicit Arguments. Unset Strict Implicit. Unset Printing Implicit Defensive.
Import Order.TTheory GRing.Theory Num.Theory.
Open Scope ring_scope.

Section Ex.
Variable F : realFieldType.
Lemma svd1_E (c : F) : (const_mx c : 'M[F]_1) = (const_mx (Num.sg c) : 'M[F]_1) *m diag_mx (const_mx `|c|) *m (1%:M : 'M[F]_1)^T.
Proof. by rewrite trmx1 mulmx1; apply/matrixP => i j; rewrite !ord1 !mxE big_ord1 !mxE mulr1n -numEsg. Qed.
Lemma svd1_S (c : F) : c != 0 -> forall i : 'I_1, 0 < (const_mx `|c| : 'rV[F]_1) 0 i.
Proof. by move=> H i; rewrite mxE normr_gt0. Qed.
Lemma svd1_U (c : F) : c != 0 -> (const_mx (Num.sg c) : 'M[F]_1)^T *m (const_mx (Num.sg c) : 'M[F]_1) = 1%:M.
Proof. by move=> H; apply/matrixP => i j; rewrite !ord1 !mxE big_ord1 !mxE -expr2 sqr_sg H. Qed.
Lemma svd1_V : (1%:M : 'M[F]_1)^T *m 1%:M = 1%:M. Proof. by rewrite trmx1 mulmx1. Qed.
Lemma svd1_V2 : (0 : 'M[F]_(1, 0))^T *m 0 = 1%:M. Proof. by apply/matrixP => -[]. Qed.
Lemma svd1_V12 : (1%:M : 'M[F]_1)^T *m (0 : 'M[F]_(1, 0)) = 0. Proof. by rewrite mulmx0. Qed.
Lemma svd1_full : 1%:M *m (1%:M : 'M[F]_1)^T + (0 : 'M[F]_(1, 0)) *m 0^T = 1%:M. Proof. by rewrite trmx1 mulmx1 mul0mx addr0. Qed.
Definition svd1 (c : F) (H : c != 0) : svd (const_mx c : 'M[F]_1) :=
  @mksvd F 1 1 (const_mx c) 1 0 (const_mx (Num.sg c)) (const_mx `|c|) 1%:M 0 (svd1_E c) (@svd1_S c H) (@svd1_U c H) svd1_V svd1_V2 svd1_V12 svd1_full (addn0 1%N).
(** f x = 0 *)
Definition eqn (f f' : F -> F) : nlevel F 1 := @mknl F 1 1 (fun q => const_mx (f (q 0 0))) (fun q => const_mx (f' (q 0 0))) [:: 1%N].
Definition eqn_descent (f f' : F -> F) (s : unit) (q : 'cV[F]_1) : 'cV[F]_1 * unit := (const_mx (- (f (q 0 0) / f' (q 0 0))), s).
Lemma eqn_desc thr f f' s (q : 'cV[F]_1) : f' (q 0 0) != 0 -> descends thr [seq at_n q l | l <- [:: eqn f f']] (eqn_descent f f' s q).1.
Proof.
move=> H. apply: (@desc_one F 1 thr _ _ (at_n q (eqn f f')) (svd1 H) 0) => //.
rewrite /= /solve /= mul1mx; apply/matrixP => i j; rewrite !ord1 !mxE big_ord1 !mxE big_ord1 !mxE mulr1n.
have E (c : F) : `|c|^-1 * Num.sg c = c^-1 by rewrite [in RHS](numEsg c) invfM invr_sg mulrC.
by rewrite E mulrN mulrC.
Qed.
Lemma eqn_residual f f' (q : 'cV[F]_1) : nresidual [:: eqn f f'] q = f (q 0 0) ^+ 2.
Proof.
rewrite /nresidual /= /seg_norm. rewrite (eq_bigl xpredT) ?big_ord1; last by move=> i; rewrite ord1. by rewrite mxE max_r // sqr_ge0.
Qed.
(** one constraint of size 1 *)
Definition lev1 (e : 'cV[F]_1 -> 'cV[F]_1) (J : 'cV[F]_1 -> 'M[F]_1) : nlevel F 1 := @mknl F 1 1 e J [:: 1%N].
Lemma lev1_each e J (b : forall l : nlevel F 1, 'cV[F]_(nl_rows l)) M : each [:: lev1 e J] b M <-> b (lev1 e J) 0 0 ^+ 2 <= M.
Proof.
have E : \sum_(i < 1 | (sumn (take 0 [:: 1%N]) <= i < sumn (take 1 [:: 1%N]))%N) b (lev1 e J) i 0 ^+ 2 = b (lev1 e J) 0 0 ^+ 2.
  by rewrite (eq_bigl xpredT) ?big_ord1 // => i; rewrite ord1.
split=> [H|H l [|c] [<-|[]] //= _]; last by rewrite E.
by have := H (lev1 e J) 0%N (or_introl _ erefl) isT; rewrite E.
Qed.
Lemma lev1_well (e : 'cV[F]_1 -> 'cV[F]_1) (J : 'cV[F]_1 -> 'M[F]_1) (f f' : F -> F) (q0 r B K L : F) : (forall q, e q 0 0 = f (q 0 0)) -> (forall q, J q 0 0 = f' (q 0 0)) ->
  (forall x, (x - q0) ^+ 2 <= r ^+ 2 -> f' x != 0 /\ (f' x) ^- 2 <= B ^+ 2 /\ f' x ^+ 2 <= L) ->
  (forall x d, (x - q0) ^+ 2 <= r ^+ 2 -> (x + d - q0) ^+ 2 <= r ^+ 2 -> (f (x + d) - f x - f' x * d) ^+ 2 <= (K * d ^+ 2) ^+ 2) ->
  well_behaved [:: lev1 e J] (const_mx q0) r B K L.
Proof.
move=> He HJ H1 H2; split.
- move=> q; rewrite /ball norm2_1 !mxE => /H1 [N [HB HL]]; split.
  + move=> b M M0 /lev1_each H. exists (const_mx (b (lev1 e J) 0 0 / f' (q 0 0))). split.
      rewrite norm2_1 mxE exprMn exprVn mulrC. by apply: ler_pmul => //; rewrite ?invr_ge0 sqr_ge0.
    move=> l [<-|[]]. apply/matrixP => i j; rewrite !ord1 !mxE big_ord1 !mxE /= HJ mulrCA divff // mulr1 //.
  + move=> x; apply/lev1_each. rewrite !mxE big_ord1 /= HJ norm2_1 exprMn. by apply: ler_wpmul2r => //; exact: sqr_ge0.
- move=> q d; rewrite /ball !norm2_1 !mxE => B1 B2. apply/lev1_each. rewrite !mxE big_ord1 /= !He HJ !mxE norm2_1. exact: H2.
Qed.
Lemma eqn_lev1 f f' : eqn f f' = lev1 (fun q => const_mx (f (q 0 0))) (fun q => const_mx (f' (q 0 0))). Proof. by []. Qed.
End Ex.

Delimit Scope R_scope with coqR.
Section Reals.
Notation eqnR := (@eqn R_realFieldType).
Lemma lev1_wellR (e : 'cV[R]_1 -> 'cV[R]_1) (J : 'cV[R]_1 -> 'M[R]_1) (f f' : R -> R) (q0 r B K L : R) : (forall q, e q 0 0 = f (q 0 0)) -> (forall q, J q 0 0 = f' (q 0 0)) -> (0 <= r)%coqR ->
  (forall x, q0 - r <= x <= q0 + r -> f' x <> 0 /\ 1 <= B * B * (f' x * f' x) /\ f' x * f' x <= L)%coqR ->
  (forall x d, q0 - r <= x <= q0 + r -> q0 - r <= x + d <= q0 + r -> - (K * (d * d)) <= f (x + d) - f x - f' x * d <= K * (d * d))%coqR ->
  well_behaved [:: @lev1 R_realFieldType e J] (const_mx q0) r B K L.
Proof.
move=> He HJ r0 H1 H2.
have Sq (a b : R) : (0 <= b -> a * a <= b * b -> - b <= a <= b)%coqR by move=> Hb H; split; nra.
have In (x : R) : (x - q0 : R) ^+ 2 <= r ^+ 2 -> (q0 - r <= x <= q0 + r)%coqR.
  rewrite !expr2 => /leR H. have := Sq (x - q0)%coqR r r0 H. lra.
apply: (lev1_well He HJ).
- move=> x /In /H1 [N [HB HL]]. split; first by apply/eqP. split; last by rewrite expr2; apply/leR.
  have P : 0 < (f' x : R_realFieldType) ^+ 2 by rewrite exprn_even_gt0 //=; apply/eqP.
  rewrite -(ler_pmul2r P) mulVf; last by rewrite gt_eqF.
  by rewrite !expr2; apply/leR.
- move=> x d /In Hx /In Hd. have [H3 H4] := H2 x d Hx Hd.
  rewrite !expr2; apply/leR. set u := (f (x + d) - f x - f' x * d)%coqR in H3 H4. change (u * u <= (K * (d * d)) * (K * (d * d)))%coqR. nra.
Qed.
(** x^2 = 2 from 3 / 2 *)
Definition sq2 (x : R) : R := (x * x - 2)%coqR.
Definition sq2' (x : R) : R := (2 * x)%coqR.
Lemma sq2_wellR (e : 'cV[R]_1 -> 'cV[R]_1) (J : 'cV[R]_1 -> 'M[R]_1) : (forall q, e q 0 0 = sq2 (q 0 0)) -> (forall q, J q 0 0 = sq2' (q 0 0)) ->
  well_behaved [:: @lev1 R_realFieldType e J] (const_mx (3 / 2)%coqR) (1 / 4)%coqR (2 / 5)%coqR 1%coqR (49 / 4)%coqR.
Proof.
move=> He HJ; apply: (lev1_wellR He HJ); first lra.
- move=> x H; rewrite /sq2'; split; [lra|split; nra].
- move=> x d _ _; rewrite /sq2 /sq2'; split; nra.
Qed.
Lemma sq2_well : well_behaved [:: eqnR sq2 sq2'] (const_mx (3 / 2)%coqR) (1 / 4)%coqR (2 / 5)%coqR 1%coqR (49 / 4)%coqR.
Proof. by apply: sq2_wellR => q; rewrite mxE. Qed.
Definition thr8R : R := (/ 100000000)%coqR.
Definition dmin12R : R := (/ 1000000000000)%coqR.
Notation FR := R_realFieldType.
Lemma sq2_gain : 1 - 1 * (1 - (1 * (2 / 5)%coqR ^+ 2 * (1 / 4)%coqR) ^+ 2) = (1 / 625)%coqR :> FR.
Proof. rewrite !expr2. change (1 - 1 * (1 - (1 * (2 / 5 * (2 / 5)) * (1 / 4)) * (1 * (2 / 5 * (2 / 5)) * (1 / 4))) = 1 / 625)%coqR. field. Qed.
Lemma case_sqrt (inf : R) fuel : (100 <= fuel)%N ->
  let ls := [:: eqnR sq2 sq2'] in let q0 := const_mx (3 / 2)%coqR in
  well_behaved ls q0 (1 / 4)%coqR (2 / 5)%coqR 1%coqR (49 / 4)%coqR /\
  (forall s q, ball q0 (1 / 4)%coqR q -> descends (thr8R : FR) [seq at_n q l | l <- ls] (@eqn_descent FR sq2 sq2' s q).1) /\
  nresidual ls q0 <= (1 / 4)%coqR ^+ 2 /\ (1 * (2 / 5)%coqR ^+ 2 * (1 / 4)%coqR) ^+ 2 < 1 :> FR /\
  (2 / 5)%coqR * (1 / 4)%coqR * 2%:R <= (1 / 4)%coqR * (1 * (1 - (1 * (2 / 5)%coqR ^+ 2 * (1 / 4)%coqR) ^+ 2)) :> FR /\
  (49 / 4)%coqR * dmin12R <= thr8R :> FR /\ thr8R < nresidual ls q0 /\
  exists k q past, nsolve ls (@eqn_descent FR sq2 sq2') (@full FR 1) dmin12R thr8R inf (Z.of_nat 100) (Z.of_nat 1) fuel tt q0 =
     Some (Some SUCCESS, q, past, Z.of_nat k) /\ (0 < k)%N /\ let y := sq2 (q 0 0) in (- (1 / 10000) <= y <= 1 / 10000)%coqR.
Proof.
move=> Hf ls q0.
have W := sq2_well. rewrite -/ls -/q0 in W.
have D : forall s q, ball q0 (1 / 4)%coqR q -> descends (thr8R : FR) [seq at_n q l | l <- ls] (@eqn_descent FR sq2 sq2' s q).1.
  move=> s q Hb. apply: eqn_desc. move: Hb; rewrite /ball norm2_1 !mxE !expr2. set x := q 0 0 => /leR Hb.
  change ((x - 3 / 2) * (x - 3 / 2) <= 1 / 4 * (1 / 4))%coqR in Hb. apply/eqP; rewrite /sq2'. change (2 * x <> 0)%coqR. nra.
have R0 : nresidual ls q0 <= (1 / 4)%coqR ^+ 2.
  rewrite eqn_residual /q0 mxE !expr2; apply/leR. change (sq2 (3 / 2) * sq2 (3 / 2) <= 1 / 4 * (1 / 4))%coqR. rewrite /sq2; lra.
have Th : (1 * (2 / 5)%coqR ^+ 2 * (1 / 4)%coqR) ^+ 2 < 1 :> FR.
  rewrite !expr2; apply/ltR. change ((1 * (2 / 5 * (2 / 5)) * (1 / 4)) * (1 * (2 / 5 * (2 / 5)) * (1 / 4)) < 1)%coqR. lra.
have Ra : (2 / 5)%coqR * (1 / 4)%coqR * 2%:R <= (1 / 4)%coqR * (1 * (1 - (1 * (2 / 5)%coqR ^+ 2 * (1 / 4)%coqR) ^+ 2)) :> FR.
  rewrite !expr2; apply/leR. change (2 / 5 * (1 / 4) * (1 + 1) <= 1 / 4 * (1 * (1 - (1 * (2 / 5 * (2 / 5)) * (1 / 4)) * (1 * (2 / 5 * (2 / 5)) * (1 / 4)))))%coqR. lra.
have Sc : (49 / 4)%coqR * dmin12R <= thr8R :> FR.
  apply/leR. change (49 / 4 * / 1000000000000 <= / 100000000)%coqR. lra.
have Ab : thr8R < nresidual ls q0.
  rewrite eqn_residual /q0 mxE !expr2; apply/ltR. change (/ 100000000 < sq2 (3 / 2) * sq2 (3 / 2))%coqR. rewrite /sq2; lra.
do 7! split=> //.
have Mv := @moves_full FR 1 (@eqn_descent FR sq2 sq2').
have St : exists l t, ls = l :: t /\ nl_rows l <> 0%N by do 2 eexists; split; [reflexivity|].
have M3 : (1 - 1 * (1 - (1 * (2 / 5)%coqR ^+ 2 * (1 / 4)%coqR) ^+ 2)) ^+ (Z.to_nat (Z.of_nat 100)) * nresidual ls q0 <= thr8R :> FR.
  rewrite sq2_gain. apply: (@le_trans _ _ ((1 / 625)%coqR ^+ 3 * (1 / 4)%coqR ^+ 2)).
    apply: ler_pmul => //; first by apply: exprn_ge0; apply/leR; change (0 <= 1 / 625)%coqR; lra.
      exact: nres_ge0.
    apply: ler_wiexpn2l => //; apply/leR; [change (0 <= 1 / 625)%coqR|change (1 / 625 <= 1)%coqR]; lra.
  rewrite expr2 exprS expr2; apply/leR. change (1 / 625 * (1 / 625 * (1 / 625)) * (1 / 4 * (1 / 4)) <= / 100000000)%coqR. lra.
have P (x : R) : (0 <= x)%coqR -> (0 : FR) <= x by move=> ?; apply/leR.
have [k [E [Hk [Hr [Hj _]]]]] := @newton_success FR 1 unit ls (fun _ => True) (1 / 4)%coqR (2 / 5)%coqR 1%coqR (49 / 4)%coqR (1 / 4)%coqR 1 dmin12R thr8R thr8R inf
  (Z.of_nat 100) (Z.of_nat 1) (@eqn_descent FR sq2 sq2') (@full FR 1) (tt, q0) fuel W St D Mv Logic.I
  (P (2 / 5)%coqR ltac:(lra)) (P (1 / 4)%coqR ltac:(lra)) (P (49 / 4)%coqR ltac:(lra)) ltr01 R0 Th Ra Sc Hf ltac:(by []) M3.
do 3 eexists; split; [exact: E|]. split.
  case: k E Hk Hr Hj => // _ _ H _. by move: Ab; rewrite ltNge H.
move: Hr; rewrite eqn_residual expr2 => /leR. set y := sq2 _. change (y * y <= / 100000000 -> - (1 / 10000) <= y <= 1 / 10000)%coqR. move=> ?; split; nra.
Qed.

(** x^3 = 5 x from 1: 1, -1, 1, -1, 1 *)
Definition cub (x : R) : R := (x * x * x - 5 * x)%coqR.
Definition cub' (x : R) : R := (3 * x * x - 5)%coqR.
Notation cds := (@eqn_descent FR cub cub').
Lemma cub_res x : (x * x = 1)%coqR -> nresidual [:: eqnR cub cub'] (const_mx x) = 16%coqR.
Proof.
move=> H. rewrite eqn_residual mxE expr2. change (cub x * cub x = 16)%coqR. rewrite /cub.
have -> : ((x * x * x - 5 * x) * (x * x * x - 5 * x) = (x * x) * (x * x - 5) * (x * x - 5))%coqR by ring. rewrite H; ring.
Qed.
Lemma cub_dir x : (x * x = 1)%coqR -> (cds tt (const_mx x)).1 = const_mx (-2 * x)%coqR.
Proof.
move=> H; rewrite /eqn_descent /= mxE; congr const_mx.
have -> : cub x = (2 * x)%coqR * cub' x :> FR.
  change (x * x * x - 5 * x = (2 * x) * (3 * x * x - 5))%coqR. have -> : (3 * x * x = 3 * (x * x))%coqR by ring. rewrite H; ring.
rewrite mulfK; first by change (- (2 * x) = -2 * x)%coqR; ring.
apply/eqP; change (3 * x * x - 5 <> 0)%coqR; have -> : (3 * x * x = 3 * (x * x))%coqR by ring. rewrite H; lra.
Qed.
Lemma cub_step (inf prev : R) fuel past x ed iter st : (x * x = 1)%coqR -> ed <> Z0 -> Z.lt iter (Z.of_nat 100) ->
  hloop (fun a b : FR => a < b) (nresidual [:: eqnR cub cub']) cds (@sqn FR 1) dmin12R thr8R (Z.of_nat 100) (@full FR 1) fuel.+1 tt (const_mx x) past (16%coqR : FR) prev ed iter st =
  hloop (fun a b : FR => a < b) (nresidual [:: eqnR cub cub']) cds (@sqn FR 1) dmin12R thr8R (Z.of_nat 100) (@full FR 1) fuel tt (const_mx (- x)%coqR) (const_mx x :: past) (16%coqR : FR) (16%coqR : FR)
    (if (16%coqR : FR) < prev then Zpos 3 else Z.sub ed (Zpos 1)) (Z.add iter (Zpos 1)) (if (16%coqR : FR) < prev then st else Some ERROR_INCREASED).
Proof.
move=> H He Hi.
have X : (- x * - x = 1)%coqR by rewrite -H; ring.
have D := cub_dir H.
rewrite [LHS]/=. have -> : thr8R < 16%coqR :> FR by apply/ltR; change (/ 100000000 < 16)%coqR; lra.
have -> : Z.eqb ed Z0 = false by apply/Z.eqb_neq. have -> : Z.ltb iter (Zpos 100) by apply/Z.ltb_lt; exact: Hi.
rewrite /= /eqn_descent in D *. rewrite /= D.
have -> : sqn (const_mx (-2 * x)%coqR : 'cV[FR]_1) < dmin12R = false.
  rewrite sqn_norm2 norm2_1 mxE expr2. apply/negP => /ltR. change (-2 * x * (-2 * x) < / 1000000000000 -> False)%coqR. nra.
rewrite /=. have -> : const_mx x + const_mx (-2 * x)%coqR = const_mx (- x)%coqR :> 'cV[FR]_1.
  by apply/matrixP => i j; rewrite !mxE; change (x + -2 * x = - x)%coqR; ring.
by rewrite cub_res.
Qed.
(** y = x^2, y = 2 from x = 3 / 2, any y *)
Definition sub_g (x : 'cV[FR]_1) : 'cV[FR]_1 := let t : R := x 0 0 in const_mx (t * t)%coqR.
Definition sub_G (x : 'cV[FR]_1) : 'M[FR]_1 := let t : R := x 0 0 in const_mx (2 * t)%coqR.
Definition sub_level : nblevel FR 1 1 := @mknb FR 1 1 1 (fun c => let t : R := c.2 0 0 in const_mx (t - 2)%coqR) (fun _ => 0) (fun _ => 1%:M) [:: 1%N].
Definition sub_descent (s : unit) (c : conf FR 1 1) : 'cV[FR]_1 * unit := (@eqn_descent FR sq2 sq2' s c.1).
Definition sub_full (s : unit) (c : conf FR 1 1) (d : 'cV[FR]_1) : option (conf FR 1 1 * 'cV[FR]_1 * unit) := Some ((c.1 + d, c.2), d, s).
Lemma sub_err (x : 'cV[FR]_1) : nb_err sub_level (x, sub_g x) = const_mx (sq2 (x 0 0)).
Proof. by rewrite /= /sub_g mxE. Qed.
Lemma sub_jac (x : 'cV[FR]_1) : nb_A sub_level (x, sub_g x) + nb_B sub_level (x, sub_g x) *m sub_G x = const_mx (sq2' (x 0 0)).
Proof. by rewrite /= add0r mul1mx. Qed.
Lemma case_substitution (y : 'cV[FR]_1) fuel : (100 <= fuel)%N ->
  let q0 : 'cV[FR]_1 := const_mx (3 / 2)%coqR in
  well_behaved [seq substituted sub_g sub_G l | l <- [:: sub_level]] q0 (1 / 4)%coqR (2 / 5)%coqR 1%coqR (49 / 4)%coqR /\
  (forall s c, on_graph sub_g c -> ball q0 (1 / 4)%coqR c.1 -> descends (thr8R : FR) [seq at_nb sub_G c l | l <- [:: sub_level]] (sub_descent s c).1) /\
  nbmoves_by sub_g (fun _ => True) 1 sub_descent sub_full /\ thr8R < nbresidual [:: sub_level] (q0, sub_g q0) /\
  exists c b, nbsolve [:: sub_level] sub_g sub_descent sub_full dmin12R thr8R (Z.of_nat 100) (Z.of_nat 1) fuel tt (q0, y) = Done SUCCESS c b /\
    c.2 = sub_g c.1 /\ let y := c.2 0 0 in (- (1 / 20000) <= y - 2 <= 1 / 20000)%coqR.
Proof.
move=> Hf q0.
have W : well_behaved [seq substituted sub_g sub_G l | l <- [:: sub_level]] q0 (1 / 4)%coqR (2 / 5)%coqR 1%coqR (49 / 4)%coqR.
  by apply: sq2_wellR => q; rewrite ?sub_err ?sub_jac mxE.
have D : forall s c, on_graph sub_g c -> ball q0 (1 / 4)%coqR c.1 -> descends (thr8R : FR) [seq at_nb sub_G c l | l <- [:: sub_level]] (sub_descent s c).1.
  move=> s [x y']; rewrite /on_graph /= => -> Hb. have -> : at_nb sub_G (x, sub_g x) sub_level = at_n x (eqnR sq2 sq2') by rewrite /at_nb sub_err sub_jac.
  by have [_ [H _]] := @case_sqrt 0 fuel Hf; apply: H.
have Mv : nbmoves_by sub_g (fun _ => True) 1 sub_descent sub_full.
  move=> s c _ _. exists 1, (sub_descent s c).1, s, s, c.2. by rewrite /sub_full !scale1r lexx.
have Er : nbresidual [:: sub_level] (q0, sub_g q0) = nresidual [:: eqnR sq2 sq2'] q0 by rewrite /nbresidual /nresidual /= /sub_g mxE.
have [_ [_ [R0 [Th [Ra [_ [Ab _]]]]]]] := @case_sqrt 0 fuel Hf.
rewrite -Er in R0 Ab.
do 4! split=> //.
have St : exists l t, [:: sub_level] = l :: t /\ nb_rows l <> 0%N by do 2 eexists; split; [reflexivity|].
have Q : 4%:R^-1 = (/ 4)%coqR :> FR.
  have E4 : 4%:R = 4%coqR :> FR by change (1 + (1 + (1 + 1)) = 4)%coqR; ring.
  apply: (mulfI (x := (4%coqR : FR))); first by apply/eqP; change (4 <> 0)%coqR; lra.
  rewrite -E4 divff; last by rewrite pnatr_eq0. rewrite E4. change (1 = 4 * / 4)%coqR. field.
have Sc : (49 / 4)%coqR * dmin12R <= 4%:R^-1 * thr8R :> FR.
  rewrite Q; apply/leR. change (49 / 4 * / 1000000000000 <= / 4 * / 100000000)%coqR. lra.
have T0 : (0 : FR) <= thr8R by apply/leR; change (0 <= / 100000000)%coqR; lra.
have M3 : (1 - 1 * (1 - (1 * (2 / 5)%coqR ^+ 2 * (1 / 4)%coqR) ^+ 2)) ^+ (Z.to_nat (Z.of_nat 100)) * nbresidual [:: sub_level] (q0, sub_g q0) <= 4%:R^-1 * thr8R :> FR.
  rewrite sq2_gain Q. apply: (@le_trans _ _ ((1 / 625)%coqR ^+ 3 * (1 / 4)%coqR ^+ 2)).
    apply: ler_pmul => //; first by apply: exprn_ge0; apply/leR; change (0 <= 1 / 625)%coqR; lra.
      by rewrite Er; exact: nres_ge0.
    apply: ler_wiexpn2l => //; apply/leR; [change (0 <= 1 / 625)%coqR|change (1 / 625 <= 1)%coqR]; lra.
  rewrite expr2 exprS expr2; apply/leR. change (1 / 625 * (1 / 625 * (1 / 625)) * (1 / 4 * (1 / 4)) <= / 4 * / 100000000)%coqR. lra.
have P (x : R) : (0 <= x)%coqR -> (0 : FR) <= x by move=> ?; apply/leR.
have [c [b [E [Hg [_ [_ [Hlow _]]]]]]] := @newton_by_substitution FR 1 1 unit [:: sub_level] sub_g sub_G (fun _ => True) (1 / 4)%coqR (2 / 5)%coqR 1%coqR (49 / 4)%coqR (1 / 4)%coqR 1 dmin12R thr8R thr8R
  (Z.of_nat 100) (Z.of_nat 1) sub_descent sub_full tt (q0, y) fuel W St D Mv Logic.I
  (P (2 / 5)%coqR ltac:(lra)) (P (1 / 4)%coqR ltac:(lra)) (P (49 / 4)%coqR ltac:(lra)) ltr01 R0 Th Ra Sc T0 Hf ltac:(by []) M3.
exists c, b; split=> //; split=> //. have := Hlow (ltW Ab). rewrite Q.
have -> : nbresidual [:: sub_level] c = (let t : R := c.2 0 0 in (t - 2)%coqR : FR) ^+ 2.
  rewrite /nbresidual /= /seg_norm (eq_bigl xpredT) ?big_ord1; last by move=> i; rewrite ord1. by rewrite mxE max_r // sqr_ge0.
rewrite expr2 => /leR /=. set t := c.2 0 0. change ((t - 2) * (t - 2) <= / 4 * / 100000000 -> - (1 / 20000) <= t - 2 <= 1 / 20000)%coqR. move=> ?; split; nra.
Qed.
Lemma case_cycle (inf : R) fuel : (16 < inf)%coqR -> (100 <= fuel)%N ->
  let ls := [:: eqnR cub cub'] in let one : 'cV[FR]_1 := const_mx 1%coqR in let mone : 'cV[FR]_1 := const_mx (- (1))%coqR in
  (forall s q, (q = one \/ q = mone) -> descends (thr8R : FR) [seq at_n q l | l <- ls] (cds s q).1) /\
  nsolve ls cds (@full FR 1) dmin12R thr8R inf (Z.of_nat 100) (Z.of_nat 1) fuel tt one =
    Some (Some ERROR_INCREASED, one, [:: mone; one; mone; one], Z.of_nat 4) /\
  nresidual ls 0 = 0.
Proof.
move=> Hi Hf ls one mone. split; last split.
- move=> s q Hq. apply: eqn_desc. apply/eqP. case: Hq => ->; rewrite mxE /cub'.
  + change (3 * 1 * 1 - 5 <> 0)%coqR; lra.
  + change (3 * - (1) * - (1) - 5 <> 0)%coqR; lra.
- rewrite /nsolve /hsolve. have H1 : (1 * 1 = 1)%coqR by ring. have H2 : (- (1) * - (1) = 1)%coqR by ring.
  rewrite (cub_res H1) andbF. have -> : fuel = ((fuel - 4).+4)%N by rewrite -addn4 subnK // (leq_trans _ Hf).
  rewrite cub_step //. have -> : (16%coqR : FR) < inf by apply/ltR. rewrite cub_step // ltxx.
  have N : (- - (1) = 1)%coqR by ring.
  rewrite N cub_step // ltxx. rewrite cub_step // ltxx N.
  have T : thr8R < 16%coqR :> FR by apply/ltR; change (/ 100000000 < 16)%coqR; lra.
  by case: (fuel - 4)%N => [|f] /=; rewrite T /= T.
- by rewrite eqn_residual mxE; rewrite /cub expr2; change ((0 * 0 * 0 - 5 * 0) * (0 * 0 * 0 - 5 * 0) = 0)%coqR; ring.
Qed.
End Reals.
