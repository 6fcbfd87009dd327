From Coq Require Import ZArith.
From mathcomp Require Import all_ssreflect all_algebra.
From Verif Require Import SatModel IntSpec DescentModel DescentSpec DescentProofs DescentMain DescentExamples ProjModel ProjSpec ProjProofs.
Set Implicit Arguments. Unset Strict Implicit. Unset Printing Implicit Defensive.
Import Order.TTheory GRing.Theory Num.Theory.
Open Scope ring_scope.

Section Ex.
Variable R : realFieldType.
(** J = (3 4) / 5 *)
Definition row34 : 'rV[R]_2 := \row_j (if j == 0 then 3%:R / 5%:R else 4%:R / 5%:R).
Definition col43 : 'cV[R]_2 := \col_j (if j == 0 then - (4%:R / 5%:R) else 3%:R / 5%:R).
Lemma five : (5%:R : R) != 0. Proof. by rewrite pnatr_eq0. Qed.
Lemma sq34 : (3%:R / 5%:R) * (3%:R / 5%:R) + (4%:R / 5%:R) * (4%:R / 5%:R) = 1 :> R.
Proof. by rewrite !mulf_div -mulrDl -!natrM -natrD divff // pnatr_eq0. Qed.
Definition svd34 : svd row34.
Proof.
refine (@mksvd R 1 2 row34 1%N 1%N 1%:M (const_mx 1) row34^T col43 _ _ _ _ _ _ _ _).
- by rewrite mul1mx trmxK diag_const_mx mul1mx.
- by move=> i; rewrite mxE ltr01.
- by rewrite trmx1 mul1mx.
- by apply/matrixP => i j; rewrite !ord1 trmxK !mxE !big_ord_recl big_ord0 !mxE /= addr0 sq34.
- by apply/matrixP => i j; rewrite !ord1 !mxE !big_ord_recl big_ord0 !mxE /= addr0 mulrNN addrC sq34.
- by apply/matrixP => i j; rewrite !ord1 trmxK !mxE !big_ord_recl big_ord0 !mxE /= addr0 mulrN [X in - X]mulrC addNr.
- apply/matrixP => i j; rewrite trmxK !mxE !big_ord_recl !big_ord0 !mxE /= !addr0.
  case: i => [[|[|//]] ?]; case: j => [[|[|//]] ?]; rewrite /= ?mulrNN ?sq34 //.
  + by rewrite mulNr [X in _ - X]mulrC subrr.
  + by rewrite mulrN [X in _ - X]mulrC subrr.
  + by rewrite addrC sq34.
- by [].
Defined.
Definition pair_ (a b : R) : 'cV[R]_2 := \col_j (if j == 0 then a else b).
Lemma pair0 a b : pair_ a b 0 0 = a. Proof. by rewrite mxE. Qed.
Lemma pair1 a b : pair_ a b 1 0 = b. Proof. by rewrite mxE. Qed.
Lemma row_pair a b : row34 *m pair_ a b = 0 -> 3%:R * a + 4%:R * b = 0.
Proof.
move/matrixP/(_ 0 0); rewrite !mxE !big_ord_recl big_ord0 !mxE /= addr0 ![_ / _ * _]mulrAC -mulrDl => /eqP.
by rewrite mulf_eq0 invr_eq0 (negbTE five) orbF => /eqP.
Qed.
Lemma pair_row a b : 3%:R * a + 4%:R * b = 0 -> row34 *m pair_ a b = 0.
Proof.
by move=> H; apply/matrixP => i j; rewrite !ord1 !mxE !big_ord_recl big_ord0 !mxE /= addr0 ![_ / _ * _]mulrAC -mulrDl H mul0r.
Qed.
Lemma natr_le a b : (a <= b)%N -> (a%:R <= b%:R :> R). Proof. by rewrite ler_nat. Qed.
(** (-4, 3) is along the constraint; the upper bound 1 of the second variable takes the
    result out of it *)
Lemma clamp_refuted : exists (J : 'rV[R]_2) (D : svd J) (lb ub from to : 'cV[R]_2),
  (forall i, lb i 0 < from i 0 < ub i 0) /\ on_linear J id from to /\
  ~ on_linear J id from (project_on_kernel lb ub false false id D from to).
Proof.
have Hl : on_linear row34 id (pair_ 0 0) (pair_ (- 4%:R) 3%:R).
  split=> [j /(_ j) //|]; have -> : \col_i (pair_ (- 4%:R) 3%:R (id i) 0 - pair_ 0 0 (id i) 0) = pair_ (- 4%:R) 3%:R.
    by apply/matrixP => i j; rewrite !mxE; case: ifP; rewrite subr0.
  by apply: pair_row; rewrite mulrN mulrC addNr.
exists row34, svd34, (pair_ (- 10%:R) (- 10%:R)), (pair_ 10%:R 1), (pair_ 0 0), (pair_ (- 4%:R) 3%:R).
split; first by move=> i; rewrite !mxE; case: ifP; rewrite oppr_lt0 ltr0n /= ?ltr0n // ltr01.
split=> // -[_].
have -> : project_on_kernel (pair_ (- 10%:R) (- 10%:R)) (pair_ 10%:R 1) false false id svd34 (pair_ 0 0) (pair_ (- 4%:R) 3%:R) = pair_ (- 4%:R) 1.
  rewrite /project_on_kernel /= -/(unsat svd34 id (pair_ 0 0) (pair_ (- 4%:R) 3%:R)) (unsat_fix svd34 Hl).
  apply/matrixP => i j; rewrite (ord1 j) !mxE /clamp; case: (i == 0) => /=.
    rewrite ler_opp2 ler_nat /= (_ : 10%:R <= - 4%:R = false) //; apply/negbTE; rewrite -ltNge.
    by apply: (@lt_trans _ _ 0); rewrite ?oppr_lt0 ltr0n.
  rewrite (_ : 3%:R <= - 10%:R = false) /=; last by apply/negbTE; rewrite -ltNge; apply: (@lt_trans _ _ 0); rewrite ?oppr_lt0 ltr0n.
  by rewrite (_ : 1 <= 3%:R) // ler1n.
have -> : \col_i (pair_ (- 4%:R) 1 (id i) 0 - pair_ 0 0 (id i) 0) = pair_ (- 4%:R) 1.
  by apply/matrixP => i j; rewrite !mxE; case: ifP; rewrite subr0.
move/row_pair/eqP; rewrite mulr1 mulrN addrC subr_eq0 -natrM eqr_nat //.
Qed.
(** an explicit constraint x1 = x0 holds at both ends; the result is (1, 0) *)
Definition free1 (i : 'I_1) : 'I_2 := 0.
Lemma explicit_refuted : exists (free : 'I_1 -> 'I_2) (D : svd (0 : 'M[R]_1)) (lb ub from to : 'cV[R]_2),
  injective free /\ (forall i, free i <> 1) /\ (forall i, lb i 0 < from i 0 < ub i 0 /\ lb i 0 < to i 0 < ub i 0) /\
  from 1 0 = from 0 0 /\ to 1 0 = to 0 0 /\
  (let r := project_on_kernel lb ub false false free D from to in r 1 0 <> r 0 0).
Proof.
exists free1, (svd0 R 1 1), (pair_ (- 10%:R) (- 10%:R)), (pair_ 10%:R 10%:R), (pair_ 0 0), (pair_ 1 1).
have Hi : injective free1 by move=> i j _; rewrite !ord1.
split=> //; split=> //; split.
  move=> i; rewrite !mxE !if_same oppr_lt0 !ltr0n ltr1n /=.
  by rewrite andbT (lt_trans _ ltr01) // oppr_lt0 ltr0n.
split; first by rewrite !mxE. split; first by rewrite !mxE.
have Hl : on_linear (0 : 'M[R]_1) free1 (pair_ 0 0) (pair_ 1 0).
  split; last by rewrite mul0mx.
  by move=> j Hj; rewrite !mxE; case: eqP => // E; case: (Hj 0); rewrite E.
have E : unsat (svd0 R 1 1) free1 (pair_ 0 0) (pair_ 1 1) = pair_ 1 0.
  rewrite -[RHS](unsat_fix (svd0 R 1 1) Hl) /unsat /project_vector; congr (_ + expand _ (project_kernel _ _)).
  by apply/matrixP => i j; rewrite !mxE.
cbv zeta; rewrite /project_on_kernel /= -/(unsat (svd0 R 1 1) free1 (pair_ 0 0) (pair_ 1 1)) E.
rewrite saturate_id; first by rewrite !mxE /= => /eqP; rewrite eq_sym oner_eq0.
move=> i; rewrite !mxE !if_same; case: ifP => _; rewrite ?oppr_le0 ?ler0n //=.
by rewrite ler1n andbT (le_trans _ ler01) // oppr_le0 ler0n.
Qed.
(** from 0 towards (5, 0) *)
Lemma kernel_case : project_on_kernel (pair_ (- 10%:R) (- 10%:R)) (pair_ 10%:R 10%:R) false false id svd34 (pair_ 0 0) (pair_ 5%:R 0)
  = pair_ (16%:R / 5%:R) (- (12%:R / 5%:R)).
Proof.
rewrite /project_on_kernel /= /project_vector.
have -> : restrict id (pair_ 5%:R 0 - pair_ 0 0) = pair_ 5%:R 0 :> 'cV[R]_2.
  by apply/matrixP => i j; rewrite (ord1 j) !mxE; case: (i == 0); rewrite subr0.
have E : project_kernel svd34 (pair_ 5%:R 0) = pair_ (16%:R / 5%:R) (- (12%:R / 5%:R)).
  rewrite project_V2 /= (_ : col43^T *m pair_ 5%:R 0 = (- 4%:R)%:M).
    rewrite mul_mx_scalar; apply/matrixP => i j; rewrite (ord1 j) !mxE; case: (i == 0).
      by rewrite mulrNN mulrA -natrM.
    by rewrite mulNr mulrA -natrM.
  apply/matrixP => i j; rewrite !ord1 !mxE !big_ord_recl big_ord0 !mxE /= mulr0 !addr0 mulr1n.
  by rewrite mulNr -mulrA mulVf ?mulr1 // five.
rewrite E.
have -> : expand id (pair_ (16%:R / 5%:R) (- (12%:R / 5%:R))) = pair_ (16%:R / 5%:R) (- (12%:R / 5%:R)) :> 'cV[R]_2.
  apply/matrixP => i j; rewrite (ord1 j) [LHS]mxE; case: pickP => [k /eqP -> //|/(_ i)]; by rewrite eqxx.
have -> : pair_ 0 0 + pair_ (16%:R / 5%:R) (- (12%:R / 5%:R)) = pair_ (16%:R / 5%:R) (- (12%:R / 5%:R)).
  by apply/matrixP => i j; rewrite (ord1 j) !mxE; case: (i == 0); rewrite add0r.
have P5 : 0 < 5%:R :> R by rewrite ltr0n.
apply: saturate_id => i; rewrite !mxE !if_same; case: (i == 0).
  rewrite ler_pdivr_mulr // -natrM ler_nat andbT.
  by apply: (@le_trans _ _ 0); rewrite ?oppr_le0 ?ler0n // divr_ge0 ?ler0n.
rewrite ler_opp2 ler_pdivr_mulr // -natrM ler_nat /=.
by apply: (@le_trans _ _ 0); rewrite ?oppr_le0 ?ler0n // divr_ge0 ?ler0n.
Qed.
End Ex.
