(** Matrices close to a matrix with a right inverse. *)
From mathcomp Require Import all_ssreflect all_algebra.
From Verif Require Import DescentSpec.
Set Implicit Arguments. Unset Strict Implicit. Unset Printing Implicit Defensive.
Import Order.TTheory GRing.Theory Num.Theory.
Open Scope ring_scope.

Section Mat.
Variable F : realFieldType.
Definition bnd k l (A : 'M[F]_(k, l)) (e : F) : Prop := forall i j, `|A i j| <= e.
Lemma bnd_mul k l m (A : 'M[F]_(k, l)) (B : 'M[F]_(l, m)) a b : bnd A a -> bnd B b -> bnd (A *m B) (l%:R * (a * b)).
Proof.
move=> Ha Hb i j; rewrite mxE. apply: le_trans (ler_norm_sum _ _ _) _.
have -> : l%:R * (a * b) = \sum_(k < l) (a * b) by rewrite mulr_natl sumr_const card_ord.
by apply: ler_sum => k0 _; rewrite normrM; apply: ler_pmul; rewrite ?normr_ge0 ?Ha ?Hb.
Qed.
Lemma bnd_col k1 k2 l (A : 'M[F]_(k1, l)) (B : 'M[F]_(k2, l)) e : bnd (col_mx A B) e <-> bnd A e /\ bnd B e.
Proof.
split=> [H|[HA HB] i j].
  by split=> i j; [have := H (lshift k2 i) j; rewrite col_mxEu|have := H (rshift k1 i) j; rewrite col_mxEd].
rewrite -[i]splitK; case: (split i) => x /=; rewrite ?col_mxEu ?col_mxEd; [exact: HA|exact: HB].
Qed.
Lemma bnd_ex k l (A : 'M[F]_(k, l)) : exists e, 0 <= e /\ bnd A e.
Proof.
exists (\sum_i \sum_j `|A i j|); split; first by apply: sumr_ge0 => i _; apply: sumr_ge0.
move=> i j; rewrite (bigD1 i) //= (bigD1 j) //= -addrA ler_addl addr_ge0 //.
  by apply: sumr_ge0.
by apply: sumr_ge0 => i' _; apply: sumr_ge0.
Qed.
Lemma bnd_le k l (A : 'M[F]_(k, l)) a b : a <= b -> bnd A a -> bnd A b.
Proof. by move=> H K i j; apply: le_trans (K i j) H. Qed.

Definition n1 k (v : 'cV[F]_k) : F := \sum_i `|v i 0|.
Lemma n1_ge0 k (v : 'cV[F]_k) : 0 <= n1 v. Proof. exact: sumr_ge0. Qed.
Lemma n1_0 k (v : 'cV[F]_k) : n1 v = 0 -> v = 0.
Proof.
move=> H; apply/matrixP => i j; rewrite !ord1 mxE. apply/eqP; rewrite -normr_eq0.
have := H => /eqP; rewrite /n1 psumr_eq0 // => /allP /(_ i (mem_index_enum _)) //.
Qed.
Lemma n1_bnd k (v : 'cV[F]_k) : bnd v (n1 v).
Proof. move=> i j; rewrite !ord1 /n1 (bigD1 i) //= ler_addl; exact: sumr_ge0. Qed.
Lemma bnd_n1 k (v : 'cV[F]_k) b : bnd v b -> n1 v <= k%:R * b.
Proof.
move=> H. have -> : k%:R * b = \sum_(i < k) b by rewrite mulr_natl sumr_const card_ord.
by apply: ler_sum => i _; exact: H.
Qed.
Lemma n1_mul k (E : 'M[F]_k) e (v : 'cV[F]_k) : bnd E e -> n1 (E *m v) <= k%:R * e * n1 v.
Proof.
move=> H. apply: le_trans (bnd_n1 (b := e * n1 v) _) _; last by rewrite mulrA.
move=> i j; rewrite !ord1 mxE. apply: le_trans (ler_norm_sum _ _ _) _. rewrite /n1 mulr_sumr.
by apply: ler_sum => i' _; rewrite normrM; apply: ler_wpmul2r.
Qed.
(** 1 + E with E small *)
Lemma near_one k (E : 'M[F]_k) e (b : 'cV[F]_k) : bnd E e -> k%:R * e * 2%:R <= 1 ->
  exists w, (1%:M + E) *m w = b /\ n1 w <= 2%:R * n1 b.
Proof.
move=> HE He.
have bound (w : 'cV[F]_k) : n1 w <= 2%:R * n1 ((1%:M + E) *m w).
  have T : n1 w <= n1 ((1%:M + E) *m w) + n1 (E *m w).
    rewrite /n1 -big_split /=; apply: ler_sum => i _. rewrite mulmxDl mul1mx [((w + _) i 0)]mxE.
    have -> : `|w i 0| = `|w i 0 + (E *m w) i 0 - (E *m w) i 0| by rewrite addrK.
    exact: ler_norm_sub.
  have := n1_mul w HE => H1. rewrite -subr_ge0.
  have P : k%:R * e * n1 w * 2%:R <= n1 w by rewrite mulrAC -[X in _ <= X]mul1r; apply: ler_wpmul2r => //; exact: n1_ge0.
  have : n1 w * 2%:R <= n1 ((1%:M + E) *m w) * 2%:R + n1 w.
    apply: (@le_trans _ _ ((n1 ((1%:M + E) *m w) + n1 (E *m w)) * 2%:R)); first by rewrite ler_pmul2r ?ltr0n.
    rewrite mulrDl ler_add2l; apply: le_trans P. by rewrite ler_pmul2r ?ltr0n.
  by rewrite mulr_natr mulr2n ler_add2r mulrC subr_ge0.
have U : (1%:M + E) \in unitmx.
  rewrite -unitmx_tr -row_free_unit -kermx_eq0. apply/eqP/row_matrixP => i; rewrite row0.
  have K : row i (kermx (1%:M + E)^T) *m (1%:M + E)^T = 0 by rewrite -row_mul mulmx_ker row0.
  apply/trmx_inj; rewrite trmx0. apply: n1_0. apply/le_anti; rewrite n1_ge0 andbT. apply: le_trans (bound _) _.
  have -> : (1%:M + E) *m (row i (kermx (1%:M + E)^T))^T = 0 by rewrite -[LHS]trmxK trmx_mul trmxK K trmx0.
  by rewrite /n1 big1 ?mulr0 // => j _; rewrite mxE normr0.
exists (invmx (1%:M + E) *m b); split; first by rewrite mulKVmx.
by apply: le_trans (bound _) _; rewrite mulKVmx.
Qed.
Lemma near_inverse m n (A A' : 'M[F]_(m, n)) (X : 'M[F]_(n, m)) e x (b : 'cV[F]_m) beta : A *m X = 1%:M -> bnd (A' - A) e -> bnd X x ->
  m%:R * (n%:R * (e * x)) * 2%:R <= 1 -> bnd b beta ->
  exists y, A' *m y = b /\ bnd y (m%:R * (x * (2%:R * (m%:R * beta)))).
Proof.
move=> HX He Hx Hs Hb. have [w [Hw Nw]] := near_one b (bnd_mul He Hx) Hs.
exists (X *m w); split; first by rewrite mulmxA -Hw -HX mulmxBl addrC subrK.
apply: (bnd_mul Hx). apply: bnd_le (n1_bnd w). apply: le_trans Nw _. by rewrite ler_pmul2l ?ltr0n //; exact: bnd_n1.
Qed.
Lemma right_inverse m n (A : 'M[F]_(m, n)) : (forall y : 'rV[F]_m, y *m A = 0 -> y = 0) -> exists X, A *m X = 1%:M.
Proof.
move=> H; exists (pinvmx A); apply: mulmxVp. rewrite -kermx_eq0. apply/eqP/row_matrixP => i; rewrite row0.
by apply: H; rewrite -row_mul mulmx_ker row0.
Qed.
End Mat.
