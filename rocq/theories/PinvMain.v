From mathcomp Require Import all_ssreflect all_algebra.
From Verif Require Import DescentModel DescentProofs PinvModel PinvSpec PinvProofs.
Set Implicit Arguments. Unset Strict Implicit. Unset Printing Implicit Defensive.
Import Order.TTheory GRing.Theory Num.Theory.
Open Scope ring_scope.

Section Main.
Variable R : realFieldType.

(** * the rank of the decomposition *)
Lemma rk_rank m k (M : 'M[R]_(m, k)) (D : svd M) : rk D = \rank M.
Proof.
apply/eqP; rewrite eqn_leq; apply/andP; split.
  have E : (U D)^T *m M *m (V1 D *m diag_mx (\row_i (S D 0 i)^-1)) = 1%:M.
    rewrite (congr1 (fun X => (U D)^T *m X *m _) (svdE D)) !mulmxA UU mul1mx.
    by rewrite -(mulmxA _ (V1 D)^T) V11 mulmx1 (diag_inv (@S_pos _ _ _ _ D)).
  rewrite -[X in (X <= _)%N](mxrank1 R) -E; apply: leq_trans (mxrankM_maxl _ _) (mxrankM_maxr _ _).
rewrite [X in \rank X](svdE D); apply: leq_trans (mxrankM_maxl _ _) _.
apply: leq_trans (mxrankM_maxr _ _) _; exact: rank_leq_row.
Qed.

(** * norms of orthonormal columns *)
Lemma orth_entry n r (V : 'M[R]_(n, r)) : V^T *m V = 1%:M -> forall i j, `|V i j| <= 1.
Proof.
move=> H i j; have := congr1 (fun X : 'M[R]_r => X j j) H; rewrite mxE [in RHS]mxE eqxx mulr1n (bigD1 i) //= => E.
have L : (V i j) ^+ 2 <= 1.
  rewrite -E [in X in _ <= X + _]mxE -expr2 ler_addl; apply: sumr_ge0 => l _; rewrite mxE -expr2; exact: sqr_ge0.
by rewrite -(@ler_pexpn2r _ 2) ?nnegrE ?normr_ge0 ?ler01 // expr1n -normrX ger0_norm ?sqr_ge0.
Qed.
Lemma orth_norm n r (V : 'M[R]_(n, r)) : V^T *m V = 1%:M -> mnorm V <= (n * r)%:R.
Proof.
move=> /orth_entry H; apply: (@le_trans _ _ (\sum_(i < n) \sum_(j < r) 1)).
  by apply: ler_sum => i _; apply: ler_sum => j _.
by rewrite !sumr_const !card_ord -mulrnA mulnC.
Qed.
Lemma proj_norm n (P : 'M[R]_n) : P^T = P -> P *m P = P -> mnorm P <= (n * n)%:R.
Proof.
move=> T I; have Q : forall i j, (P i j) ^+ 2 <= P j j.
  move=> i j; have := congr1 (fun X : 'M[R]_n => X j j) I; rewrite mxE (bigD1 i) //= => E.
  have S' : forall l, P j l = P l j by move=> l; rewrite -{1}T mxE.
  rewrite -E S' -expr2 ler_addl; apply: sumr_ge0 => l _; rewrite S' -expr2; exact: sqr_ge0.
have J : forall j, P j j <= 1.
  move=> j; rewrite real_leNgt ?num_real //; apply/negP => L.
  have := Q j j; rewrite real_leNgt ?num_real // expr2 => /negP; apply.
  by rewrite -[X in X < _]mulr1 ltr_pmul2l // (lt_trans ltr01 L).
apply: (@le_trans _ _ (\sum_(i < n) \sum_(j < n) 1)).
  apply: ler_sum => i _; apply: ler_sum => j _.
  have L := le_trans (Q i j) (J j).
  by rewrite -(@ler_pexpn2r _ 2) ?nnegrE ?normr_ge0 ?ler01 // expr1n -normrX ger0_norm ?sqr_ge0.
by rewrite !sumr_const !card_ord -mulrnA.
Qed.
Lemma mnorm_eq0 m n (A : 'M[R]_(m, n)) : mnorm A <= 0 -> A = 0.
Proof.
move=> H; apply/matrixP => i j; rewrite mxE; apply/eqP; rewrite -normr_le0.
exact: le_trans (mnorm_entry _ _ _) H.
Qed.
Lemma half_le (x c : R) : x <= c + x / 2%:R -> x <= 2%:R * c.
Proof.
rewrite -[X in X <= _ -> _](halfD x) ler_add2r => H.
by rewrite mulrC -ler_pdivr_mulr ?ltr0n.
Qed.
Lemma neumann r (E : 'M[R]_r) : mnorm E <= 2%:R^-1 ->
  exists2 X, (1%:M - E) *m X = 1%:M & mnorm X <= 2%:R * mnorm (1%:M : 'M[R]_r).
Proof.
move=> H.
have hE p (K : 'M[R]_(p, r)) : mnorm (K *m E) <= mnorm K / 2%:R.
  by apply: le_trans (mnormM _ _) _; rewrite ler_wpmul2l ?mnorm_ge0.
have hE' p (K : 'M[R]_(r, p)) : mnorm (E *m K) <= mnorm K / 2%:R.
  by apply: le_trans (mnormM _ _) _; rewrite mulrC; rewrite ler_wpmul2l ?mnorm_ge0.
have u : (1%:M - E) \in unitmx.
  rewrite -row_free_unit -kermx_eq0; apply/eqP; apply: mnorm_eq0.
  set K := kermx _; have /eqP := mulmx_ker (1%:M - E); rewrite -/K mulmxBr mulmx1 subr_eq0 => /eqP e.
  have := hE _ K; rewrite -e => q; rewrite -(mulr0 2%:R); apply: half_le; by rewrite add0r.
have I := mulmxV u; exists (invmx (1%:M - E)) => //; apply: half_le.
set X := invmx _ in I *; have e : X = 1%:M + E *m X by rewrite -I mulmxBl mul1mx subrK.
rewrite {1}e; apply: le_trans (mnormD _ _) _; rewrite ler_add2l; exact: hE'.
Qed.

Section Bound.
Variables (m n r : nat) (A : 'M[R]_(m, n)) (B : 'M[R]_(n, m)) (VA : 'M[R]_(n, r)).
Hypotheses (pA : penrose A B) (oA : VA^T *m VA = 1%:M) (eA : B *m A = VA *m VA^T).
Let a : R := (n * r)%:R.
Let b : R := mnorm B.
Let c0 : R := mnorm (1%:M : 'M[R]_n) + a * a.
Let c1 : R := a * c0 * b * a.
Let x0 : R := a * a * (2%:R * mnorm (1%:M : 'M[R]_r)).
Let c4 : R := a * (x0 * (a * b * (m * m)%:R)).
Let c5 : R := a * (x0 * (a * b)).
Let d0 : R := (2%:R * (c1 + c5 + 1))^-1.
Lemma a_ge0 : 0 <= a. Proof. exact: ler0n. Qed.
Lemma b_ge0 : 0 <= b. Proof. exact: mnorm_ge0. Qed.
Lemma c0_ge0 : 0 <= c0. Proof. by rewrite addr_ge0 ?mnorm_ge0 // mulr_ge0 ?a_ge0. Qed.
Lemma c1_ge0 : 0 <= c1. Proof. by rewrite !mulr_ge0 ?a_ge0 ?b_ge0 ?c0_ge0. Qed.
Lemma x0_ge0 : 0 <= x0. Proof. by rewrite !mulr_ge0 ?a_ge0 ?mnorm_ge0 ?ler0n. Qed.
Lemma c5_ge0 : 0 <= c5. Proof. exact: mulr_ge0 a_ge0 (mulr_ge0 x0_ge0 (mulr_ge0 a_ge0 b_ge0)). Qed.
Lemma d0_gt0 : 0 < d0.
Proof. by rewrite invr_gt0 mulr_gt0 ?ltr0n // ltr_paddl ?ltr01 // addr_ge0 ?c1_ge0 ?c5_ge0. Qed.
Lemma d0_c (c : R) : 0 <= c -> c <= c1 + c5 -> c * d0 <= 2%:R^-1.
Proof.
move=> c0' cl; rewrite /d0 invfM mulrCA -[X in _ <= X]mulr1; apply: ler_wpmul2l; first by rewrite invr_ge0 ler0n.
rewrite ler_pdivr_mulr ?mul1r; first by apply: le_trans cl _; rewrite ler_addl ler01.
by rewrite ltr_paddl ?ltr01 // addr_ge0 ?c1_ge0 ?c5_ge0.
Qed.
Lemma pinv_bound (C : 'M[R]_(m, n)) (E : 'M[R]_(n, m)) r' (VC : 'M[R]_(n, r')) : r' = r ->
  penrose C E -> VC^T *m VC = 1%:M -> E *m C = VC *m VC^T -> mnorm (C - A) <= d0 -> mnorm E <= 2%:R * c4.
Proof.
move=> er; move: VC; rewrite {}er {r'} => VC pC oC eC hd.
have [B1 B2 B3 B4] := pA; have [E1 E2 E3 E4] := pC.
have nVA : mnorm VA <= a by exact: orth_norm. have nVC : mnorm VC <= a by exact: orth_norm.
have nVAT : mnorm VA^T <= a by rewrite mnormT. have nVCT : mnorm VC^T <= a by rewrite mnormT.
have nQ : mnorm (1%:M - E *m C) <= c0.
  apply: le_trans (mnormD _ _) _; rewrite mnormN eC ler_add2l; apply: le_trans (mnormM _ _) _.
  by apply: ler_pmul => //; exact: mnorm_ge0.
pose W := VC^T *m VA.
pose F := - (VA^T *m ((1%:M - E *m C) *m (C - A)^T *m B^T *m VA)).
have QC : (1%:M - E *m C) *m C^T = 0 by rewrite mulmxBl mul1mx -E4 -trmx_mul mulmxA E1 subrr.
have FE : (1%:M - E *m C) *m (C - A)^T *m B^T *m VA = - ((1%:M - E *m C) *m VA).
  rewrite [(C - A)^T]linearB /= [_ *m (C^T - _)]mulmxBr QC sub0r !mulNmx -!mulmxA; congr (- (_ *m _)).
  by rewrite mulmxA -trmx_mul B4 eA -mulmxA oA mulmx1.
have WW : W^T *m W = 1%:M - F.
  rewrite /F FE mulmxN opprK /W trmx_mul trmxK -mulmxA (mulmxA VC) -eC mulmxBl mul1mx mulmxBr oA.
  by rewrite opprB addrC subrK.
have nF : mnorm F <= 2%:R^-1.
  apply: (@le_trans _ _ (c1 * mnorm (C - A))).
    rewrite /F mnormN; apply: le_trans (mnormM _ _) _.
    have -> : c1 * mnorm (C - A) = a * (c0 * mnorm (C - A) * b * a).
      by rewrite /c1 -!mulrA; congr (_ * (_ * _)); rewrite mulrA mulrC.
    apply: ler_pmul; rewrite ?mnorm_ge0 //.
    apply: le_trans (mnormM _ _) _; apply: ler_pmul; rewrite ?mnorm_ge0 //.
    apply: le_trans (mnormM _ _) _; apply: ler_pmul; rewrite ?mnorm_ge0 ?mnormT //.
    apply: le_trans (mnormM _ _) _; apply: ler_pmul; rewrite ?mnorm_ge0 ?mnormT //.
  apply: le_trans (ler_wpmul2l c1_ge0 hd) _; apply: d0_c; rewrite ?c1_ge0 //.
  by rewrite ler_addl c5_ge0.
have [I HI nI] := neumann nF.
pose X := W *m I.
have XW : X *m W^T = 1%:M by apply: mulmx1C; rewrite /X mulmxA WW.
have nX : mnorm X <= x0.
  apply: le_trans (mnormM _ _) _; apply: ler_pmul; rewrite ?mnorm_ge0 //.
  by apply: le_trans (mnormM _ _) _; apply: ler_pmul; rewrite ?mnorm_ge0.
pose Z := VC^T *m E.
have EZ : E = VC *m Z by rewrite /Z mulmxA -eC E2.
have WZ : W^T *m Z = VA^T *m B *m (C *m E) - VA^T *m B *m (C - A) *m E.
  rewrite -!mulmxA -mulmxBr -mulmxBr -mulmxBl opprB addrC subrK.
  rewrite (mulmxA B) eA !mulmxA oA mul1mx /Z /W trmx_mul trmxK -!mulmxA; congr (_ *m _).
  by rewrite mulmxA -eC E2.
have nWZ : mnorm (W^T *m Z) <= a * b * (m * m)%:R + a * b * d0 * mnorm E.
  rewrite WZ; apply: le_trans (mnormD _ _) _; rewrite mnormN; apply: ler_add.
    apply: le_trans (mnormM _ _) _; apply: ler_pmul; rewrite ?mnorm_ge0 //.
      by apply: le_trans (mnormM _ _) _; apply: ler_pmul; rewrite ?mnorm_ge0.
    by apply: proj_norm => //; rewrite mulmxA E1.
  apply: le_trans (mnormM _ _) _; apply: ler_wpmul2r; rewrite ?mnorm_ge0 //.
  apply: le_trans (mnormM _ _) _; apply: ler_pmul; rewrite ?mnorm_ge0 //.
  by apply: le_trans (mnormM _ _) _; apply: ler_pmul; rewrite ?mnorm_ge0.
apply: half_le; apply: (@le_trans _ _ (a * (x0 * mnorm (W^T *m Z)))).
  rewrite {1}EZ; apply: le_trans (mnormM _ _) _; apply: ler_pmul; rewrite ?mnorm_ge0 //.
  rewrite -{1}[Z]mul1mx -XW -mulmxA; apply: le_trans (mnormM _ _) _; apply: ler_wpmul2r; rewrite ?mnorm_ge0 //.
apply: le_trans (ler_wpmul2l a_ge0 (ler_wpmul2l x0_ge0 nWZ)) _.
rewrite !mulrDr ler_add2l.
have -> : a * (x0 * (a * b * d0 * mnorm E)) = mnorm E * (c5 * d0) by rewrite [RHS]mulrC /c5 -!mulrA.
by apply: ler_wpmul2l; rewrite ?mnorm_ge0 //; apply: d0_c; rewrite ?c5_ge0 // ler_addr c1_ge0.
Qed.
End Bound.

(** near a point where the rank is constant pseudo-inverses are bounded *)
Lemma rank_bounded m n (A : R -> 'M[R]_(m, n)) (D : forall s, svdf (A s)) t L : has_derivative A t L ->
  near0 (fun h => \rank (A (t + h)) = \rank (A t)) -> bounded_near (fun s => pseudoInverse (D s)) t.
Proof.
move=> dA rA; have := lin_null (der_lin dA) => /(_ _ (d0_gt0 (rk (D t)) (pseudoInverse (D t)))) H.
eexists; apply: near_imp2 rA H _ => h _ hr hd.
apply: (@pinv_bound m n (rk (D t)) (A t) (pseudoInverse (D t)) (V1 (D t)) (pinv_penrose _) (V11 _) (pinv_M _)
  (A (t + h)) (pseudoInverse (D (t + h))) (rk (D (t + h))) (V1 (D (t + h))) _ (pinv_penrose _) (V11 _) (pinv_M _) hd).
by rewrite !rk_rank.
Qed.
End Main.
