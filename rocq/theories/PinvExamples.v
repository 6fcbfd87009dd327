(** Decompositions of multiples of the row (3/5, -4/5), and what happens along the path s -> s (3/5, -4/5). *)
From mathcomp Require Import all_ssreflect all_algebra.
From Verif Require Import DescentModel DescentSpec DescentProofs DescentExamples PinvModel PinvSpec PinvProofs PinvMain PinvStat.
Set Implicit Arguments. Unset Strict Implicit. Unset Printing Implicit Defensive.
Import Order.TTheory GRing.Theory Num.Theory.
Open Scope ring_scope.

Section Ex.
Variable R : realFieldType.
Local Notation five := (5%:R : R).
Definition a1 : R := 3%:R / five.
Definition a2 : R := 4%:R / five.
Definition N : 'rV[R]_2 := \row_j (if j == 0 then a1 else - a2).
Definition K : 'cV[R]_2 := \col_j (if j == 0 then a2 else a1).
Lemma five0 : five != 0. Proof. by rewrite pnatr_eq0. Qed.
Lemma unit_sum : a1 * a1 + a2 * a2 = 1.
Proof.
rewrite /a1 /a2 !mulf_div -mulrDl -!natrM -natrD.
by rewrite divff // pnatr_eq0.
Qed.
Lemma NN : N *m N^T = 1%:M.
Proof. by apply/matrixP => i j; rewrite !ord1 !mxE !big_ord_recl big_ord0 !mxE /= mulrNN addr0 unit_sum. Qed.
Lemma KK : K^T *m K = 1%:M.
Proof. by apply/matrixP => i j; rewrite !ord1 !mxE !big_ord_recl big_ord0 !mxE /= addr0 addrC unit_sum. Qed.
Lemma NK : N *m K = 0.
Proof. by apply/matrixP => i j; rewrite !ord1 !mxE !big_ord_recl big_ord0 !mxE /= addr0 mulNr [a2 * _]mulrC subrr. Qed.
Lemma NK_full : N^T *m N + K *m K^T = 1%:M.
Proof.
apply/matrixP => i j; rewrite !mxE !big_ord_recl !big_ord0 !mxE.
case: i => [[|[|//]] ?]; case: j => [[|[|//]] ?]; rewrite /= ?addr0 ?mulrNN ?unit_sum //.
- by rewrite mulrN [a1 * _]mulrC addNr.
- by rewrite mulNr [a1 * _]mulrC addNr.
- by rewrite addrC unit_sum.
Qed.
Definition thin_row (c : R) (Hc : 0 < c) (e : R) (He : e * e = 1) : svd ((e * c) *: N).
Proof.
refine (@mksvd R 1 2 _ 1%N 1%N (e%:M) (const_mx c) N^T K _ _ _ _ _ _ _ _).
- by rewrite trmxK diag_const_mx mul_scalar_mx scale_scalar_mx mul_scalar_mx.
- by move=> i; rewrite mxE.
- by rewrite tr_scalar_mx -scalar_mxM He.
- by rewrite trmxK NN.
- exact: KK.
- by rewrite trmxK NK.
- by rewrite trmxK NK_full.
- by [].
Defined.
Definition full_row (c : R) (Hc : 0 < c) (e : R) (He : e * e = 1) : svdf ((e * c) *: N).
Proof.
refine (@mksvdf R 1 2 _ (thin_row Hc He) 0%N 0 _ _ _).
- by apply/matrixP; case.
- by apply/matrixP => ? []; case.
- by rewrite /= mul0mx addr0 tr_scalar_mx -scalar_mxM He.
Defined.
Definition full0 m k : svdf (0 : 'M[R]_(m, k)).
Proof.
refine (@mksvdf R m k _ (svd0 R m k) m 1%:M _ _ _).
- by rewrite trmx1 mul1mx.
- by rewrite /= trmx0 mul0mx.
- by rewrite /= mul0mx add0r trmx1 mul1mx.
Defined.
Definition svdf_eq m k (M M' : 'M[R]_(m, k)) (E : M' = M) (D : svdf M) : svdf M' := eq_rect M (fun X => svdf X) D M' (esym E).
Definition ray (s : R) : 'rV[R]_2 := s *: N.
Lemma pos_eq s : ray s = (1 * s) *: N. Proof. by rewrite mul1r. Qed.
Lemma neg_eq s : ray s = (-1 * - s) *: N. Proof. by rewrite mulN1r opprK. Qed.
Lemma zero_eq s : s = 0 -> ray s = 0. Proof. by move=> ->; exact: scale0r. Qed.
Definition ray_svd s : svdf (ray s).
Proof.
case: (boolP (0 < s)) => H1; first exact: (svdf_eq (pos_eq s) (full_row H1 (mulr1 1))).
case: (boolP (s < 0)) => H2.
  have H : 0 < - s by rewrite oppr_gt0.
  have e : (-1 : R) * -1 = 1 by rewrite mulrNN mulr1.
  exact: (svdf_eq (neg_eq s) (full_row H e)).
have H : s = 0 by apply/eqP; rewrite eq_le leNgt H1 leNgt H2.
exact: (svdf_eq (zero_eq H) (full0 1 2)).
Defined.
Definition dN (_ : 'I_1) : 'rV[R]_2 := N.
Lemma along_N : along dN (1%:M : 'cV[R]_1) = N.
Proof. by rewrite /along big_ord_recl big_ord0 addr0 mxE eqxx mulr1n scale1r. Qed.
Lemma ray_der t : has_derivative ray t (along dN 1%:M).
Proof.
rewrite along_N => e e0; apply: near_all => h _; rewrite /ray scalerDl [t *: N + _]addrC addrK subrr mnorm0.
by rewrite mulr_ge0 ?normr_ge0 // ltW.
Qed.
Lemma N_rank : \rank N = 1%N.
Proof.
apply/eqP; rewrite eqn_leq rank_leq_row /=; have := mxrankM_maxl N N^T; by rewrite NN mxrank1.
Qed.
Lemma ray_rank s : \rank (ray s) = (s != 0 : nat).
Proof.
rewrite /ray; case: eqP => [->|/eqP H]; first by rewrite scale0r mxrank0.
by rewrite mxrank_scale_nz // N_rank.
Qed.
Lemma rank_const t : t != 0 -> near0 (fun h => \rank (ray (t + h)) = \rank (ray t)).
Proof.
move=> t0; exists `|t|; rewrite ?normr_gt0 // => h _ H; rewrite !ray_rank t0.
suff -> : t + h != 0 by [].
by apply/eqP => E; move: H; rewrite (_ : h = - t) ?normrN ?ltxx // -[h](addKr t) E addr0.
Qed.
Lemma rank_jump : ~ near0 (fun h => \rank (ray (0 + h)) = \rank (ray 0)).
Proof.
move=> [e e0] /(_ (e / 2%:R)); rewrite add0r !ray_rank eqxx.
have p := half_gt0 e0; rewrite (gt_eqF p) => /(_ isT) H.
by suff /H : `|e / 2%:R| < e by []; rewrite gtr0_norm // gtr_pmulr // invf_lt1 ?ltr0n // ltr1n.
Qed.

(** Phi = (3, -4), gravity = -25: u = (3, -4) *)
Definition grav : 'cV[R]_1 := (- 25%:R)%:M.
Lemma pinv_row : pseudoInverse (ray_svd five) = five^-1 *: N^T.
Proof.
have P : penrose (ray five) (five^-1 *: N^T).
  have E1 : ray five *m (five^-1 *: N^T) = 1%:M by rewrite /ray -scalemxAl -scalemxAr scalerA divff ?five0 // scale1r NN.
  split.
  - by rewrite E1 mul1mx.
  - by rewrite -mulmxA E1 mulmx1.
  - by rewrite E1 trmx1.
  - by rewrite /ray -scalemxAl -scalemxAr !scalerA [(_ *: _)^T]linearZ /= trmx_mul trmxK.
exact: penrose_unique (pinv_penrose (ray_svd five)) P.
Qed.
Lemma u_row : stat_u (ray_svd five) grav = five *: N^T.
Proof.
have e : - grav = (25%:R)%:M by rewrite /grav -raddfN /= opprK.
rewrite /stat_u solve_pinv pinv_row e mul_mx_scalar scalerA; congr (_ *: _).
by rewrite -[25%N]/(5 * 5)%N natrM mulfK ?five0.
Qed.
Lemma a1_gt0 : 0 < a1. Proof. by rewrite divr_gt0 ?ltr0n. Qed.
Lemma a2_gt0 : 0 < a2. Proof. by rewrite divr_gt0 ?ltr0n. Qed.
Lemma u0 : stat_u (ray_svd five) grav 0 0 = 3%:R.
Proof. by rewrite u_row !mxE /= /a1 mulrC divfK ?five0. Qed.
Lemma u1 : stat_u (ray_svd five) grav 1 0 = - 4%:R.
Proof. by rewrite u_row !mxE /= /a2 mulrN mulrC divfK ?five0. Qed.
Lemma u_nz i : stat_u (ray_svd five) grav i 0 != 0.
Proof.
case: i => [[|[|//]] H].
  by rewrite (_ : Ordinal H = 0) ?u0 ?pnatr_eq0 //; apply/val_inj.
by rewrite (_ : Ordinal H = 1) ?u1 ?oppr_eq0 ?pnatr_eq0 //; apply/val_inj.
Qed.
Lemma um_row : uminus (stat_u (ray_svd five) grav) = 4%:R *: delta_mx 1 0.
Proof.
apply/matrixP => i j; rewrite (ord1 j) mxE [RHS]mxE [delta_mx _ _ _ _]mxE.
case: i => [[|[|//]] H].
  rewrite (_ : Ordinal H = 0) ?u0; last exact/val_inj. by rewrite ler0n /= mulr0.
rewrite (_ : Ordinal H = 1) ?u1; last exact/val_inj. by rewrite oppr_ge0 real_leNgt ?num_real // ltr0n /= opprK mulr1.
Qed.
Lemma force1 eps : 0 <= eps -> eps < 4%:R -> (stat_value (ray_svd five) grav eps).1 1 0 = - (4%:R * (a2 * a2)).
Proof.
move=> e0 e4; rewrite /= um_row.
have -> : is_zero eps (4%:R *: delta_mx 1 0 : 'cV[R]_2) = false.
  apply/negbTE; rewrite negb_forall; apply/existsP; exists 1; rewrite !mxE /= mulr1 -ltNge normr_nat //.
rewrite mxE u1 v_E pinv_row /ray -!scalemxAl -!scalemxAr !scalerA mulmxA.
have -> : N^T *m N *m delta_mx 1 0 = (- a2) *: N^T.
  apply/matrixP => i j; rewrite (ord1 j) !mxE !big_ord_recl big_ord0 !mxE !big_ord_recl !big_ord0 !mxE /=.
  by rewrite !mulr0 !mulr1 !addr0 add0r mulrC.
have -> : five^-1 * (five * 4%:R) = 4%:R :> R by rewrite mulKf ?five0.
by rewrite !mxE /= mulr1 mulrNN addrA addNr add0r.
Qed.
(** (25/3, 0) balances gravity and is nonnegative; the first block of the value is not *)
Lemma negative_force : exists (m k : nat) (M : 'M[R]_(m, k)) (D : svdf M) (g : 'cV[R]_m) f, M *m f = - g /\ (forall i, 0 <= f i 0) /\
  forall eps, 0 <= eps -> eps < 4%:R -> exists i, (stat_value D g eps).1 i 0 < 0.
Proof.
exists 1%N, 2%N, (ray five), (ray_svd five), grav, ((25%:R / 3%:R) *: delta_mx 0 0); split; last split.
- rewrite /grav -raddfN /= opprK /ray -scalemxAl -scalemxAr scalerA; apply/matrixP => i j.
  rewrite !ord1 !mxE !big_ord_recl big_ord0 !mxE /= mulr1 mulr0 !addr0 mulr1n.
  by rewrite mulrAC /a1 [five * _]mulrCA divff ?five0 // mulr1 mulrC divfK ?pnatr_eq0.
- by move=> i; rewrite !mxE mulr_ge0 ?divr_ge0 ?ler0n.
- move=> eps e0 e4; exists 1; rewrite force1 // oppr_lt0 mulr_gt0 ?ltr0n // mulr_gt0 ?a2_gt0 //.
Qed.
Lemma not_differentiable : exists (A : R -> 'rV[R]_2) (D : forall s, svdf (A s)) L, has_derivative A 0 L /\
  ~ exists G, has_derivative (fun s => pseudoInverse (D s)) 0 G.
Proof.
exists ray, ray_svd, (along dN 1%:M); split; first exact: ray_der.
by move/(differentiable_iff ray_svd (ray_der 0)); exact: rank_jump.
Qed.
Lemma example_static : 
  [/\ has_derivative ray five (along dN 1%:M), near0 (fun h => \rank (ray (five + h)) = \rank (ray five)),
      (forall i, stat_u (ray_svd five) grav i 0 != 0) & exists i, stat_u (ray_svd five) grav i 0 < - 1].
Proof.
split.
- exact: ray_der.
- exact: rank_const five0.
- exact: u_nz.
- by exists 1; rewrite u1 ltr_opp2 ltr1n.
Qed.
End Ex.
