(** Concrete runs of DescentModel. *)
From mathcomp Require Import all_ssreflect all_algebra.
From Verif Require Import DescentModel DescentSpec DescentProofs DescentMain.
Set Implicit Arguments. Unset Strict Implicit. Unset Printing Implicit Defensive.
Import Order.TTheory GRing.Theory Num.Theory.
Open Scope ring_scope.

Section Ex.
Variable R : realFieldType.

Lemma total n lbl thr (ls : seq (level R n * nat)) :
  (forall m k (M : 'M[R]_(m, k)), inhabited (svd M)) -> forall stale, exists r mrs ok, direction lbl thr ls stale r mrs ok.
Proof.
move=> Hs stale; rewrite /direction; move: true stale (null_proj R n).
elim: ls => [|[l mr] ls IH] first dq p; first by exists dq, [::], true; apply: run_end.
have [E|E] := eqVneq (rows l) 0%N.
  by have [r [mrs [ok H]]] := IH false dq p; exists r, (mr :: mrs), ok; apply: run_skip.
have [D] := Hs _ _ (jac l *m pmat p).
set e := - err l - (if first then 0 else jac l *m dq).
have E' : rows l <> 0%N by apply/eqP.
have [Hstop|Hgo] := boolP ((lbl && (thr < sqn e)) || nilp ls || (rk2 D == 0)%N).
  by do 3 eexists; exact: (@run_stop R n lbl thr l mr ls first dq p D E' Hstop).
have [r [mrs [ok H]]] := IH false ((if first then 0 else dq) + pmat p *m solve D e) (mkproj (pmat p *m V2 D)).
by exists r; do 2 eexists; exact: (@run_next R n lbl thr l mr ls first dq p D r mrs ok E' Hgo H).
Qed.

(** decompositions *)
Definition svd_eq m k (M M' : 'M[R]_(m, k)) (E : M = M') (D : svd M') : svd M :=
  mksvd (etrans E (svdE D)) (@S_pos _ _ _ _ D) (UU D) (V11 D) (V22 D) (V12 D) (V_full D) (rk_sum D).
Lemma tr0 a b : (0 : 'M[R]_(a, b))^T = 0. Proof. by rewrite trmx0. Qed.
Definition svd0 m k : svd (0 : 'M[R]_(m, k)).
Proof.
refine (@mksvd R m k 0 0%N k 0 0 0 1%:M _ _ _ _ _ _ _ _).
- by rewrite !mul0mx.
- by case.
- by apply/matrixP; case.
- by apply/matrixP; case.
- by rewrite trmx1 mul1mx.
- by rewrite trmx0 mul0mx.
- by rewrite mul0mx add0r trmx1 mul1mx.
- by [].
Defined.
Definition svd_isom m k (M : 'M[R]_(m, k)) (H : M^T *m M = 1%:M) : svd M.
Proof.
refine (@mksvd R m k M k 0%N M (const_mx 1) 1%:M 0 _ _ _ _ _ _ _ _).
- by rewrite trmx1 mulmx1 diag_const_mx mulmx1.
- by move=> i; rewrite mxE ltr01.
- exact: H.
- by rewrite trmx1 mul1mx.
- by apply/matrixP; case.
- by rewrite trmx1 mul1mx.
- by rewrite trmx1 mul1mx mul0mx addr0.
- by rewrite addn0.
Defined.
(** [a 0] *)
Definition e1 : 'rV[R]_2 := delta_mx 0 0.
Definition c2 : 'cV[R]_2 := delta_mx 1 0.
Lemma delta_1 : delta_mx 0 0 = 1%:M :> 'M[R]_1.
Proof. by apply/matrixP => i j; rewrite !mxE !ord1. Qed.
Definition svd_row (a : R) (Ha : 0 < a) : svd (a *: e1).
Proof.
refine (@mksvd R 1 2 (a *: e1) 1%N 1%N 1%:M (const_mx a) e1^T c2 _ _ _ _ _ _ _ _).
- by rewrite mul1mx trmxK diag_const_mx mul_scalar_mx.
- by move=> i; rewrite mxE.
- by rewrite trmx1 mul1mx.
- by rewrite trmxK trmx_delta mul_delta_mx delta_1.
- by rewrite trmx_delta mul_delta_mx delta_1.
- by rewrite trmxK mul_delta_mx_0.
- rewrite trmxK !trmx_delta !mul_delta_mx; apply/matrixP => i j; rewrite !mxE.
  by case: i => [[|[|//]] ?]; case: j => [[|[|//]] ?]; rewrite /= ?addr0 ?add0r.
- by [].
Defined.

(** First level without row, then x1 = 0: the direction is what the previous call left. *)
Definition empty_level n : level R n := mklevel (0 : 'M_(0, n)) 0.
Definition row_level (a b : R) : level R 2 := mklevel (a *: e1) (b%:M).
Lemma stale_run : direction false 0 [:: (empty_level 2, 0%N); (row_level 1 0, 0%N)] (5%:R *: c2) (5%:R *: c2) [:: 0%N; 1%N] true.
Proof.
apply: run_skip => //.
have Hm : jac (row_level 1 0) *m pmat (null_proj R 2) = 1 *: e1 by rewrite mulmx1.
pose D := svd_eq Hm (svd_row ltr01).
have Hr : rows (row_level 1 0) <> 0%N by [].
have := @run_stop R 2 false 0 (row_level 1 0) 0 [::] false (5%:R *: c2) (null_proj R 2) D Hr isT.
rewrite /=.
have -> : - (0 : R)%:M - 1 *: e1 *m (5%:R *: c2) = 0 :> 'cV_1.
  by rewrite scale1r -scalemxAr mul_delta_mx_0 // scaler0 subr0 -scalemx1 scale0r oppr0.
by rewrite /solve !mulmx0 addr0.
Qed.
Lemma stale_not_least : ~ least_norm (lex [:: mkproblem (jac (empty_level 2)) (err (empty_level 2));
    mkproblem (jac (row_level 1 0)) (err (row_level 1 0))]) (5%:R *: c2 : 'cV[R]_2).
Proof.
case=> _ /(_ 0) H; suff /H : lex [:: mkproblem (jac (empty_level 2)) (err (empty_level 2));
    mkproblem (jac (row_level 1 0)) (err (row_level 1 0))] (0 : 'cV[R]_2).
  rewrite /norm2 !big_ord_recl !big_ord0 !mxE /= mulr0 mulr1 expr0n /= !addr0 add0r.
  by apply/negP; rewrite -ltNge exprn_gt0 // ltr0n.
split.
- by split=> // y _; rewrite /cost /norm2 !big_ord0.
- move=> y _; rewrite /cost mulmx0 add0r -!sqn_norm2 /= (_ : (0 : R)%:M = 0); last by rewrite -scalemx1 scale0r.
  by rewrite sqn0 sqn_ge0.
Qed.
Lemma stale_refuted : exists (ls : seq (level R 2 * nat)) stale r mrs, direction false 0 ls stale r mrs true /\
  r <> 0 /\ r = stale /\ ~ least_norm (lex [seq mkproblem (jac x.1) (err x.1) | x <- ls]) r.
Proof.
exists [:: (empty_level 2, 0%N); (row_level 1 0, 0%N)], (5%:R *: c2), (5%:R *: c2), [:: 0%N; 1%N]; split; first exact: stale_run.
split; last by split=> //; exact: stale_not_least.
by move/matrixP/(_ 1 0); rewrite !mxE /= mulr1 => /eqP; rewrite pnatr_eq0.
Qed.
(** nothing to solve: the previous direction is applied again *)
Lemma stale_alone n lbl thr (stale : 'cV[R]_n) :
  direction lbl thr [:: (empty_level n, 0%N); (empty_level n, 0%N)] stale stale [:: 0%N; 0%N] true.
Proof. by do 2 (apply: run_skip => //); exact: run_end. Qed.

(** sigma_: the ranks of a previous configuration are used at the current one. *)
Definition id_level : level R 2 := mklevel 1%:M 0.
Lemma c2_isom : c2^T *m c2 = 1%:M. Proof. by rewrite trmx_delta mul_delta_mx delta_1. Qed.
Lemma sigma_1 : exists r, direction false 0 [:: (row_level 0 0, 0%N); (id_level, 0%N)] 0 r [:: 0%N; 2%N] true.
Proof.
have Hm : jac (row_level 0 0) *m pmat (null_proj R 2) = 0 by rewrite mulmx1 /= scale0r.
pose D := svd_eq Hm (svd0 1 2).
have Hr : rows (row_level 0 0) <> 0%N by [].
have Hi : (1%:M *m (1%:M *m 1%:M) : 'M[R]_2)^T *m (1%:M *m (1%:M *m 1%:M)) = 1%:M by rewrite !mulmx1 trmx1.
pose D2 := svd_isom Hi.
have H2 := @run_stop R 2 false 0 id_level 0 [::] false (0 + pmat (null_proj R 2) *m solve D (- 0%:M - 0))
  (mkproj (pmat (null_proj R 2) *m V2 D)) D2 (fun H => ltac:(discriminate H)) isT.
have H1 := @run_next R 2 false 0 (row_level 0 0) 0 [:: (id_level, 0%N)] true 0 (null_proj R 2) D _ _ _ Hr isT H2.
eexists; exact H1.
Qed.
Lemma sigma_2 : exists r, direction false 0 [:: (row_level 1 0, 0%N); (id_level, 2%N)] 0 r [:: 1%N; 2%N] false.
Proof.
have Hm : jac (row_level 1 0) *m pmat (null_proj R 2) = 1 *: e1 by rewrite mulmx1.
pose D := svd_eq Hm (svd_row ltr01).
have Hr : rows (row_level 1 0) <> 0%N by [].
have Hi : (1%:M *m (1%:M *m c2))^T *m (1%:M *m (1%:M *m c2)) = 1%:M by rewrite !mul1mx c2_isom.
pose D2 := svd_isom Hi.
have H2 := @run_stop R 2 false 0 id_level 2 [::] false (0 + pmat (null_proj R 2) *m solve D (- 0%:M - 0))
  (mkproj (pmat (null_proj R 2) *m V2 D)) D2 (fun H => ltac:(discriminate H)) isT.
have H1 := @run_next R 2 false 0 (row_level 1 0) 0 [:: (id_level, 2%N)] true 0 (null_proj R 2) D _ _ _ Hr isT H2.
eexists; exact H1.
Qed.
Lemma sigma_refuted : exists (l0 l0' l1 : level R 2) mr mr',
  (exists r, direction false 0 [:: (l0, 0%N); (l1, 0%N)] 0 r [:: mr; mr'] true) /\
  rows l0' = rows l0 /\ exists r mrs, direction false 0 [:: (l0', mr); (l1, mr')] 0 r mrs false.
Proof.
exists (row_level 0 0), (row_level 1 0), id_level, 0%N, 2%N; split; first exact: sigma_1.
by split=> //; have [r H] := sigma_2; exists r, [:: 1%N; 2%N].
Qed.
(** a run through two levels, the second one in conflict with the first: x1 = 2 then
    x = (1, -3) gives (2, -3) *)
Definition two_levels : seq (level R 2 * nat) :=
  [:: (row_level 1 (-2%:R), 0%N); (mklevel 1%:M (\col_i (if i == 0 then -1 else 3%:R)), 0%N)].
Lemma two_run : exists r, direction false 0 two_levels 0 r [:: 1%N; 1%N] true /\ r 0 0 = 2%:R /\ r 1 0 = -3%:R.
Proof.
have Hm : jac (row_level 1 (-2%:R)) *m pmat (null_proj R 2) = 1 *: e1 by rewrite mulmx1.
pose D := svd_eq Hm (svd_row ltr01).
have Hi : (1%:M *m (1%:M *m c2))^T *m (1%:M *m (1%:M *m c2)) = 1%:M by rewrite !mul1mx c2_isom.
pose D2 := svd_isom Hi.
pose x := 0 + pmat (null_proj R 2) *m solve D (- (-2%:R)%:M - 0).
pose l2 := mklevel 1%:M (\col_i (if i == 0 then -1 else 3%:R) : 'cV[R]_2).
have H2 := @run_stop R 2 false 0 l2 0 [::] false x
  (mkproj (pmat (null_proj R 2) *m V2 D)) D2 (fun H => ltac:(discriminate H)) isT.
have H1 := @run_next R 2 false 0 (row_level 1 (-2%:R)) 0 [:: (l2, 0%N)] true 0 (null_proj R 2) D _ _ _ (fun H => ltac:(discriminate H)) isT H2.
eexists; split; first exact: H1.
have Ex : x = 2%:R *: e1^T.
  rewrite /x /solve /= subr0 trmx1 mulmx1 add0r mul1mx -raddfN opprK mul_mx_scalar; congr (_ *: _).
  rewrite (_ : diag_mx _ = 1%:M) ?mulmx1 //.
  by apply/matrixP => i j; rewrite !mxE !ord1 invr1.
rewrite Ex /solve /= !mul1mx (_ : diag_mx _ = 1%:M); last by apply/matrixP => i j; rewrite !mxE !ord1 invr1.
rewrite mul1mx !mxE !big_ord_recl !big_ord0 !mxE !big_ord_recl !big_ord0 !mxE /=.
by rewrite ?(mul0r, mul1r, addr0, add0r, mulr0, subr0, mulr1, oppr0).
Qed.
(** projection: outputs are set to zero, and the result is not tangent to the constraints *)
(** one explicit output v3 = - v2, one implicit constraint of Jacobian (0 1 | 1): the
    reduced Jacobian is 0 *)
Definition free3 (i : 'I_2) : 'I_3 := widen_ord (leqnSn 2) i.
Definition J3 : 'rV[R]_3 := \row_j (if j == 0 then 0 else 1).
Definition Je3 : 'rV[R]_2 := \row_j (if j == 0 then 0 else -1).
Lemma reduced3 : \row_j J3 0 (free3 j) + J3 0 ord_max *: Je3 = 0 :> 'rV[R]_2.
Proof.
by apply/matrixP => i j; rewrite !mxE; case: j => [[|[|//]] ?] /=; rewrite ?mul1r ?mulr0 ?addr0 ?subrr.
Qed.
Lemma free3_inj : injective free3.
Proof. by move=> i j /(congr1 val) /= H; apply: val_inj. Qed.
Lemma manifold_refuted : exists (free : 'I_2 -> 'I_3) (J : 'rV[R]_3) (Je : 'rV[R]_2)
  (D : svd (\row_j J 0 (free j) + J 0 ord_max *: Je)) (darg : 'cV[R]_3),
  injective free /\ (forall i, free i <> ord_max) /\
  J *m darg = 0 /\ darg ord_max 0 = (Je *m restrict free darg) 0 0 /\
  let v := project_vector free false D darg in
  v ord_max 0 <> (Je *m restrict free v) 0 0 /\ J *m v <> 0.
Proof.
pose darg : 'cV[R]_3 := \col_i (if i == ord_max then -1 else 1).
exists free3, J3, Je3, (svd_eq reduced3 (svd0 1 2)), darg.
split; first exact: free3_inj.
split; first by move=> i /(congr1 val) /= H; have := ltn_ord i; rewrite H.
split.
  apply/matrixP => i j; rewrite !mxE !big_ord_recl big_ord0 !mxE /= mul0r !mul1r addr0 add0r; exact: subrr.
split; first by rewrite !mxE !big_ord_recl big_ord0 !mxE /= mul0r mulr1 addr0 add0r.
pose y : 'cV[R]_2 := const_mx 1.
have Ey : project_vector free3 false (svd_eq reduced3 (svd0 1 2)) darg = expand free3 y.
  rewrite /project_vector; congr expand; rewrite /project_kernel /= mul0mx subr0.
  by apply/matrixP => i j; rewrite !mxE; case: i => [[|[|//]] ?].
cbv zeta; rewrite Ey restrict_expand; last exact: free3_inj.
have H2 : expand free3 y ord_max 0 = 0.
  by apply: expand_out => i /(congr1 val) /= H; have := ltn_ord i; rewrite H.
split.
  rewrite H2 !mxE !big_ord_recl big_ord0 !mxE /= mul0r mulr1 addr0 add0r => /eqP; rewrite eq_sym oppr_eq0 oner_eq0 //.
move/matrixP/(_ 0 0); rewrite !mxE !big_ord_recl big_ord0 /=.
have E1 : lift ord0 ord0 = free3 (lift ord0 ord0) by apply: val_inj.
have E2 : lift ord0 (lift ord0 ord0) = ord_max :> 'I_3 by apply: val_inj.
have H1 : expand free3 y (free3 (lift ord0 ord0)) 0 = 1.
  by have := congr1 (fun M : 'cV[R]_2 => M (lift ord0 ord0) 0) (restrict_expand free3_inj y); rewrite !mxE.
rewrite E2 H2 E1 H1 !mxE /= mul0r mulr0 !addr0 add0r mulr1 => /eqP; by rewrite oner_eq0.
Qed.
Lemma bypass n m (J : 'M[R]_(m, n)) (D : svd J) N (free : 'I_n -> 'I_N) (darg : 'cV[R]_N) :
  project_vector free true D darg = darg.
Proof. by []. Qed.
(** a projection that is neither the identity nor zero *)
Lemma project_case : project_kernel (svd_row ltr01) (const_mx 1) = c2 :> 'cV[R]_2.
Proof.
rewrite /project_kernel /= trmxK; apply/matrixP => i j; rewrite !mxE big_ord_recl big_ord0 !mxE !big_ord_recl big_ord0 !mxE /=.
by case: i => [[|[|//]] ?]; rewrite (ord1 j) /= ?(mul0r, mul1r, addr0, add0r, mulr0, subr0, mulr1) ?subrr.
Qed.
End Ex.
