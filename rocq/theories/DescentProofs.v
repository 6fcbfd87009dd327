(** Proofs about DescentModel. *)
From mathcomp Require Import all_ssreflect all_algebra.
From Verif Require Import DescentModel DescentSpec.
Set Implicit Arguments. Unset Strict Implicit. Unset Printing Implicit Defensive.
Import Order.TTheory GRing.Theory Num.Theory.
Open Scope ring_scope.

Section Proofs.
Variable R : realFieldType.

Lemma sqn_norm2 k (x : 'cV[R]_k) : sqn x = norm2 x.
Proof. rewrite /sqn /norm2 mxE; apply: eq_bigr => i _; by rewrite mxE expr2. Qed.
Lemma sqn_ge0 k (x : 'cV[R]_k) : 0 <= sqn x.
Proof. rewrite sqn_norm2 /norm2; apply: sumr_ge0 => i _; exact: sqr_ge0. Qed.
Lemma sqn_eq0 k (x : 'cV[R]_k) : sqn x = 0 -> x = 0.
Proof.
rewrite sqn_norm2 /norm2 => H; apply/matrixP => i j; rewrite mxE (ord1 j).
have /eqP := (psumr_eq0P (fun i _ => sqr_ge0 (x i 0)) H) i isT.
by rewrite sqrf_eq0 => /eqP.
Qed.
Lemma sqn0 k : sqn (0 : 'cV[R]_k) = 0.
Proof. by rewrite /sqn mulmx0 mxE. Qed.
Lemma sqn_add k (x y : 'cV[R]_k) : x^T *m y = 0 -> sqn (x + y) = sqn x + sqn y.
Proof.
move=> H; have H' : y^T *m x = 0 by apply: trmx_inj; rewrite trmx_mul trmxK H trmx0.
by rewrite /sqn [(x + y)^T]linearD /= mulmxDl !mulmxDr H H' addr0 add0r mxE.
Qed.
Lemma sqn_opp k (x : 'cV[R]_k) : sqn (- x) = sqn x.
Proof. by rewrite /sqn [(- x)^T]linearN /= mulNmx mulmxN opprK. Qed.
Lemma sqn_isom k l (P : 'M[R]_(k, l)) x : P^T *m P = 1%:M -> sqn (P *m x) = sqn x.
Proof. by move=> H; rewrite /sqn trmx_mul -mulmxA (mulmxA P^T) H mul1mx. Qed.

Lemma diag_inv r (S : 'rV[R]_r) : (forall i, 0 < S 0 i) -> diag_mx S *m diag_mx (\row_i (S 0 i)^-1) = 1%:M.
Proof.
move=> H; rewrite mulmx_diag; apply/matrixP => i j; rewrite !mxE.
case: (i == j) => //; rewrite ?mulr1n ?mulr0n // divff //.
exact: lt0r_neq0.
Qed.
Lemma diag_inv' r (S : 'rV[R]_r) : (forall i, 0 < S 0 i) -> diag_mx (\row_i (S 0 i)^-1) *m diag_mx S = 1%:M.
Proof. by move=> H; rewrite diag_mxC diag_inv. Qed.

Section OneSvd.
Variables (m k : nat) (M : 'M[R]_(m, k)) (D : svd M).
Lemma M_solve b : M *m solve D b = U D *m ((U D)^T *m b).
Proof.
rewrite {1}(svdE D) /solve !mulmxA -(mulmxA _ (V1 D)^T) V11 mulmx1.
by rewrite -(mulmxA (U D)) (diag_inv (@S_pos _ _ _ _ D)) mulmx1.
Qed.
Lemma M_tr : M^T = V1 D *m (diag_mx (S D) *m (U D)^T).
Proof. by rewrite (congr1 trmx (svdE D)) !trmx_mul trmxK tr_diag_mx. Qed.
Lemma normal_eq b : M^T *m (M *m solve D b - b) = 0.
Proof.
rewrite mulmxBr M_solve M_tr.
rewrite -!mulmxA (mulmxA (U D)^T (U D)) UU mul1mx; exact: subrr.
Qed.
Lemma M_V2 : M *m V2 D = 0.
Proof. by rewrite (congr1 (mulmx^~ (V2 D)) (svdE D)) -mulmxA V12 mulmx0. Qed.
Lemma ker_V1 (y : 'cV[R]_k) : M *m y = 0 -> (V1 D)^T *m y = 0.
Proof.
move=> H; have : diag_mx (\row_i (S D 0 i)^-1) *m ((U D)^T *m (M *m y)) = 0 by rewrite H !mulmx0.
rewrite (congr1 (mulmx^~ y) (svdE D)) !mulmxA -(mulmxA _ (U D)^T) UU mulmx1.
by rewrite diag_inv' ?mul1mx //; exact: (@S_pos _ _ _ _ D).
Qed.
Lemma ker_V2 (y : 'cV[R]_k) : M *m y = 0 -> y = V2 D *m ((V2 D)^T *m y).
Proof.
by move=> H; rewrite -{1}[y]mul1mx -(V_full D) mulmxDl -(mulmxA (V1 D)) ker_V1 // mulmx0 add0r mulmxA.
Qed.
Lemma V21 : (V2 D)^T *m V1 D = 0.
Proof. by apply: trmx_inj; rewrite trmx_mul trmxK V12 trmx0. Qed.
Lemma V2_solve b : (V2 D)^T *m solve D b = 0.
Proof. by rewrite /solve !mulmxA V21 !mul0mx. Qed.
Lemma residual b z : sqn (M *m z - b) = sqn (M *m solve D b - b) + sqn (M *m (z - solve D b)).
Proof.
have -> : M *m z - b = (M *m solve D b - b) + M *m (z - solve D b).
  by rewrite mulmxBr [RHS]addrC addrA subrK.
apply: sqn_add; apply: trmx_inj; rewrite trmx_mul trmxK trmx_mul trmx0 -mulmxA normal_eq mulmx0 //.
Qed.
End OneSvd.

Variable n : nat.
Definition prob (l : level R n) : problem R n := mkproblem (jac l) (err l).
Definition inv (A : 'cV[R]_n -> Prop) (dq : 'cV[R]_n) (p : proj R n) : Prop :=
  (pmat p)^T *m pmat p = 1%:M /\ forall x, A x <-> exists z, x = dq + pmat p *m z.

Lemma inv_null dq : inv (fun _ => True) dq (null_proj R n).
Proof.
split=> [|x] /=; first by rewrite trmx1 mul1mx.
by split=> // _; exists (x - dq); rewrite mul1mx addrC subrK.
Qed.

Lemma cost_affine l dq (p : proj R n) z :
  cost (prob l) (dq + pmat p *m z) = sqn (jac l *m pmat p *m z - (- err l - jac l *m dq)).
Proof.
rewrite /cost -sqn_norm2 /=; congr sqn.
by rewrite mulmxDr -mulmxA opprB opprK [LHS]addrAC [LHS]addrC [jac l *m dq + _]addrC.
Qed.

Lemma inv_step A l dq p (D : svd (jac l *m pmat p)) : inv A dq p ->
  inv (best A (prob l)) (dq + pmat p *m solve D (- err l - jac l *m dq)) (mkproj (pmat p *m V2 D)).
Proof.
case=> HP HA; set e := - err l - _; split=> [|x] /=.
  by rewrite trmx_mul -mulmxA (mulmxA (pmat p)^T) HP mul1mx V22.
split=> [[Hx Hb]|[w ->]].
- have [z Ez] := (proj1 (HA x) Hx); subst x.
  have /Hb : A (dq + pmat p *m solve D e) by apply/HA; exists (solve D e).
  rewrite !cost_affine -/e (residual D e z) ger_addl => H0.
  have : sqn ((jac l *m pmat p) *m (z - solve D e)) = 0.
    by apply/eqP; rewrite eq_le H0 sqn_ge0.
  move/sqn_eq0/(ker_V2 D) => Ek.
  exists ((V2 D)^T *m (z - solve D e)).
  by rewrite -addrA -mulmxA -Ek -mulmxDr [solve D e + _]addrC subrK.
- have E : dq + pmat p *m solve D e + pmat p *m V2 D *m w = dq + pmat p *m (solve D e + V2 D *m w).
    by rewrite mulmxDr !mulmxA addrA.
  rewrite E; split; first by apply/HA; exists (solve D e + V2 D *m w).
  move=> y /HA [z ->]; rewrite !cost_affine -/e (residual D e z).
  rewrite (residual D e (solve D e + _)) [solve D e + _]addrC addrK mulmxA M_V2 mul0mx.
  by rewrite sqn0 addr0 ler_addl sqn_ge0.
Qed.

Lemma norm2_rows0 r (x : 'cV[R]_r) : r = 0%N -> norm2 x = 0.
Proof. by move=> E; subst r; rewrite /norm2 big_ord0. Qed.
Lemma best_rows0 A l : rows l = 0%N -> forall x, best A (prob l) x <-> A x.
Proof.
move=> E x; split=> [[]//|Ax]; split=> // y _.
by rewrite /cost !norm2_rows0.
Qed.
Lemma inv_ext A B dq p : (forall x, A x <-> B x) -> inv A dq p -> inv B dq p.
Proof. by move=> H [HP HA]; split=> // x; rewrite -H. Qed.
Lemma inv_self A dq p : inv A dq p -> A dq.
Proof. by case=> _ HA; apply/HA; exists 0; rewrite mulmx0 addr0. Qed.

Lemma best_single (A : 'cV[R]_n -> Prop) (x : 'cV[R]_n) (q : problem R n) : A x -> (forall y, A y -> y = x) -> best A q x /\ forall y, best A q y -> y = x.
Proof. by move=> Ax U; split=> [|y [/U]//]; split=> // y /U ->. Qed.
Lemma foldl_single (qs : seq (problem R n)) (A : 'cV[R]_n -> Prop) (x : 'cV[R]_n) : A x -> (forall y, A y -> y = x) ->
  foldl (@best R n) A qs x /\ (forall y, foldl (@best R n) A qs y -> y = x).
Proof.
elim: qs A => [|q qs IH] A Ax U //=.
by have [H1 H2] := best_single q Ax U; apply: IH.
Qed.
Lemma foldl_sub (qs : seq (problem R n)) (A : 'cV[R]_n -> Prop) (x : 'cV[R]_n) : foldl (@best R n) A qs x -> A x.
Proof. by elim: qs A => [|q qs IH] A //= /IH []. Qed.

Definition probs (ls : seq (level R n * nat)) : seq (problem R n) := [seq prob x.1 | x <- ls].

(** what a run computes: [j] levels are solved *)
Definition done_after (lbl : bool) (thr : R) (A : 'cV[R]_n -> Prop) (ls : seq (level R n * nat)) (r : 'cV[R]_n) : Prop :=
  foldl (@best R n) A (probs ls) r \/
  exists l1 l l2 x, lbl = true /\ ls = l1 ++ l :: l2 /\ foldl (@best R n) A (probs (rcons l1 l)) r /\
    foldl (@best R n) A (probs l1) x /\ thr < cost (prob l.1) x.

Lemma sqn_cost l x : sqn (- err l - jac l *m x) = cost (prob l) x.
Proof. by rewrite /cost -sqn_norm2 -sqn_opp /= opprD !opprK addrC. Qed.

Lemma run_done lbl thr ls first dq p r mrs ok : run lbl thr ls first dq p r mrs ok ->
  forall A, inv A dq p -> (first -> inv A 0 p) -> done_after lbl thr A ls r.
Proof.
elim=> {ls first dq p r mrs ok} [first dq p|l mr ls first dq p r mrs ok E _ IH|l mr ls first dq p D E e|l mr ls first dq p D r mrs ok E e].
- by move=> A HA _; left; exact: inv_self HA.
- move=> A HA _.
  have HB : inv (best A (prob l)) dq p by apply: (inv_ext _ HA) => x; split=> /(best_rows0 A E x).
  have [H|[l1 [l0 [l2 [x [H1 [H2 [H3 [H4 H5]]]]]]]]] := IH _ HB (fun F => False_ind _ (notF F)).
    by left.
  by right; exists ((l, mr) :: l1), l0, l2, x; rewrite H2.
- move=> Hs A HA HF.
  set dq0 := (if first then 0 else dq).
  have HA0 : inv A dq0 p by rewrite /dq0; move: HF; case: (first) => // HF; exact: HF.
  have Ee : e = - err l - jac l *m dq0 by rewrite /e /dq0; case: (first); rewrite ?mulmx0.
  have HB := inv_step D HA0; rewrite -Ee in HB.
  move: Hs; rewrite -orbA => /orP [/andP [Hl Ht]|/orP [Hn|Hk]].
  + right; exists [::], (l, mr), ls, dq0; do 2 split=> //; split; first exact: inv_self HB.
    by split; [exact: inv_self HA0|rewrite -sqn_cost -Ee].
  + by left; case: ls Hn => //= _; exact: inv_self HB.
  + left; have [] // := foldl_single (probs ls) (A := best A (prob l)) (inv_self HB).
    move=> y /(proj2 HB) [z ->] /=.
    move: (V2 D) z Hk => V; move: (rk2 D) V => k2 V z /eqP Hk; subst k2.
    by rewrite (flatmx0 z) !mulmx0 addr0.
- move=> Hs _ IH A HA HF.
  set dq0 := (if first then 0 else dq).
  have HA0 : inv A dq0 p by rewrite /dq0; move: HF; case: (first) => // HF; exact: HF.
  have Ee : e = - err l - jac l *m dq0 by rewrite /e /dq0; case: (first); rewrite ?mulmx0.
  have HB := inv_step D HA0; rewrite -Ee in HB.
  have [H|[l1 [l0 [l2 [x [H1 [H2 [H3 [H4 H5]]]]]]]]] := IH _ HB (fun F => False_ind _ (notF F)).
    by left.
  by right; exists ((l, mr) :: l1), l0, l2, x; rewrite H2.
Qed.
End Proofs.
