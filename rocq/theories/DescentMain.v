(** Statements used by DescentProps. *)
From mathcomp Require Import all_ssreflect all_algebra.
From Verif Require Import DescentModel DescentSpec DescentProofs.
Set Implicit Arguments. Unset Strict Implicit. Unset Printing Implicit Defensive.
Import Order.TTheory GRing.Theory Num.Theory.
Open Scope ring_scope.

Section Main.
Variables (R : realFieldType) (n : nat).
Notation probs := (@probs R n).

Lemma inv_stop A l dq p (D : svd (jac l *m pmat p)) e (qs : seq (problem R n)) :
  inv (best A (prob l)) (dq + pmat p *m solve D e) (mkproj (pmat p *m V2 D)) -> rk2 D == 0%N ->
  forall y, foldl (@best R n) (best A (prob l)) qs y -> y = dq + pmat p *m solve D e.
Proof.
move=> HB Hk; have [] // := foldl_single qs (A := best A (prob l)) (inv_self HB).
move=> y /(proj2 HB) [z ->] /=.
move: (V2 D) z Hk => V; move: (rk2 D) V => k2 V z /eqP Hk; subst k2.
by rewrite (flatmx0 z) !mulmx0 addr0.
Qed.

Lemma inv_least (A : 'cV[R]_n -> Prop) dq p : inv A dq p -> (pmat p)^T *m dq = 0 -> forall y, A y -> norm2 dq <= norm2 y.
Proof.
case=> HP HA Ho y /HA [z ->]; rewrite -!sqn_norm2 sqn_add ?ler_addl ?sqn_ge0 //.
by apply: trmx_inj; rewrite trmx_mul trmx_mul trmxK trmx0 -mulmxA Ho mulmx0.
Qed.
Lemma orth_step l dq (p : proj R n) (D : svd (jac l *m pmat p)) e :
  (pmat p)^T *m pmat p = 1%:M -> (pmat p)^T *m dq = 0 -> (pmat p *m V2 D)^T *m (dq + pmat p *m solve D e) = 0.
Proof.
move=> HP Ho; rewrite trmx_mul -mulmxA mulmxDr Ho add0r (mulmxA (pmat p)^T) HP mul1mx; exact: V2_solve.
Qed.

Definition starts (ls : seq (level R n * nat)) : bool := if ls is (l, _) :: _ then rows l != 0%N else false.
Lemma run_least thr ls first dq p r mrs ok : run false thr ls first dq p r mrs ok ->
  forall A, inv A dq p -> (first -> inv A 0 p) -> (pmat p)^T *m dq = 0 \/ (first && starts ls) ->
  forall y, foldl (@best R n) A (probs ls) y -> norm2 r <= norm2 y.
Proof.
elim=> {ls first dq p r mrs ok} [first dq p|l mr ls first dq p r mrs ok E _ IH|l mr ls first dq p D E e|l mr ls first dq p D r mrs ok E e].
- by move=> A HA _ [Ho|]; [exact: inv_least HA Ho|rewrite andbF].
- move=> A HA _ [Ho|]; last by rewrite /= E andbF.
  have HB : inv (best A (prob l)) dq p by apply: (inv_ext _ HA) => x; split=> /(best_rows0 A E x).
  by apply: (IH _ HB) => //; left.
- move=> Hs A HA HF Ho.
  set dq0 := (if first then 0 else dq).
  have HA0 : inv A dq0 p by rewrite /dq0; move: HF; case: (first) => // HF; exact: HF.
  have Ho0 : (pmat p)^T *m dq0 = 0.
    by rewrite /dq0; move: Ho; case: (first) => /=; [rewrite mulmx0|case].
  have Ee : e = - err l - jac l *m dq0 by rewrite /e /dq0; case: (first); rewrite ?mulmx0.
  have HB := inv_step D HA0; rewrite -Ee in HB.
  move: Hs; rewrite /= => /orP [Hn|Hk] y.
  + case: ls Hn Ho => //= _ _ Hy; exact: (inv_least HB (orth_step D e (proj1 HA0) Ho0)).
  + by move=> Hy; rewrite (inv_stop HB Hk Hy).
- move=> Hs _ IH A HA HF Ho.
  set dq0 := (if first then 0 else dq).
  have HA0 : inv A dq0 p by rewrite /dq0; move: HF; case: (first) => // HF; exact: HF.
  have Ho0 : (pmat p)^T *m dq0 = 0.
    by rewrite /dq0; move: Ho; case: (first) => /=; [rewrite mulmx0|case].
  have Ee : e = - err l - jac l *m dq0 by rewrite /e /dq0; case: (first); rewrite ?mulmx0.
  have HB := inv_step D HA0; rewrite -Ee in HB.
  apply: (IH _ HB) => //; left; exact: (orth_step D e (proj1 HA0) Ho0).
Qed.

Lemma lexicographic thr ls stale r mrs ok : direction false thr ls stale r mrs ok -> lex (probs ls) r.
Proof.
move=> H; have [//|[? [? [? [? [//]]]]]] := run_done H (A := fun _ => True) (inv_null _) (fun _ => inv_null _).
Qed.
Lemma level_by_level thr ls stale r mrs ok : direction true thr ls stale r mrs ok ->
  lex (probs ls) r \/
  exists l1 l l2 x, ls = l1 ++ l :: l2 /\ lex (probs (rcons l1 l)) r /\ lex (probs l1) x /\ thr < cost (prob l.1) x.
Proof.
move=> H; have [|[l1 [l [l2 [x [_ H']]]]]] := run_done H (A := fun _ => True) (inv_null _) (fun _ => inv_null _).
  by left.
by right; exists l1, l, l2, x.
Qed.
Lemma minimal_norm thr ls stale r mrs ok : direction false thr ls stale r mrs ok -> starts ls \/ stale = 0 ->
  least_norm (lex (probs ls)) r.
Proof.
move=> H Hs; split; first exact: lexicographic H.
apply: (run_least H (A := fun _ => True) (inv_null _) (fun _ => inv_null _)).
by case: Hs => [->|->]; [right|left; rewrite mulmx0].
Qed.
Lemma minimal_norm' thr ls stale r mrs ok : direction false thr ls stale r mrs ok ->
  (exists l mr ls', ls = (l, mr) :: ls' /\ rows l <> 0%N) \/ stale = 0 -> least_norm (lex (probs ls)) r.
Proof.
move=> H Hs; apply: (minimal_norm H); case: Hs => [[l [mr [ls' [-> /eqP ?]]]]|]; by [left|right].
Qed.
Lemma single (l : level R n) (D : svd (jac l)) mr :
  least_norm (lex [:: prob l]) (one_level D mr).1.1.
Proof.
pose J := jac l *m pmat (null_proj R n).
have E : J = jac l by rewrite /J mulmx1.
pose D' : svd J := eq_rect_r (fun M : 'M_(rows l, n) => svd M) D E.
have H : (pmat (null_proj R n) *m solve D' (- err l - jac l *m 0)) = solve D (- err l).
  rewrite mul1mx mulmx0 subr0 /D'.
  by move: (J) E @D' => J' E'; subst J' => D'.
have HB := @inv_step R n _ l 0 (null_proj R n) D' (inv_null _).
rewrite H add0r in HB; split; first exact: inv_self HB.
move=> y Hy; apply: (inv_least HB) => //=; rewrite mul1mx -H mul1mx; exact: V2_solve.
Qed.

(** the residuals of the problems solved do not depend on the element chosen *)
Lemma par1 (a b c : R) : a + c + b + (a - c + b) = a + b + (a + b).
Proof. by rewrite [a + c + b]addrAC [a - c + b]addrAC addrACA subrr addr0. Qed.
Lemma norm2_par k (x y : 'cV[R]_k) : norm2 (x + y) + norm2 (x - y) = (norm2 x + norm2 y) + (norm2 x + norm2 y).
Proof.
rewrite /norm2 -!big_split /=; apply: eq_bigr => i _; rewrite !mxE.
rewrite sqrrD sqrrB; exact: par1.
Qed.

Definition mid (x y : 'cV[R]_n) : 'cV[R]_n := 2%:R^-1 *: (x + y).
Definition convex (A : 'cV[R]_n -> Prop) := forall x y, A x -> A y -> A (mid x y).
Lemma two0 : (2%:R : R) != 0. Proof. by rewrite pnatr_eq0. Qed.
Lemma norm2_scale k (a : R) (x : 'cV[R]_k) : norm2 (a *: x) = a ^+ 2 * norm2 x.
Proof. by rewrite /norm2 mulr_sumr; apply: eq_bigr => i _; rewrite mxE exprMn. Qed.
Lemma cost_mid (q : problem R n) x y :
  cost q (mid x y) = 4%:R^-1 * (cost q x + cost q y + (cost q x + cost q y) - norm2 (p_J q *m x - p_J q *m y)).
Proof.
rewrite /cost /mid.
have -> : p_J q *m (2%:R^-1 *: (x + y)) + p_e q = 2%:R^-1 *: ((p_J q *m x + p_e q) + (p_J q *m y + p_e q)).
  rewrite -scalemxAr mulmxDr [in RHS]addrACA [in RHS]scalerDr -[p_e q + p_e q]mulr2n -scaler_nat scalerA mulVf ?two0 // scale1r //.
rewrite norm2_scale exprVn -natrX; congr (_ * _).
rewrite -norm2_par.
have -> : p_J q *m x + p_e q - (p_J q *m y + p_e q) = p_J q *m x - p_J q *m y.
  by rewrite opprD addrACA subrr addr0.
by rewrite addrK.
Qed.
Lemma best_convex A (q : problem R n) x y : convex A -> best A q x -> best A q y ->
  best A q (mid x y) /\ p_J q *m x = p_J q *m y.
Proof.
move=> HA [Ax Hx] [Ay Hy]; have E : cost q y = cost q x by apply/eqP; rewrite eq_le Hx // Hy.
have Hm := Hx _ (HA _ _ Ax Ay).
have H0 : norm2 (p_J q *m x - p_J q *m y) = 0.
  apply/eqP; rewrite -sqn_norm2 eq_le sqn_ge0 andbT sqn_norm2.
  move: Hm; rewrite cost_mid E ler_pdivl_mull ?ltr0n // mulr_natl -[(_ *+ 4)]/(_ *+ (2 + 2)) mulrnDr mulr2n.
  by rewrite ler_subr_addr ger_addl.
split; last by apply/eqP; rewrite -subr_eq0; apply/eqP; apply: sqn_eq0; rewrite sqn_norm2.
split; first exact: HA.
move=> z Az; have -> : cost q (mid x y) = cost q x; last exact: Hx.
rewrite cost_mid E H0 subr0 -!mulr2n -mulrnA -[X in _ * X]mulr_natl mulrA mulVf ?mul1r // pnatr_eq0 //.
Qed.
Lemma foldl_convex (qs : seq (problem R n)) A x y : convex A -> foldl (@best R n) A qs x -> foldl (@best R n) A qs y ->
  forall q, List.In q qs -> p_J q *m x = p_J q *m y.
Proof.
elim: qs A => [|q qs IH] A HA //= Hx Hy q' [<-|H].
- by have [] := best_convex HA (foldl_sub Hx) (foldl_sub Hy).
- apply: (IH _ _ Hx Hy) => // u v Hu Hv; by have [] := best_convex HA Hu Hv.
Qed.
Lemma residual_unique (qs : seq (problem R n)) x y q : lex qs x -> lex qs y -> List.In q qs ->
  p_J q *m x + p_e q = p_J q *m y + p_e q.
Proof. by move=> Hx Hy Hq; rewrite (foldl_convex (A := fun _ => True) _ Hx Hy Hq). Qed.
(** lower levels do not change the residuals of the higher ones *)
Lemma priority (qs qs' : seq (problem R n)) x y q : lex qs x -> lex (qs ++ qs') y -> List.In q qs ->
  p_J q *m x + p_e q = p_J q *m y + p_e q.
Proof.
move=> Hx; rewrite /lex foldl_cat => /foldl_sub Hy Hq; exact: residual_unique Hx Hy Hq.
Qed.

(** ranks *)
Lemma rk_le m k (M : 'M[R]_(m, k)) (D : svd M) : (rk D <= minn m k)%N.
Proof.
rewrite leq_min; apply/andP; split; first exact: mulmx1_min (UU D).
by rewrite -[X in (_ <= X)%N](rk_sum D) leq_addr.
Qed.
Lemma one_level_ok (l : level R n) (D : svd (jac l)) mr : (mr <= minn (rows l) n)%N ->
  (one_level D mr).2 /\ ((one_level D mr).1.2 <= minn (rows l) n)%N.
Proof.
move=> H; rewrite /= /sigma_ok /max_rank; have E : (maxn mr (rk D) <= minn (rows l) n)%N by rewrite geq_max H rk_le.
by rewrite E orbT.
Qed.

(** projection on the kernel *)
Section Kernel.
Variables (m : nat) (J : 'M[R]_(m, n)) (D : svd J).
Lemma project_V2 x : project_kernel D x = V2 D *m ((V2 D)^T *m x).
Proof.
rewrite /project_kernel -{1}[x]mul1mx -(V_full D) mulmxDl -!mulmxA addrC addrA [- _ + _]addrC subrr add0r //.
Qed.
Lemma project_in x : J *m project_kernel D x = 0.
Proof. by rewrite project_V2 mulmxA M_V2 mul0mx. Qed.
Lemma project_fix y : J *m y = 0 -> project_kernel D y = y.
Proof. by move=> H; rewrite project_V2 -ker_V2. Qed.
Lemma project_rest x : x - project_kernel D x = V1 D *m ((V1 D)^T *m x).
Proof. by rewrite /project_kernel opprB addrC subrK. Qed.
Lemma project_closest x y : J *m y = 0 -> norm2 (x - project_kernel D x) <= norm2 (x - y).
Proof.
move=> H; rewrite -!sqn_norm2.
have -> : x - y = (x - project_kernel D x) + (project_kernel D x - y) by rewrite addrA subrK.
rewrite [X in _ <= X]sqn_add ?ler_addl ?sqn_ge0 //.
rewrite project_rest trmx_mul -mulmxA.
by rewrite mulmxBr (ker_V1 D (project_in x)) (ker_V1 D H) subrr mulmx0.
Qed.
Lemma project_norm x : norm2 (project_kernel D x) <= norm2 x.
Proof.
rewrite -!sqn_norm2 -{2}(subrK (project_kernel D x) x).
rewrite [X in _ <= X]sqn_add ?ler_addr ?sqn_ge0 //.
rewrite project_rest trmx_mul -mulmxA.
by rewrite (ker_V1 D (project_in x)) mulmx0.
Qed.
Variables (N : nat) (free : 'I_n -> 'I_N).
Hypothesis free_inj : injective free.
Lemma restrict_expand (y : 'cV[R]_n) : restrict free (expand free y) = y.
Proof.
apply/matrixP => i j; rewrite !mxE (ord1 j); case: pickP => [k /eqP /free_inj -> //|H].
by have := H i; rewrite eqxx.
Qed.
Lemma expand_out (y : 'cV[R]_n) j : (forall i, free i <> j) -> expand free y j 0 = 0.
Proof. by move=> H; rewrite mxE; case: pickP => // i /eqP /H. Qed.
Lemma norm2_expand (y : 'cV[R]_n) : norm2 (expand free y) = norm2 y.
Proof.
rewrite /norm2 (bigID (fun j => j \in codom free)) /= [X in _ + X]big1 => [|j Hj].
- rewrite addr0.
  have Hu : uniq (codom free) by apply/injectiveP.
  rewrite -(big_uniq _ Hu) codomE big_map big_enum /=; apply: eq_bigr => i _; congr (_ ^+ 2).
  by have := congr1 (fun M : 'cV_n => M i 0) (restrict_expand y); rewrite mxE.
- rewrite expand_out ?expr0n // => i E; move: Hj; rewrite -E codom_f //.
Qed.
Lemma norm2_restrict (x : 'cV[R]_N) : norm2 (restrict free x) <= norm2 x.
Proof.
rewrite -norm2_expand /norm2; apply: ler_sum => j _; rewrite mxE.
by case: pickP => [i /eqP E|_]; rewrite ?mxE ?E ?expr0n ?sqr_ge0.
Qed.
Lemma projection (darg : 'cV[R]_N) : let v := project_vector free false D darg in
  (forall j, (forall i, free i <> j) -> v j 0 = 0) /\
  J *m restrict free v = 0 /\
  (forall y, J *m y = 0 -> norm2 (restrict free darg - restrict free v) <= norm2 (restrict free darg - y)) /\
  project_vector free false D v = v /\ norm2 v <= norm2 darg.
Proof.
rewrite /project_vector; cbv zeta; rewrite !restrict_expand; split; first by move=> j; exact: expand_out.
split; first exact: project_in.
split; first exact: project_closest.
split; first by rewrite (project_fix (project_in _)).
by rewrite norm2_expand; apply: le_trans (project_norm _) (norm2_restrict _).
Qed.
End Kernel.
End Main.
