(** Proofs about LimModel. *)
From Coq Require Import Reals ZArith Lra.
From mathcomp Require Import all_ssreflect all_algebra.
From Verif Require Import SolveModel LineModel SatModel DescentModel DescentSpec DescentProofs DescentMain RField RReal AffModel AffProofs AffMain NewtModel LimModel LimSpec LimScalar.
Set Implicit Arguments. Unset Strict Implicit. Unset Printing Implicit Defensive.
Import Order.TTheory GRing.Theory Num.Theory.
Open Scope ring_scope.
Delimit Scope R_scope with coqR.
Notation FR := R_realFieldType.

Lemma sumr_le0 (F : numDomainType) (I : Type) (r : seq I) (P : pred I) (f : I -> F) : (forall i, P i -> f i <= 0) -> \sum_(i <- r | P i) f i <= 0.
Proof. by move=> h; rewrite -oppr_ge0 -sumrN; apply: sumr_ge0 => i /h; rewrite oppr_ge0. Qed.
Section Any.
Variables (F : realFieldType) (n : nat) (lm : limits F n).
Notation vec := 'cV[F]_n.
Lemma saturated_within q : (forall i, lo lm i 0 <= hi lm i 0) -> within (lo lm) (hi lm) (saturated lm q).
Proof.
move=> h i; rewrite mxE /clamp_at /clamp; case: ifP => c /=; first by rewrite lexx h.
case: ifP => c' /=; first by rewrite lexx h.
by rewrite (ltW (_ : _ < _)) ?(ltW (_ : q i 0 < _)) // ltNge ?c ?c'.
Qed.
Lemma saturated_id q : within (lo lm) (hi lm) q -> saturated lm q = q.
Proof.
move=> h; apply/matrixP => i j; rewrite ord1 mxE /clamp_at /clamp; have /andP[a b] := h i.
case: ifP => c /=; first by apply/eqP; rewrite eq_le a c.
by case: ifP => c' //=; apply/eqP; rewrite eq_le b c'.
Qed.
Definition saturates (St : Type) (lsearch : St -> vec -> vec -> vec * vec * St) : Prop :=
  forall s q d, exists x, (lsearch s q d).1.1 = saturated lm x.
Definition sat_conf (q : vec) : Prop := exists x, q = saturated lm x.
Lemma hloop_sat St (lsearch : St -> vec -> vec -> vec * vec * St) ltb (E : vec -> F) descent dnorm dmin thr maxit :
  saturates lsearch -> forall fuel s q past sn prev ed iter st st' q' past' sn' iter',
  hloop ltb E descent dnorm dmin thr maxit lsearch fuel s q past sn prev ed iter st = Some (st', q', past', sn', iter') ->
  (q' = q /\ past' = past) \/ (sat_conf q' /\ exists rest, past' = rest ++ q :: past /\ forall x, List.In x rest -> sat_conf x).
Proof.
move=> hs; elim=> [|fuel IH] s q past sn prev ed iter st st' q' past' sn' iter' /=.
  by case: ifP => // _ [_ <- <- _ _]; left.
case: ifP => [_|_ [_ <- <- _ _]]; last by left.
case Ed: (descent s q) => [d s1]; case: ifP => [_ [_ <- <- _ _]|_]; first by left.
case El: (lsearch s1 q d) => [[q1 d1] s2]; have [x hx] := hs s1 q d; rewrite El /= in hx.
move=> /IH[[-> ->]|[h [rest [-> hr]]]]; right.
  by split; [exists x|exists [::]].
split=> //; exists (rest ++ [:: q1]); split; first by rewrite -catA.
move=> y hy; case: (List.in_app_or _ _ _ hy) => [hy'|[<-|//]]; [exact: hr|by exists x].
Qed.
Lemma hsolve_sat St (lsearch : St -> vec -> vec -> vec * vec * St) ltb (E : vec -> F) descent dnorm dmin thr maxit rdim inf :
  saturates lsearch -> (forall i, lo lm i 0 <= hi lm i 0) -> forall fuel s q st' q' past' iter',
  hsolve ltb E descent dnorm dmin thr maxit rdim lsearch inf fuel s q = Some (st', q', past', iter') ->
  (q' = q /\ past' = [::]) \/ (within (lo lm) (hi lm) q' /\ exists rest, past' = rest ++ [:: q] /\ forall x, List.In x rest -> within (lo lm) (hi lm) x).
Proof.
move=> hs hl fuel s q st' q' past' iter'; rewrite /hsolve; case: ifP => [_ [_ <- <- _]|_]; first by left.
case Eh: (hloop _ _ _ _ _ _ _ _ _ _ _ _ _ _ _ _ _) => [[[[[st1 q1] past1] sn1] iter1]|] //.
have := hloop_sat hs Eh; case=> [[-> ->]|[[x ->] [rest [-> hr]]]].
  by case: ifP => _ [_ <- <- _]; left.
move=> H; right; have [<- <-] : saturated lm x = q' /\ rest ++ [:: q] = past' by move: H; case: ifP => _ [_ -> -> _].
split; first exact: saturated_within. exists rest; split=> // y /hr[z ->]; exact: saturated_within.
Qed.
(** the least squares direction of least norm is known by two equations *)
Lemma direction_is thr (l : level F n) r d w : descends thr [:: l] r -> rows l <> 0%N ->
  (jac l)^T *m (jac l *m d + err l) = 0 -> d = (jac l)^T *m w -> r = d.
Proof.
move=> hd hr normal image.
have [[_ best1] least] : least_norm (lex [seq prob1 l | l <- [:: l]]) r by apply: descends_least hd _; exists l, [::].
rewrite /= in best1 least.
have cost_d y : cost (prob1 l) y = cost (prob1 l) d + norm2 (jac l *m (y - d)).
  rewrite /cost /= -!sqn_norm2 mulmxBr.
  have -> : jac l *m y + err l = (jac l *m d + err l) + (jac l *m y - jac l *m d) by rewrite [RHS]addrC addrA subrK.
  have o : (jac l *m d + err l)^T *m jac l = 0 by rewrite -[RHS]trmx0 -normal trmx_mul trmxK.
  by rewrite sqn_add // -mulmxBr mulmxA o mul0mx.
have d_best : best (fun _ => True) (prob1 l) d.
  by split=> // y _; rewrite (cost_d y) ler_addl -sqn_norm2 sqn_ge0.
have J0 : jac l *m (r - d) = 0.
  apply: sqn_eq0; apply/eqP; rewrite eq_le sqn_ge0 andbT sqn_norm2.
  have := best1 d Logic.I; rewrite (cost_d r) -[X in _ <= X]addr0 ler_add2l; exact: id.
have := least d d_best; rewrite -{1}(subrK d r) addrC -!sqn_norm2 sqn_add; last first.
  by rewrite {1}image trmx_mul trmxK -mulmxA J0 mulmx0.
rewrite ger_addl => h; have /sqn_eq0/eqP : sqn (r - d) = 0 by apply/eqP; rewrite eq_le h sqn_ge0.
by rewrite subr_eq0 => /eqP.
Qed.
End Any.

(** bridge to the scalar functions *)
Section Bridge.
Variables (n : nat) (lm : limits FR n).
Notation L i := (lo lm i 0 : R). Notation H i := (hi lm i 0 : R).
Lemma lebE (x y : R) : (x <= y :> FR) = (if Rle_dec x y then true else false).
Proof. by case: Rle_dec => h; [apply/leR|apply/negP => /leR]. Qed.
Lemma saturated_cl q i : saturated lm q i 0 = cl (L i) (H i) (q i 0).
Proof. by rewrite mxE /clamp_at /clamp /cl !lebE; case: Rle_dec => ? //; case: Rle_dec. Qed.
Lemma flag_fl q i : flag_value FR (flag lm q i) = fl (L i) (H i) (q i 0).
Proof. by rewrite /flag /clamp_at /clamp /fl !lebE; case: Rle_dec => ? //; case: Rle_dec. Qed.
Lemma not_reached q i : reached lm q = false -> flag_value FR (flag lm q i) = 0.
Proof.
move=> /negbT; rewrite negb_exists => /forallP/(_ i); rewrite /flag /clamp_at /clamp; case: ifP => //= _; by case: ifP.
Qed.
End Bridge.

Section Row.
Variables (n : nat) (lm : limits FR n) (a : 'rV[FR]_n) (b : FR).
Notation vec := 'cV[FR]_n.
Notation L i := (lo lm i 0 : R). Notation H i := (hi lm i 0 : R).
Hypothesis Hlh : forall i, L i < H i.
Notation inside := (within (lo lm) (hi lm)).
Definition e (q : vec) : FR := \sum_i a 0 i * q i 0 - b.
Lemma errE q : a *m q - const_mx b = const_mx (e q) :> 'cV[FR]_1.
Proof. by apply/matrixP => i j; rewrite !ord1 /row_level /= !mxE. Qed.
Lemma residualE q : nresidual [:: row_level a b] q = e q ^+ 2.
Proof.
rewrite /nresidual /= errE /seg_norm big_mkcond /= big_ord_recl big_ord0 /= addr0 mxE max_r //; exact: sqr_ge0.
Qed.
Definition ca (q : vec) (i : 'I_n) : R := coef (L i) (H i) (q i 0) (a 0 i) (e q).
Lemma levelE q : at_lim lm q (row_level a b) = mklevel (\row_i ca q i) (const_mx (e q)).
Proof.
rewrite /at_lim /limited; have bE j : blocked lm q (at_n q (row_level a b)) j = (if Rlt_dec (Rmult (fl (L j) (H j) (q j 0)) (Rmult (a 0 j) (e q))) 0 then true else false).
  rewrite /blocked flag_fl /= errE mxE big_ord_recl big_ord0 addr0 !mxE.
  by case: Rlt_dec => h; [apply/ltR|apply/negP => /ltR].
case: ifP => r; last first.
  rewrite /at_n /= errE; congr mklevel; apply/matrixP => i j; rewrite ord1 mxE /ca /coef.
  case: Rlt_dec => // h; exfalso; move: h; rewrite -flag_fl (not_reached j r).
  by rewrite (_ : Rmult _ _ = R0); [exact: Rlt_irrefl|exact: mul0r].
rewrite {1}/at_n /= errE; congr mklevel; apply/matrixP => i j; rewrite ord1 !mxE bE /ca /coef.
by case: Rlt_dec.
Qed.
Definition cn (q : vec) : FR := \sum_i ca q i ^+ 2.
Definition step (q : vec) : vec := \col_i (- (e q * (cn q)^-1) * ca q i).
Lemma stepE thr q r : descends thr [:: at_lim lm q (row_level a b)] r -> r = step q.
Proof.
rewrite levelE => hd; apply: (direction_is (w := const_mx (- (e q * (cn q)^-1))) hd) => //=; last first.
  by apply/matrixP => i j; rewrite !ord1 !mxE big_ord_recl big_ord0 addr0 !mxE mulrC.
have [c0|c0] := eqVneq (cn q) 0.
  have -> : (\row_i ca q i)^T = 0 :> 'cV[FR]_n; last by rewrite mul0mx.
  apply/matrixP => i j; rewrite !mxE; apply/eqP; rewrite -sqrf_eq0; move/eqP: c0; rewrite /cn psumr_eq0; last by move=> k _; exact: sqr_ge0.
  by move/allP/(_ i (mem_index_enum _)).
have -> : (\row_i ca q i) *m step q + const_mx (e q) = 0; last by rewrite mulmx0.
apply/matrixP => i j; rewrite !ord1 !mxE.
rewrite (eq_bigr (fun i => - (e q * (cn q)^-1) * ca q i ^+ 2)); last by move=> k _; rewrite !mxE mulrCA -expr2.
by rewrite -mulr_sumr -/(cn q) mulNr divfK // addNr.
Qed.

Section Step.
Variable q : vec.
Hypotheses (Hq : inside q) (He : e q != 0).
Let q' := lintegrate lm q (step q).
Lemma HqR i : Rle (L i) (q i 0) /\ Rle (q i 0) (H i). Proof. by have /andP[/leR ? /leR ?] := Hq i. Qed.
Lemma HlhR i : Rlt (L i) (H i). Proof. exact/ltR. Qed.
Lemma q'E i : q' i 0 = cl (L i) (H i) (Rplus (q i 0) (Rmult (Ropp (Rmult (e q) ((cn q)^-1 : FR))) (ca q i))).
Proof. by rewrite /q' /lintegrate saturated_cl !mxE. Qed.
Lemma inside' : inside q'. Proof. by apply: saturated_within => i; exact: ltW. Qed.
Lemma step_zero : cn q = 0 -> step q = 0 /\ forall x, inside x -> e q ^+ 2 <= e x ^+ 2.
Proof.
move=> c0; split; first by apply/matrixP => i j; rewrite !mxE c0 invr0 mulr0 oppr0 mul0r.
move=> x hx.
have ca0 i : ca q i = R0.
  apply/eqP; rewrite -(sqrf_eq0 (ca q i : FR)); move/eqP: c0; rewrite /cn psumr_eq0; last by move=> k _; exact: sqr_ge0.
  by move/allP/(_ i (mem_index_enum _)).
have h : 0 <= (e x - e q) * e q.
  rewrite /e opprB addrA subrK -sumrB mulr_suml sumr_ge0 // => i _; rewrite -mulrBr.
  have /andP[/leR h1 /leR h2] := hx i; apply/leR.
  exact: (@blocked_best _ _ _ (a 0 i) (e q) (HqR i) _ (conj h1 h2) (ca0 i)).
rewrite -subr_ge0.
have -> : e x ^+ 2 - e q ^+ 2 = (e x - e q) ^+ 2 + ((e x - e q) * e q) *+ 2.
  by rewrite -[in LHS](subrK (e q) (e x)) sqrrD addrK.
by rewrite addr_ge0 ?sqr_ge0 // mulrn_wge0.
Qed.
Hypothesis Hc : cn q != 0.
Lemma cn_pos : 0 < cn q. Proof. by rewrite lt_neqAle eq_sym Hc sumr_ge0 // => i _; exact: sqr_ge0. Qed.
Lemma cR : Rlt R0 ((cn q)^-1 : FR). Proof. by apply/ltR; rewrite invr_gt0 cn_pos. Qed.
Lemma e'E : e q' = e q + \sum_i a 0 i * (q' i 0 - q i 0).
Proof. by rewrite /e addrAC -big_split /=; congr (_ - b); apply: eq_bigr => i _; rewrite mulrBr addrCA subrr addr0. Qed.
Lemma term_bounds i : - ((cn q)^-1 * ca q i ^+ 2 * e q ^+ 2) <= a 0 i * (q' i 0 - q i 0) * e q <= 0.
Proof.
rewrite q'E; have [h1 h2] := step_bounds (a 0 i) (e q) (HqR i) cR.
by rewrite !expr2; apply/andP; split; apply/leR.
Qed.
Lemma e'_bounds : 0 <= e q' * e q <= e q ^+ 2.
Proof.
rewrite e'E mulrDl -expr2 mulr_suml; apply/andP; split; last first.
  by rewrite ger_addl; apply: sumr_le0 => i _; have /andP[] := term_bounds i.
rewrite -ler_subl_addl sub0r; apply: le_trans (ler_sum _ (fun i _ => proj1 (andP (term_bounds i)))).
by rewrite sumrN -mulr_suml -mulr_sumr -/(cn q) mulVf // mul1r.
Qed.
Lemma e'_strict : e q' * e q < e q ^+ 2.
Proof.
have [i hi] : exists i, ca q i != R0.
  apply/existsP; apply: contraR Hc; rewrite negb_exists => /forallP h; rewrite /cn big1 // => i _.
  by have := h i; rewrite negbK => /eqP ->; rewrite expr2; exact: mul0r.
rewrite e'E mulrDl -expr2 mulr_suml gtr_addl (bigD1 i) //= -oppr_gt0 opprD.
have hs : a 0 i * (q' i 0 - q i 0) * e q < 0.
  by rewrite q'E; apply/ltR; apply: (step_strict (a 0 i) (HlhR i) (HqR i) cR); apply/eqP.
by rewrite addrC ltr_paddl ?oppr_gt0 // oppr_ge0; apply: sumr_le0 => j _; have /andP[] := term_bounds j.
Qed.
Lemma e'_sq : e q' ^+ 2 < e q ^+ 2.
Proof.
have /andP[h0 _] := e'_bounds; have h1 := e'_strict; have e2 : 0 < e q ^+ 2 by rewrite exprn_even_gt0 //= He.
have h2 : (e q' * e q) ^+ 2 < e q ^+ 2 * e q ^+ 2.
  rewrite [X in X < _]expr2; apply: le_lt_trans (_ : e q' * e q * e q ^+ 2 < _); first by rewrite ler_wpmul2l // ltW.
  by rewrite ltr_pmul2r.
by move: h2; rewrite exprMn ltr_pmul2r.
Qed.
(** unblocked variables of the equation *)
Definition free_of (x : vec) : {set 'I_n} := [set i | ca x i != R0].
Lemma fewer : e q' != 0 -> (#|free_of q'| < #|free_of q|)%N.
Proof.
move=> e0; have pos : Rlt R0 (Rmult (e q) (e q')).
  apply/ltR; change (0 < e q * e q'); rewrite mulrC lt_neqAle eq_sym mulf_neq0 //; by have /andP[] := e'_bounds.
have sub i : ca q i = R0 -> ca q' i = R0.
  move=> c0; rewrite /ca /coef; case: Rlt_dec => // nb.
  have [a0|a0] := Req_dec (a 0 i) R0; first by [].
  have bl : Rlt (Rmult (fl (L i) (H i) (q i 0)) (Rmult (a 0 i) (e q))) R0 by move: c0; rewrite /ca /coef; case: Rlt_dec.
  exfalso; apply: nb; have [_ x'] := step_blocked ((cn q)^-1 : FR) (HqR i) bl.
  by rewrite q'E x'; exact: same_side _ _ _ pos bl.
have [i hi] : exists i, q' i 0 != q i 0 + step q i 0.
  apply/existsP; apply: contraR e0; rewrite negb_exists => /forallP h.
  rewrite e'E (eq_bigr (fun i => - (e q * (cn q)^-1) * ca q i ^+ 2)); last first.
    move=> i _; have := h i; rewrite negbK => /eqP ->; rewrite addrC addKr mxE.
    rewrite mulrCA; congr (_ * _); rewrite expr2 /ca /coef; case: Rlt_dec => _ //.
    by rewrite mulr0 [RHS]mulr0.
  by rewrite -mulr_sumr -/(cn q) mulNr divfK // subrr.
have [c1 c2] : ca q i <> R0 /\ Rlt (Rmult (fl (L i) (H i) (q' i 0)) (Rmult (a 0 i) (e q))) R0.
  have hx : q' i 0 <> Rplus (q i 0) (Rmult (Ropp (Rmult (e q) ((cn q)^-1 : FR))) (ca q i)).
    by move/eqP: hi => hi h; apply: hi; rewrite [step q i 0]mxE; exact: h.
  have := step_hit (a 0 i) (e := e q) (HlhR i) (HqR i) cR; rewrite -q'E; apply; exact: hx.
apply: proper_card; apply/properP; split.
  apply/subsetP => j; rewrite !inE => hj; apply/eqP => c0; by move: hj; rewrite (sub j c0) eqxx.
exists i; rewrite inE; first by apply/eqP.
rewrite negbK /ca /coef; case: Rlt_dec => // nb; case: nb; exact: same_side _ _ _ pos c2.
Qed.
End Step.
End Row.
