From Coq Require Import ZArith Lia.
From mathcomp Require Import all_ssreflect all_algebra.
From Verif Require Import EcsModel SolveModel SolveSpec SolveProofs DescentModel DescentSpec DescentProofs DescentMain AffModel AffSpec AffProofs AffMain NewtModel NewtSpec NewtProofs IneqModel IneqSpec.
Set Implicit Arguments. Unset Strict Implicit. Unset Printing Implicit Defensive.
Import Order.TTheory GRing.Theory Num.Theory.
Open Scope ring_scope.

Section Rows.
Variables (F : realFieldType) (n : nat) (tau : F).
Implicit Types (ls : seq (ilevel F n)) (q d z : 'cV[F]_n) (l : ilevel F n).
Lemma valueE l q (i : 'I_(il_rows l)) : (il_A l *m q - il_b l) i 0 = value q i.
Proof. by rewrite !mxE. Qed.
Lemma icompareE l q (i : 'I_(il_rows l)) : icompare tau (il_cmp i) (value q i) = (if taking tau q i then (lack tau q i, false) else (0, true)).
Proof. by rewrite /icompare /taking /lack /HierModel.compare; case: (il_cmp i) => //=; rewrite ?orbF; case: ifP. Qed.
Lemma ierrE l q i : ierr tau l q i 0 = if taking tau q i then lack tau q i else 0.
Proof. by rewrite mxE valueE icompareE; case: (taking _ _ _). Qed.
Lemma ijacE l q (i : 'I_(il_rows l)) j : ijac tau l q i j = if taking tau q i then il_A l i j else 0.
Proof. by rewrite mxE valueE icompareE; case: (taking _ _ _). Qed.
Lemma ijac_mul l q (x : 'cV[F]_n) (i : 'I_(il_rows l)) : (ijac tau l q *m x) i 0 = if taking tau q i then \sum_j il_A l i j * x j 0 else 0.
Proof. rewrite mxE. case: ifP => H; first by apply: eq_bigr => j _; rewrite ijacE H. by rewrite big1 // => j _; rewrite ijacE H mul0r. Qed.
Lemma pushE ls q (lam : forall l, 'cV[F]_(il_rows l)) : push tau ls q lam = \sum_(l <- ls) (ijac tau l q)^T *m lam l.
Proof.
apply/matrixP => j k; rewrite ord1 mxE summxE; apply: eq_bigr => l _. rewrite mxE [RHS](bigID (fun i => taking tau q i)) /=.
rewrite [X in _ = _ + X]big1 ?addr0; first by apply: eq_bigr => i Hi; rewrite mxE ijacE Hi mulrC.
by move=> i /negbTE Hi; rewrite mxE ijacE Hi mul0r.
Qed.
Lemma ijac_err l q (x : 'cV[F]_n) : (forall i : 'I_(il_rows l), taking tau q i -> \sum_j il_A l i j * x j 0 = - lack tau q i) <-> ijac tau l q *m x = - ierr tau l q.
Proof.
split=> [H|H i Hi].
- apply/matrixP => i j; rewrite ord1 ijac_mul mxE ierrE. case: ifP => [/H//|_]; by rewrite oppr0.
- have := congr1 (fun M : 'cV[F]_(il_rows l) => M i 0) H. by rewrite /= ijac_mul mxE ierrE Hi.
Qed.
Lemma dotE k (x y : 'cV[F]_k) : dot x y = (x^T *m y) 0 0.
Proof. by rewrite mxE; apply: eq_bigr => i _; rewrite mxE. Qed.
Lemma dotC k (x y : 'cV[F]_k) : dot x y = dot y x. Proof. by apply: eq_bigr => i _; rewrite mulrC. Qed.
Lemma dot_norm2 k (x : 'cV[F]_k) : dot x x = norm2 x. Proof. by apply: eq_bigr => i _; rewrite expr2. Qed.
Lemma dot_push ls q (lam : forall l, 'cV[F]_(il_rows l)) x : dot (push tau ls q lam) x = \sum_(l <- ls) dot (lam l) (ijac tau l q *m x).
Proof.
rewrite pushE dotE [in LHS]linear_sum mulmx_suml summxE.
by apply: eq_bigr => l _; rewrite dotE /= trmx_mul trmxK -mulmxA.
Qed.
Lemma norm2_eq0 k (x : 'cV[F]_k) : norm2 x <= 0 -> x = 0.
Proof. by move=> H; apply: sqn_eq0; apply: le_anti; rewrite sqn_ge0 andbT sqn_norm2. Qed.
Lemma norm2_sub k (x y : 'cV[F]_k) : norm2 (x - y) = norm2 x - dot x y *+ 2 + norm2 y.
Proof.
rewrite norm2_add -scaleN1r norm2_scale sqrrN expr1n mul1r -mulNrn. congr (_ + _ *+ 2 + _).
by rewrite -[in RHS](mulN1r (dot x y)) /dot mulr_sumr; apply: eq_bigr => i _; rewrite mxE mulrCA.
Qed.
Lemma sum_in (T : Type) (f g : T -> F) (s : seq T) : (forall x, List.In x s -> f x = g x) -> \sum_(x <- s) f x = \sum_(x <- s) g x.
Proof. elim: s => [|x s IH] H; rewrite ?big_nil ?big_cons //. by rewrite (H x (or_introl erefl)) IH // => y Hy; apply: H; right. Qed.
Lemma sum_in_le (T : Type) (f g : T -> F) (s : seq T) : (forall x, List.In x s -> f x <= g x) -> \sum_(x <- s) f x <= \sum_(x <- s) g x.
Proof. elim: s => [|x s IH] H; rewrite ?big_nil ?big_cons //. by apply: ler_add; [apply: H; left|apply: IH => y Hy; apply: H; right]. Qed.

(** the direction is the push *)
Variables (ls : seq (ilevel F n)) (thr' : F).
Hypothesis Starts : exists l t, ls = l :: t /\ il_rows l <> 0%N.
Notation ats q := [seq at_n q l | l <- [seq compared tau l | l <- ls]].
Lemma solves q d x : descends thr' (ats q) d -> (forall l, List.In l ls -> ijac tau l q *m x = - ierr tau l q) ->
  (forall l, List.In l ls -> ijac tau l q *m d = - ierr tau l q) /\ norm2 d <= norm2 x.
Proof.
move=> Hd Hx.
have Zx pb : List.In pb [seq prob1 l | l <- ats q] -> cost pb x = 0.
  move=> Hb; have [l1 [-> H1]] := @in_map_inv _ _ _ _ _ Hb; have [l2 [-> H2]] := @in_map_inv _ _ _ _ _ H1; have [l3 [-> H3]] := @in_map_inv _ _ _ _ _ H2.
  by rewrite /cost /= Hx // addNr -sqn_norm2 sqn0.
have [l0 [t [E0 Hl0]]] := Starts.
have [Lx Hmin] : least_norm (lex [seq prob1 l | l <- ats q]) d.
  by apply: descends_least Hd _; rewrite E0 /=; do 2 eexists.
split; last by apply: Hmin; apply: foldl_zero_in.
move=> l Hl. have C : cost (prob1 (at_n q (compared tau l))) d = 0.
  by apply: (foldl_zero (A := fun _ => True) (x := x) I Zx Lx); apply: in_map; apply: in_map; apply: in_map.
have /sqn_eq0 : sqn (ijac tau l q *m d + ierr tau l q) = 0 by rewrite sqn_norm2.
by move/eqP; rewrite addr_eq0 => /eqP.
Qed.
Lemma direction_push q d : descends thr' (ats q) d -> agree tau ls q ->
  exists lam : forall l, 'cV[F]_(il_rows l), (forall l i, List.In l ls -> inwards (il_cmp i) (lam l i 0)) /\ d = push tau ls q lam /\
   forall l, List.In l ls -> ijac tau l q *m d = - ierr tau l q.
Proof.
move=> Hd [lam [Hs Hp]]. exists lam; split=> //.
have Hx l : List.In l ls -> ijac tau l q *m push tau ls q lam = - ierr tau l q by move=> Hl; apply/ijac_err => i; apply: Hp.
have [Hj Hn] := solves Hd Hx. split=> //.
have E : dot (push tau ls q lam) d = norm2 (push tau ls q lam).
  by rewrite -dot_norm2 !dot_push; apply: sum_in => l Hl; rewrite Hx // Hj.
apply/eqP; rewrite -subr_eq0; apply/eqP; apply: norm2_eq0. rewrite norm2_sub dotC E mulr2n opprD addrA subrK subr_le0 //.
Qed.
Lemma closer_dot q d z : descends thr' (ats q) d -> agree tau ls q -> ifeasible tau ls z -> dot (q - z) d <= - norm2 d.
Proof.
move=> Hd Ha Hz. have [lam [Hs [Ed Hj]]] := direction_push Hd Ha.
have E : - norm2 d = \sum_(l <- ls) dot (lam l) (ierr tau l q).
  rewrite -dot_norm2 {1}Ed dot_push -mulN1r mulr_sumr; apply: sum_in => l Hl. rewrite Hj //.
  by rewrite /dot mulr_sumr; apply: eq_bigr => i _; rewrite [in LHS]mxE mulN1r mulrN opprK.
rewrite E dotC {1}Ed dot_push; apply: sum_in_le => l Hl. apply: ler_sum => i _. rewrite ijac_mul ierrE.
case: ifP => [T|_ //].
have -> : \sum_j il_A l i j * (q - z) j 0 = value q i - value z i.
  rewrite /value opprB [RHS]addrA subrK -sumrB; apply: eq_bigr => j _. by rewrite !mxE mulrBr.
have := Hz l i Hl; have := Hs l i Hl. rewrite /holds /inwards /lack. case: (il_cmp i) => [_ ->|_ ->|H0 H1|H0 H1]; rewrite ?subr0 //.
- by apply: ler_wpmul2l => //; rewrite ler_add2l ler_opp2.
- by apply: ler_wnmul2l => //; rewrite ler_add2l ler_oppr.
Qed.
Lemma closer q d z a : descends thr' (ats q) d -> agree tau ls q -> ifeasible tau ls z -> 0 <= a ->
  norm2 (q + a *: d - z) <= norm2 (q - z) - a * (2%:R - a) * norm2 d.
Proof.
move=> Hd Ha Hz a0. have H := closer_dot Hd Ha Hz.
rewrite addrAC norm2_add norm2_scale -(addrA (norm2 (q - z))) ler_add2l.
have -> : dot (q - z) (a *: d) = a * dot (q - z) d by rewrite /dot mulr_sumr; apply: eq_bigr => i _; rewrite [(a *: d) i 0]mxE mulrCA.
apply: (@le_trans _ _ ((a * - norm2 d) *+ 2 + a ^+ 2 * norm2 d)).
  by rewrite ler_add2r ler_muln2r; apply/orP; right; apply: ler_wpmul2l.
by rewrite mulrBr mulrBl opprB -expr2 mulrN mulNrn -mulrnAl mulr_natr addrC.
Qed.
Lemma residual_step q d L : istretch ls L -> descends thr' (ats q) d -> agree tau ls q -> nresidual [seq compared tau l | l <- ls] q <= L * norm2 d.
Proof.
move=> [L0 HL] Hd Ha. have [_ [_ [_ Hj]]] := direction_push Hd Ha.
change (fres [seq compared tau l | l <- ls] (fun l0 : nlevel F n => nl_err l0 q) <= L * norm2 d). apply/fresP; split; first by rewrite mulr_ge0 // norm2_ge0.
move=> l' c Hl Hc; have [l [E Hl']] := @in_map_inv _ _ _ _ _ Hl. rewrite {l' Hl}E /= in Hc *.
apply: le_trans (HL l d Hl'). rewrite /norm2 [X in _ <= X](bigID (fun i : 'I__ => (sumn (take c (il_sizes l)) <= i < sumn (take c.+1 (il_sizes l)))%N)) /=.
rewrite -[X in X <= _]addr0; apply: ler_add; last by apply: sumr_ge0 => i _; apply: sqr_ge0.
apply: ler_sum => i _. have E : (ijac tau l q *m d) i 0 = - ierr tau l q i 0 by rewrite Hj // mxE.
have -> : ierr tau l q i 0 = - (ijac tau l q *m d) i 0 by rewrite E opprK.
rewrite sqrrN ijac_mul. case: ifP => _; first by rewrite mxE. by rewrite expr0n sqr_ge0.
Qed.
End Rows.
