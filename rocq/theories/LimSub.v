(** Resolution by substitution under bounds. *)
From Coq Require Import Reals ZArith Lra Lia.
From mathcomp Require Import all_ssreflect all_algebra.
From Verif Require Import SolveModel LineModel SatModel DescentModel DescentSpec DescentProofs DescentMain RField RReal AffModel AffProofs AffMain NewtModel LimModel LimSpec LimScalar LimProofs LimMain.
Set Implicit Arguments. Unset Strict Implicit. Unset Printing Implicit Defensive.
Import Order.TTheory GRing.Theory Num.Theory.
Delimit Scope R_scope with coqR.
Open Scope ring_scope.

(** A property of all configurations that the line search and the explicit constraints leave. *)
Section Inv.
Context {Q D St V : Type}.
Variables (ltb : V -> V -> bool) (E : Q -> V) (descent : St -> Q -> D * St) (dnorm : D -> V) (dmin thr : V) (maxit rdim : Z).
Variables (C : Q -> V) (lsearch : St -> Q -> D -> option (Q * D * St)) (esolve : Q -> option Q).
Variables (quarter half dbl : V -> V) (below_half : V -> bool) (one zero : V) (dmul ddiv : D -> V -> D) (P : Q -> Prop).
Hypothesis Hs : forall s q d q1 d1 s2 q2, lsearch s q d = Some (q1, d1, s2) -> esolve q1 = Some q2 -> P q2.
Notation loop := (bloop ltb E descent dnorm dmin thr maxit C lsearch esolve quarter half dbl below_half dmul ddiv).
Definition all_in (b : @bst Q D St V) : Prop := P (b_arg b) /\ (forall x, b_qopt b = Some x -> P x) /\ (forall x, List.In x (b_past b) -> P x).
Lemma bloop_in opt fuel : forall st b st' b', all_in b -> loop opt fuel st b = Bend st' b' -> all_in b'.
Proof.
elim: fuel => [|fuel IH] st b st' b' H /=.
  by case: ifP => // _; [case: ifP => // _|]; case=> _ <-.
case: ifP => [_|_ [_ <-] //]; case: ifP => [_ [_ <-] //|_].
set X := (if b_only b then _ else _); case: X => [[[pv dq0] s1] nd]; case: pv => [pv|] //; case: dq0 => [dq0|] //.
case: ifP => [_ [_ <-] //|_].
case El: (lsearch _ _ _) => [[[a1 dq1] s2]|] //; case Ee: (esolve a1) => [a2|] //.
have Pa2 : P a2 by exact: Hs El Ee.
case: H => H1 [H2 H3].
have H4 x : List.In x (b_arg b :: b_past b) -> P x by case=> [<-|/H3].
have H5 x : List.In x (a2 :: b_arg b :: b_past b) -> P x by case=> [<-|/H4].
case: ifP => _; last by apply: IH; split=> //; split.
case: ifP => _.
  case: ifP => _; apply: IH; split=> //; split=> //= x [<-] //.
apply: IH; split=> /=; last by split.
by case Eq: (b_qopt b) => [x|] //; exact: H2.
Qed.
Lemma bsolve_in fuel s opt q q1 st q' b : esolve q = Some q1 -> P q1 ->
  bsolve ltb E descent dnorm dmin thr maxit rdim C lsearch esolve quarter half dbl below_half one zero dmul ddiv fuel s opt q = Done st q' b ->
  P q' /\ forall x, List.In x (b_past b) -> P x.
Proof.
move=> Eq Pq; rewrite /bsolve Eq; case: ifP => // _.
case El: (loop _ _ _ _) => [st1 b1| | |] //.
have [H1 [H2 H3]] : all_in b1.
  apply: bloop_in El; split=> //; split=> //= x; by case: ifP => // _ [<-].
case: ifP => _ [_ <- <-]; split=> //; first by case: ifP.
by case: ifP => // _; case Eo: (b_qopt b1) => [x|] //; exact: H2.
Qed.
End Inv.

Section Within.
Variables (F : realFieldType) (n p : nat) (lm : limits F n) (g : 'cV[F]_n -> option 'cV[F]_p) (St : Type).
Lemma bsolve_within (lsearch : St -> conf F n p -> 'cV[F]_n -> option (conf F n p * 'cV[F]_n * St))
    ltb (E C : conf F n p -> F) descent dnorm dmin thr maxit rdim quarter half dbl below_half one zero dmul ddiv :
  (forall s c d c' d' s', lsearch s c d = Some (c', d', s') -> exists x, c'.1 = lintegrate lm c.1 x) -> (forall i, lo lm i 0 <= hi lm i 0) ->
  forall fuel s opt c st c' b,
  bsolve ltb E descent dnorm dmin thr maxit rdim C lsearch (psolve g) quarter half dbl below_half one zero dmul ddiv fuel s opt c = Done st c' b ->
  forall v, v = c' \/ List.In v (b_past b) -> (v.1 = c.1 \/ within (lo lm) (hi lm) v.1) /\ g v.1 = Some v.2.
Proof.
move=> hs hl fuel s opt c st c' b H.
pose P (v : conf F n p) := (v.1 = c.1 \/ within (lo lm) (hi lm) v.1) /\ g v.1 = Some v.2.
case Ec: (psolve g c) => [c1|]; last by move: H; rewrite /bsolve Ec.
have Pc : P c1 by move: Ec; rewrite /psolve; case Eg: (g c.1) => [y|] // [<-]; split=> //=; left.
have [] := bsolve_in (P := P) _ Ec Pc H.
  move=> s0 q d q1 d1 s2 q2 /hs[x hx]; rewrite /psolve; case Eg: (g q1.1) => [y|] // [<-]; split=> //=; right; rewrite hx; exact: saturated_within.
by move=> H1 H2 v [->|/H2].
Qed.
End Within.

Section Searches.
Variables (n p : nat) (lm : limits FR n) (lmy : limits FR p) (g : 'cV[FR]_n -> 'cV[FR]_p).
Notation cnf := (conf FR n p).
Notation bint := (bintegrate lm lmy g).
Lemma bbacktracking_some St (res : cnf -> R) sl (s : St) (c : cnf) d : exists a : R, bls_backtracking lm lmy g res sl s c d = Some (bint c (a *: d), a *: d, s).
Proof.
rewrite /bls_backtracking /bt_step. case: Rlt_dec => _; first by eexists.
have step f (al : R) : (al <= 1)%coqR -> forall fuel, (2 / 10 * (10 / 7) ^ fuel >= al)%coqR ->
   match bt_loop bint (@vscale n) res fuel bt_new f (res c) c d al with
   | None => False | Some None => True | Some (Some (q', d')) => exists a : R, q' = bint c (a *: d) /\ d' = a *: d end.
  move=> H1 fuel; elim: fuel al H1 => [|fuel IH] al H1 H2 /=; case: Rlt_dec => //= H3; try (simpl in H2; lra).
  case: Rle_dec => _; first by exists al.
  apply: IH; [lra|]. simpl in H2. lra.
have := step (2 * bt_c bt_new * sl c d)%coqR 1%coqR (Rle_refl 1) 6%N.
case: (bt_loop _ _ _ _ _ _ _ _ _ _) => [[[q' d']|]|] H.
- case: H; first by simpl; lra. by move=> a [-> ->]; exists a.
- by eexists.
- by case: H; simpl; lra.
Qed.
Lemma bsearches St :
  (forall (s : St) c d, exists x d' s', bls_constant lm lmy g s c d = Some (bint c x, d', s')) /\
  (forall s c d, exists x d' s', bls_fixed lm lmy g s c d = Some (bint c x, d', s')) /\
  (forall res e thr (s : St) c d, exists x d' s', bls_error_norm lm lmy g res e thr s c d = Some (bint c x, d', s')) /\
  (forall res sl (s : St) c d, exists x d' s', bls_backtracking lm lmy g res sl s c d = Some (bint c x, d', s')) /\
  (forall c x, bint c x = (lintegrate lm c.1 x, g (lintegrate lm c.1 x))).
Proof.
split; first by move=> s c d; do 3 eexists. split; first by move=> s c d; rewrite /bls_fixed; do 3 eexists.
split; first by move=> res e thr s c d; do 3 eexists.
split=> // res sl s c d; have [a ->] := bbacktracking_some res sl s c d; by do 3 eexists.
Qed.
End Searches.

Section Loop.
Variables (n p : nat) (St : Type) (lm : limits FR n) (lmy : limits FR p) (G : 'M[FR]_(p, n)) (h : 'cV[FR]_p).
Variables (u : 'rV[FR]_n) (v : 'rV[FR]_p) (w dmin thr thr' : FR) (maxit rdim : Z).
Variable descent : St -> conf FR n p -> 'cV[FR]_n * St.
Notation inside := (within (lo lm) (hi lm)).
Notation a := (u + v *m G).
Definition rhs : FR := w - \sum_j v 0 j * h j 0.
Notation b := rhs.
Notation e := (LimProofs.e a b).
Notation gf := (fun x : 'cV[FR]_n => G *m x + h).
Notation cf x := ((x, gf x) : conf FR n p).
Notation lev := (row_blevel u v w).
Notation thr4 := (4%:R^-1 * thr).
Hypotheses (Hlh : forall i, lo lm i 0 < hi lm i 0) (Hd : 0 < dmin) (Ht : dmin * row_norm a <= thr4).
Hypothesis Desc : forall s x, inside x -> descends thr' [:: at_blim lm G lev (cf x)] (descent s (cf x)).1.
Notation ltb := (fun x y : FR => x < y).
Notation E := (bresidual [:: lev]).
Notation loop := (bloop ltb E descent (@sqn FR n) dmin thr maxit E (@bls_constant FR n p lm lmy St gf) (explicit_solve G h)
   (fun x => 4%:R^-1 * x) (fun x => x / 2%:R) (fun x => x * 2%:R) (fun x => x < 2%:R^-1) (fun d x => x *: d) (fun d x => x^-1 *: d)).

Lemma berrE x : berr lev (cf x) = const_mx (e x) :> 'cV[FR]_1.
Proof.
have A : \sum_i a 0 i * x i 0 = \sum_i u 0 i * x i 0 + \sum_i v 0 i * (G *m x) i 0.
  have -> : \sum_j v 0 j * (G *m x) j 0 = \sum_j (v *m G) 0 j * x j 0.
    by have /matrixP/(_ 0 0) := mulmxA v G x; rewrite [LHS]mxE [RHS]mxE.
  by rewrite -big_split; apply: eq_bigr => k _; rewrite [a 0 k]mxE mulrDl.
have B : \sum_j v 0 j * (G *m x + h) j 0 = \sum_i v 0 i * (G *m x) i 0 + \sum_j v 0 j * h j 0.
  by rewrite -big_split; apply: eq_bigr => k _; rewrite [(G *m x + h) k 0]mxE mulrDr.
apply/matrixP => i j; rewrite !ord1 [RHS]mxE /LimProofs.e A /rhs opprB.
have -> : berr lev (cf x) 0 0 = \sum_i u 0 i * x i 0 + \sum_j v 0 j * (G *m x + h) j 0 - w.
  by rewrite /berr /= [LHS]mxE; congr (_ + _); [rewrite [LHS]mxE; congr (_ + _); exact: mxE|rewrite !mxE].
by rewrite B -!addrA.
Qed.
Lemma bresE x : E (cf x) = e x ^+ 2.
Proof. by rewrite /bresidual /= berrE /seg_norm big_mkcond /= big_ord_recl big_ord0 /= addr0 mxE max_r //; exact: sqr_ge0. Qed.
Lemma bdesc s x : inside x -> (descent s (cf x)).1 = step lm a b x.
Proof.
move=> hx; apply: (@stepE _ lm a b thr'); have := Desc s hx; congr (descends _ [:: _] _).
by rewrite /at_blim /at_lim /at_c /at_n /= berrE errE.
Qed.
Lemma thr4_ge0 : 0 <= thr4. Proof. exact: thr_ge0 Hd Ht. Qed.
Lemma loop_out fuel st bb : b_above bb = false -> loop false fuel st bb = Bend st bb.
Proof. by move=> k; case: fuel => [|fuel] /=; rewrite k. Qed.
Notation mk s x sn pv dq ed it ab ct sc nd past := (@mkb (conf FR n p) 'cV[FR]_n St FR s (cf x) sn pv dq ed it ab ct sc false None nd past).
Lemma bloop_runs m : forall fuel s x pv dq it ct sc nd past, inside x -> (#|free_of lm a b x| <= m)%N -> (m < fuel)%N -> Z.lt (Z.add it (Z.of_nat m)) maxit ->
  exists st' b' x', loop false fuel SUCCESS (mk s x (e x ^+ 2) pv dq (Zpos 3) it (thr4 < e x ^+ 2) ct sc nd past) = Bend st' b' /\
    b_arg b' = cf x' /\ b_sn b' = e x' ^+ 2 /\ inside x' /\ Z.le (b_iter b') (Z.add it (Z.of_nat m)) /\
    ((st' = SUCCESS /\ e x' ^+ 2 <= thr4) \/ (st' = INFEASIBLE /\ thr4 < e x' ^+ 2 /\ forall y, inside y -> e x' ^+ 2 <= e y ^+ 2)).
Proof.
elim: m => [|m IH] fuel s x pv dq it ct sc nd past hx hm hf hi.
all: case: (lerP (e x ^+ 2) thr4) => c; first by
  (exists SUCCESS; eexists; exists x; split; [case: fuel hf => //= fuel _; reflexivity|];
   do 3 (split; [by []|]); split; [cbn [b_iter]; lia|by left]).
all: have e0 : e x != 0 by (apply: contraTneq c => ->; rewrite expr0n /= -leNgt; exact: thr4_ge0).
all: case: fuel hf => // fuel hf; rewrite /=.
all: have -> : (maxit <=? it)%Z = false by (apply/Z.leb_gt; lia).
all: case Ed: (descent s (cf x)) => [d s1].
all: have dE : d = step lm a b x by (have := bdesc s hx; rewrite Ed).
all: have [c0|c0] := eqVneq (cn lm a b x) 0.
1,3: have [d0 best] := step_zero hx c0.
1,2: rewrite dE d0 sqn0 Hd; exists INFEASIBLE; eexists; exists x; split; [reflexivity|];
   do 3 (split; [by []|]); split; [cbn [b_iter]; lia|by right].
  exfalso; move/eqP: c0; apply; rewrite /cn big1 // => i _.
  have : ca lm a b x i == R0 by apply: contraT => k; move: hm; rewrite leqn0 cards_eq0 => /eqP/setP/(_ i); rewrite !inE k.
  by move=> /eqP ->; rewrite expr2; exact: mul0r.
rewrite ltNge dE (long_step Hd Ht) //=.
set x' := lintegrate lm x (step lm a b x); rewrite bresE.
have lt : e x' ^+ 2 < e x ^+ 2 by exact: e'_sq.
have hx' : inside x' by exact: inside'.
rewrite lt.
have [z|z] := eqVneq (e x') 0.
  exists SUCCESS; eexists; exists x'; split.
    by apply: loop_out; rewrite /= z expr0n; apply/negbTE; rewrite -leNgt; exact: thr4_ge0.
  rewrite z expr0n /=; do 3 (split; [by []|]); split; [lia|left; split=> //; exact: thr4_ge0].
have hm' : (#|free_of lm a b x'| <= m)%N by rewrite -ltnS; apply: leq_trans hm; exact: fewer.
have hi' : Z.lt (Z.add (Z.add it (Zpos 1)) (Z.of_nat m)) maxit by lia.
have [st' [b' [x2 [h1 [h2 [h3 [h4 [h5 h6]]]]]]]] := IH fuel s1 x' (Some (e x ^+ 2)) (Some (step lm a b x)) (Z.add it (Zpos 1)) ct sc (Z.add nd (Zpos 1)) (cf x :: past) hx' hm' hf hi'.
exists st', b', x2; do 4 (split; [by []|]); split; last by [].
by apply: Z.le_trans h5 _; rewrite Zpos_P_of_succ_nat; lia.
Qed.
Lemma bloop_ends k : forall fuel s x pv dq ed it ct sc nd past st, inside x -> (k <= fuel)%N -> Z.le maxit (Z.add it (Z.of_nat k)) ->
  exists st' b' x', loop false fuel st (mk s x (e x ^+ 2) pv dq ed it (thr4 < e x ^+ 2) ct sc nd past) = Bend st' b' /\
    b_arg b' = cf x' /\ b_sn b' = e x' ^+ 2 /\ inside x'.
Proof.
elim: k => [|k IH] fuel s x pv dq ed it ct sc nd past st hx hf hi.
  have H : (maxit <=? it)%Z by apply/Z.leb_le; lia.
  by case: fuel hf => [|fuel] _ /=; rewrite H; case: ifP => _; do 2 eexists; exists x; split; try reflexivity.
case: fuel hf => // fuel hf /=; case: ifP => _; last by do 2 eexists; exists x; split; try reflexivity.
case: ifP => _; first by do 2 eexists; exists x; split; try reflexivity.
case Ed: (descent s (cf x)) => [d s1]; case: ifP => _; first by do 2 eexists; exists x; split; try reflexivity.
rewrite /= bresE; apply: IH => //; last by lia.
by apply: saturated_within => i; exact: ltW.
Qed.
Lemma errorE x : pair_error u v w (cf x) = e x ^+ 2.
Proof.
rewrite -bresE /bresidual /= /seg_norm big_mkcond /= big_ord_recl big_ord0 /= addr0 max_r; last exact: sqr_ge0.
rewrite /pair_error; congr (_ ^+ 2).
by rewrite /berr /= [RHS]mxE; congr (_ + _); [rewrite [RHS]mxE; congr (_ + _); rewrite mxE|rewrite !mxE].
Qed.
Lemma bone_row fuel s c : inside c.1 -> rdim <> Z0 -> Z.lt (Z.of_nat n) maxit -> (n.+1 < fuel)%N -> 0 < thr ->
  exists st x b, absolve [:: lev] G h descent (@bls_constant FR n p lm lmy St gf) dmin thr maxit rdim fuel s c = Done st (cf x) b /\ inside x /\
    (st = SUCCESS <-> pair_error u v w (cf c.1) < thr \/ exists z, inside z /\ pair_error u v w (cf z) <= thr4) /\
    (st = SUCCESS -> pair_error u v w (cf x) < thr) /\
    (st <> SUCCESS -> st = INFEASIBLE /\ forall z, inside z -> pair_error u v w (cf x) <= pair_error u v w (cf z)) /\
    (thr <= pair_error u v w (cf c.1) -> Z.le (b_iter b) (Z.of_nat n) /\ (st = SUCCESS -> pair_error u v w (cf x) <= thr4)).
Proof.
case: c => x0 y0 /= hx hr hi hf ht; rewrite /absolve /bsolve /= bresE.
have -> : (rdim =? 0)%Z = false by apply/Z.eqb_neq.
have t4 : thr4 < thr by rewrite gtr_pmull // invf_lt1 ?ltr0n // -[X in X < _]/(1%:R) ltr_nat.
rewrite andbF errorE /binit bresE /=.
case: (ltrP (e x0 ^+ 2) thr) => c.
  have [||st' [b' [x1 [-> [h1 [h2 h3]]]]]] := @bloop_ends 2 fuel s x0 None None (Zpos 3) (Z.sub (Z.max maxit 2) 2) 0 1 Z0 [::] SUCCESS hx.
  - by apply: leq_trans hf.
  - by lia.
  rewrite /= h2; case: ifP => k.
    exists SUCCESS, x0, b'; split=> //; split=> //; split; first by split=> // _; left.
    by split; [rewrite errorE|split=> // /(lt_le_trans c); rewrite ltxx].
  exists SUCCESS, x1, b'; split; first by rewrite h1. split=> //; split; first by split=> // _; left.
  split; last by split=> // /(lt_le_trans c); rewrite ltxx.
  by move=> _; rewrite errorE; apply: le_lt_trans c; rewrite leNgt k.
have hm : (#|free_of lm a b x0| <= n)%N by rewrite -[X in (_ <= X)%N]card_ord; exact: max_card.
have [st' [b' [x1 [-> [h1 [h2 [h3 [h4 h5]]]]]]]] := @bloop_runs n fuel s x0 None None Z0 0 1 Z0 [::] hx hm (ltnW hf) hi.
rewrite /= h1; exists st', x1, b'; split=> //; split=> //.
case: h5 => [[-> h5]|[-> [h5 h6]]].
  split; first by split=> // _; right; exists x1; rewrite errorE.
  split; first by rewrite errorE (le_lt_trans h5 t4).
  by split=> // _; split=> //; rewrite errorE.
split; first by split=> // -[//|[z [hz]]]; rewrite errorE => /(le_trans (h6 z hz)); rewrite leNgt h5.
split=> //; split; last by [].
by move=> _; split=> // z hz; rewrite !errorE; exact: h6.
Qed.
End Loop.
