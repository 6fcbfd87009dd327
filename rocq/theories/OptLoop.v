From Coq Require Import ZArith Lia.
From mathcomp Require Import all_ssreflect all_algebra.
From Verif Require Import SolveModel DescentModel DescentSpec DescentProofs DescentMain AffModel AffSpec AffProofs AffMain AffBySub NewtModel OptModel OptSpec OptMain.
Set Implicit Arguments. Unset Strict Implicit. Unset Printing Implicit Defensive.
Import Order.TTheory GRing.Theory Num.Theory.
Open Scope ring_scope.

Local Arguments Z.leb : simpl never.
Section Affine.
Variables (F : realFieldType) (n p : nat) (St : Type) (req : seq (blevel F n p)) (o : blevel F n p) (G : 'M[F]_(p, n)) (h : 'cV[F]_p).
Variables (I : St -> Prop) (m L dmin thr thr' : F) (maxit rdim : Z).
Variables (descent : St -> conf F n p -> 'cV[F]_n * St) (lsearch : St -> conf F n p -> 'cV[F]_n -> option (conf F n p * 'cV[F]_n * St)).
Definition go (x : 'cV[F]_n) : conf F n p := (x, G *m x + h).
Notation E := (bresidual req).
Notation C := (fun c => sqn (berr o c)).
Notation sol := (aosolve req o G h descent lsearch dmin thr maxit rdim).
Hypothesis Feas : exists c, bsolution G h req c.
Hypothesis Desc : forall s c, computed G h c -> descends thr' [seq at_c G l c | l <- req ++ [:: o]] (descent s c).1.
Hypothesis Mv : bmoves_by G h I m descent lsearch.
Hypothesis thr0 : 0 <= thr.
Hypothesis Hr : rdim <> Z0.
Notation bstate := (@bst (conf F n p) 'cV[F]_n St F).
Notation Bl := (bloop (fun a b : F => a < b) E descent (@sqn F n) dmin thr maxit C lsearch (nesolve (fun x => G *m x + h))
    (fun x => 4%:R^-1 * x) (fun x => x / 2%:R) (fun x => x * 2%:R) (fun x => x < 2%:R^-1) (fun d x => x *: d) (fun d x => x^-1 *: d) true).
Lemma Edead c : bsolution G h req c -> (4%:R^-1 * thr < E c) = false.
Proof.
move=> [Hc H]. apply/negP/negP; rewrite -leNgt. rewrite (bres_red _ Hc). apply: (@le_trans _ _ 0); last by rewrite mulr_ge0 // invr_ge0 ler0n.
apply: residual_le => // l Hl. have [l' [-> Hl']] := @in_map_inv _ _ _ _ _ Hl.
by rewrite -berr_red // /berr H // subrr -sqn_norm2 sqn0.
Qed.
Lemma not_half1 : ((1 : F) < 2%:R^-1) = false.
Proof. by apply/negP/negP; rewrite -leNgt invf_le1 ?ler1n ?ltr0n. Qed.

(** full steps *)
Section Full.
Hypothesis m1 : m = 1.
Hypothesis Rows : exists l t, req ++ [:: o] = l :: t /\ bl_rows l <> 0%N.
Hypothesis D0 : 0 < dmin.
Lemma least_at s c : computed G h c -> least_norm (lex [seq prob1 l | l <- [seq at_q l c.1 | l <- [seq red G h l | l <- req] ++ [:: red G h o]]]) (descent s c).1.
Proof.
move=> Hc. apply: (descends_least (desc_red Desc s Hc)). have [l [t [El Hl]]] := Rows.
have -> : [seq red G h l | l <- req] ++ [seq red G h l | l <- [:: o]] = [seq red G h l | l <- req ++ [:: o]] by rewrite map_cat.
by rewrite El /=; do 2 eexists.
Qed.
Lemma back_least c' : optimum G h req o c' -> least_violation ([seq red G h l | l <- req] ++ [:: red G h o]) c'.1.
Proof.
move=> [[Hc Hs] Hm]. rewrite /least_violation /lex map_cat seq.foldl_cat /=. split.
- apply: foldl_zero_in => // pb Hb. have [l1 [-> H1]] := @in_map_inv _ _ _ _ _ Hb. have [l2 [-> H2]] := @in_map_inv _ _ _ _ _ H1.
  rewrite /cost /= -/(aerr (red G h l2) c'.1) -berr_red // /berr Hs // subrr -sqn_norm2 sqn0 //.
- move=> y Hy. have Sy : bsolution G h req (go y).
    apply/sol_red. have [z Hz] := feas_red Feas. move=> l Hl. have : cost (violation l) y = 0.
      apply: (@foldl_zero _ _ _ (fun _ => True) z Logic.I _ y Hy); last exact: in_map.
      by move=> pb Hb; have [l1 [-> H1]] := @in_map_inv _ _ _ _ _ Hb; rewrite /cost /= (Hz _ H1) subrr -sqn_norm2 sqn0.
    rewrite /cost -sqn_norm2 => /sqn_eq0 /eqP. by rewrite subr_eq0 => /eqP.
  have := Hm _ Sy. rewrite !(berr_red (G := G) (h := h)) //.
Qed.
Lemma full_solve s c0 fuel : I s -> (Z.to_nat maxit <= fuel)%N -> Z.lt (Zpos 1) maxit ->
  let c1 := go c0.1 in let d := (descent s c1).1 in let c2 := go (c0.1 + d) in
  optimum G h req o c2 /\ (forall c', optimum G h req o c' -> norm2 (c2.1 - c1.1) <= norm2 (c'.1 - c1.1)) /\
  exists b, sol fuel s c0 = Done INFEASIBLE (if norm2 d < dmin then c1 else if (4%:R^-1 * thr < E c1) || (norm2 (berr o c2) < norm2 (berr o c1)) then c2 else c1) b.
Proof.
move=> Is /ssrnat.leP Hf Hm c1 d c2. have C1 : computed G h c1 by []. have C2 : computed G h c2 by [].
have O2 : optimum G h req o c2 by have := step_opt Feas Desc s C1.
split=> //; split.
  move=> c' Oc'. rewrite /c2 /c1 /= addrAC subrr add0r. have [_] := least_at s C1. apply. apply/lex_shift.
  by rewrite addrCA subrr addr0; apply: back_least.
rewrite /aosolve /osolve /bsolve /= -/(go c0.1) -/c1.
have -> : (4%:R^-1 * thr < E c1) && Z.eqb rdim Z0 = false by rewrite andbC; case: Z.eqb_spec.
rewrite /binit andbF. case: fuel Hf => [|[|fuel]] Hf; try lia. rewrite /=.
have -> : Z.leb maxit Z0 = false by apply/Z.leb_gt; lia.
have [a [d' [s1 [s2 [y [E1 [E2 [/andP[A1 A2] I2]]]]]]]] := Mv Is C1.
have Ed : d' = d by rewrite /d E1. rewrite Ed in E1 E2. rewrite E1 scale1r -sqn_norm2.
case Sm : (sqn d < dmin).
  by case: (4%:R^-1 * thr < E c1); eexists; reflexivity.
have Ea : a = 1 by apply: le_anti; rewrite A2 -m1 A1. rewrite Ea !scale1r in E2. rewrite E2 /= -/(go (c0.1 + d)) -/c2.
have [[_ S2] _] := O2. have AbF : (4%:R^-1 * thr < E c2) = false by apply: Edead; case: O2.
rewrite AbF /=. have -> : Z.leb maxit (Zpos 1) = false by apply/Z.leb_gt; lia.
have Next s' : sqn (descent s' c2).1 < dmin.
  have [_ Hmin] := least_at s' C2. rewrite sqn_norm2. apply: le_lt_trans (Hmin 0 _) _; last by rewrite -sqn_norm2 sqn0.
  by apply/lex_shift; rewrite addr0; apply: back_least.
rewrite -!sqn_norm2. case Lt : (sqn (berr o c2) < sqn (berr o c1)) => /=; rewrite ?not_half1.
- case E3 : (descent s2 c2) => [d2 s3]. have := Next s2. rewrite E3 /= scale1r => ->. by rewrite orbT; eexists; reflexivity.
- case E3 : (descent s2 c2) => [d2 s3]. have := Next s2. rewrite E3 /= scale1r => ->. by rewrite orbF; case: (4%:R^-1 * thr < E c1); eexists; reflexivity.
Qed.
End Full.

(** any steps from a solution of the required levels *)
Section Steps.
Hypothesis m0 : 0 <= m.
Variable cs : conf F n p.
Hypothesis Cs : optimum G h req o cs.
Variable c1 : conf F n p.
Notation cost c := (norm2 (berr o c)).
Definition sinv (b : bstate) : Prop := exists k q, bsolution G h req (b_arg b) /\ b_only b = false /\ b_scal b = 1 /\ b_iter b = Z.of_nat k /\
  b_qopt b = Some q /\ bsolution G h req q /\ b_cost b = cost q /\ cost q <= cost c1 /\ cost q <= cost (b_arg b) /\
  cost q - cost cs <= (1 - m) ^+ (2 * k) * (cost c1 - cost cs) /\ cost (b_arg b) - cost cs <= (1 - m) ^+ (2 * k) * (cost c1 - cost cs).
Lemma sol_computed c : bsolution G h req c -> computed G h c. Proof. by case. Qed.
Lemma same_cost c : optimum G h req o c -> cost c = cost cs.
Proof. move=> [S H]. have [S' H'] := Cs. by apply: le_anti; rewrite H // H'. Qed.
Lemma steps_loop : bstretch G [:: o] L -> forall fuel st (b : bstate), sinv b -> I (b_s b) -> (Z.to_nat (Z.sub maxit (b_iter b)) <= fuel)%coq_nat ->
  exists st' b' q, Bl fuel st b = Bend st' b' /\ sinv b' /\ b_qopt b' = Some q /\
    (st' = MAX_ITERATION_REACHED /\ Z.le maxit (b_iter b') \/ st' = INFEASIBLE /\ cost q - cost cs <= L * dmin).
Proof.
move=> Str; have [L0 _] := Str. elim=> [|fuel IH] st b Hb Is Hf.
- rewrite /=. have -> : Z.leb maxit (b_iter b) by apply/Z.leb_le; lia.
  have [k [q [_ [_ [_ [_ [Hq _]]]]]]] := Hb. do 2 eexists; exists q; split; first reflexivity. do 2! split=> //. by left; split=> //; lia.
- have Hb' := Hb. have [k [q [Sa [Ho [Hs [Hi [Hq [Sq [Hc [Hq1 [Hqa [G1 G2]]]]]]]]]]]] := Hb'. rewrite /=. case Em : (Z.leb maxit (b_iter b)).
    do 2 eexists; exists q; split; first reflexivity. do 2! split=> //. by left; split=> //; apply/Z.leb_le.
  have Ca := sol_computed Sa. have [a [d [s1 [s2 [y [E1 [E2 [/andP[A1 A2] I2]]]]]]]] := Mv Is Ca.
  have Ed : d = (descent (b_s b) (b_arg b)).1 by rewrite E1.
  have Op : optimum G h req o (go ((b_arg b).1 + d)) by rewrite Ed; exact: (step_opt Feas Desc (b_s b) Ca).
  rewrite Ho E1 Hs scale1r. case Sm : (sqn d < dmin).
    do 2 eexists; exists q; split; first reflexivity. split; last split=> //.
      exists k, q. by do 10! (split; first by []).
    right; split=> //. apply: (@le_trans _ _ (cost (b_arg b) - cost cs)); first by rewrite ler_add2r.
    rewrite -(same_cost Op) Ed. apply: le_trans (gap_le Feas Desc (b_s b) Ca Sa Str) _. apply: ler_wpmul2l => //. by rewrite -Ed -sqn_norm2 ltW.
  rewrite E2 /= -/(go ((b_arg b).1 + a *: d)). set c' := go _.
  have Sc : bsolution G h req c' by rewrite /c' Ed; exact: (stays Feas Desc (b_s b) Ca Sa).
  rewrite (Edead Sc) /= !sqn_norm2 Hc not_half1.
  have Gap : cost c' - cost cs <= (1 - m) ^+ (2 * k.+1) * (cost c1 - cost cs).
    have := gap Feas Desc (b_s b) Ca Sa a. rewrite -Ed -/(go (_ + a *: d)) -/c' -/(go (_ + d)) (same_cost Op) => ->.
    have W0 : 0 <= cost (b_arg b) - cost cs by rewrite subr_ge0; have [_ H] := Cs; apply: H.
    rewrite mulnS exprD -mulrA; apply: ler_pmul => //; first exact: sqr_ge0.
    rewrite ler_sqr ?nnegrE ?subr_ge0 ?ler_add2l ?ler_opp2 //. exact: le_trans A1 A2.
  case: ifP => Lt; apply: IH => //=; try (move/Z.leb_gt: Em; lia).
  + exists k.+1, c'; do 3! (split; first by []). split; first by rewrite [b_iter _]/= Hi; lia. do 3! (split; first by []).
    split; first by apply: le_trans (ltW Lt) _. by split.
  + exists k.+1, q; do 3! (split; first by []). split; first by rewrite [b_iter _]/= Hi; lia. have Le : cost q <= cost c' by rewrite leNgt Lt.
    do 5! (split; first by []).
    split=> //. apply: le_trans Gap. by rewrite ler_add2r.
Qed.
End Steps.
Lemma steps_solve s c0 fuel cs : 0 <= m -> bstretch G [:: o] L -> I s -> (Z.to_nat maxit <= fuel)%N -> optimum G h req o cs ->
  let c1 := go c0.1 in bsolution G h req c1 ->
  exists st c b, sol fuel s c0 = Done st c b /\ bsolution G h req c /\ norm2 (berr o c) <= norm2 (berr o c1) /\
    (st = MAX_ITERATION_REACHED /\ norm2 (berr o c) - norm2 (berr o cs) <= (1 - m) ^+ (2 * Z.to_nat maxit) * (norm2 (berr o c1) - norm2 (berr o cs)) \/
     st = INFEASIBLE /\ norm2 (berr o c) - norm2 (berr o cs) <= L * dmin).
Proof.
move=> m0 Str Is /ssrnat.leP Hf Cs c1 S1. rewrite /aosolve /osolve /bsolve /= -/(go c0.1) -/c1 (Edead S1) /=.
set b0 := binit _ _ _ _ _ _ _ _ _ _ _.
have Hb0 : sinv cs c1 b0.
  exists 0%N, c1; rewrite /b0 /binit andbF /= (Edead S1) sqn_norm2. rewrite muln0 expr0 mul1r !lexx. by do 10! split=> //.
have [|st [b [q [-> [[k [q' [_ [_ [_ [Hi [Hq [Sq [_ [Hq1 [_ [G1 _]]]]]]]]]]]] [Hq' H]]]]]] := @steps_loop cs Cs c1 Str fuel SUCCESS b0 Hb0 Is.
  have Ei : b_iter b0 = Z0 by rewrite /b0 /binit /= andbF.
  rewrite Ei; lia.
rewrite Hq. rewrite Hq in Hq'; case: Hq' => Eq. rewrite -Eq in H. exists st, q', b; do 3! split=> //.
case: H => [[-> Hmax]|]; last by right. left; split=> //. apply: le_trans G1 _. rewrite Hi in Hmax.
have W0 : 0 <= norm2 (berr o c1) - norm2 (berr o cs) by rewrite subr_ge0; have [_ H] := Cs; apply: H.
apply: ler_wpmul2r => //. have [a [d [s1 [s2 [y [_ [_ [/andP[A1 A2] _]]]]]]]] := Mv Is (sol_computed S1).
apply: ler_wiexpn2l; rewrite ?subr_ge0 ?(le_trans A1 A2) // ?ler_subl_addr ?ler_addl //. by rewrite leq_mul2l; apply/ssrnat.leP; lia.
Qed.
End Affine.

Lemma full_step (F : realFieldType) n p St (req : seq (blevel F n p)) (o : blevel F n p) (G : 'M[F]_(p, n)) (h : 'cV[F]_p) (I : St -> Prop)
    dmin thr thr' maxit rdim descent lsearch :
  (exists c, bsolution G h req c) ->
  (forall s c, computed G h c -> descends thr' [seq at_c G l c | l <- req ++ [:: o]] (descent s c).1) ->
  bmoves_by G h I 1 descent lsearch -> 0 <= thr -> rdim <> Z0 -> (exists l t, req ++ [:: o] = l :: t /\ bl_rows l <> 0%N) -> 0 < dmin ->
  forall s c0 fuel, I s -> (Z.to_nat maxit <= fuel)%N -> Z.lt (Zpos 1) maxit ->
  let c1 := go G h c0.1 in let d := (descent s c1).1 in let c2 := go G h (c0.1 + d) in
  optimum G h req o c2 /\ (forall c', optimum G h req o c' -> norm2 (c2.1 - c1.1) <= norm2 (c'.1 - c1.1)) /\
  exists b, aosolve req o G h descent lsearch dmin thr maxit rdim fuel s c0 = Done INFEASIBLE
    (if norm2 d < dmin then c1 else if (4%:R^-1 * thr < bresidual req c1) || (norm2 (berr o c2) < norm2 (berr o c1)) then c2 else c1) b.
Proof. by move=> H1 H2 H3 H4 H5 H6 H7; exact: (full_solve H1 H2 H3 H4 H5 erefl H6 H7). Qed.
