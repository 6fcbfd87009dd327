From Coq Require Import ZArith Lia.
From mathcomp Require Import all_ssreflect all_algebra.
From Verif Require Import SolveModel SolveSpec SolveProofs DescentModel DescentSpec DescentProofs DescentMain AffModel AffSpec AffProofs.
Set Implicit Arguments. Unset Strict Implicit. Unset Printing Implicit Defensive.
Import Order.TTheory GRing.Theory Num.Theory.
Open Scope ring_scope.

Section Lex.
Variables (F : realFieldType) (n : nat).
Lemma foldl_zero_in (ps : seq (problem F n)) : forall (A : 'cV[F]_n -> Prop) x, A x -> (forall p, List.In p ps -> cost p x = 0) -> foldl (@best F n) A ps x.
Proof.
elim: ps => [|p ps IH] A x Ax H //=; apply: IH; last by move=> p' Hp; apply: H; right.
by split=> // y _; rewrite (H p (or_introl _ erefl)); apply: cost_ge0.
Qed.
Lemma foldl_shift (q : 'cV[F]_n) (ls : seq (alevel F n)) : forall A B : 'cV[F]_n -> Prop, (forall x, A x <-> B (q + x)) ->
  forall x, foldl (@best F n) A [seq prob1 l | l <- [seq at_q l q | l <- ls]] x <-> foldl (@best F n) B [seq violation l | l <- ls] (q + x).
Proof.
elim: ls => [|l ls IH] A B H x //=; apply: IH => {}x.
have C y : cost (prob1 (at_q l q)) y = cost (violation l) (q + y).
  by rewrite /cost /= /aerr mulmxDr addrA [_ + al_A l *m q]addrC.
split=> -[Hx Hy].
- split; first by apply/H. move=> y By. have := Hy (y - q); rewrite !C addrCA subrr addr0; apply. by apply/H; rewrite addrCA subrr addr0.
- by split; [apply/H|move=> y Ay; rewrite !C; apply: Hy; apply/H].
Qed.
Lemma lex_shift (q : 'cV[F]_n) (ls : seq (alevel F n)) x : lex [seq prob1 l | l <- [seq at_q l q | l <- ls]] x <-> least_violation ls (q + x).
Proof. exact: foldl_shift. Qed.
Lemma descends_least thr (ls : seq (level F n)) r : descends thr ls r -> (exists l t, ls = l :: t /\ rows l <> 0%N) ->
  least_norm (lex [seq prob1 l | l <- ls]) r.
Proof.
case=> [l D mr -> -> _|lms stale mrs ok -> H [l [t [E Hl]]]]; first exact: single.
rewrite -map_comp; apply: minimal_norm' H _; left. case: lms E => [|[l' mr] lms] //= [E1 _].
by exists l', mr, lms; split=> //; rewrite E1.
Qed.
End Lex.

Section One.
Variables (F : realFieldType) (n : nat) (St : Type) (req opt : seq (alevel F n)) (I : St -> Prop) (L dmin thr thr' inf : F) (maxit rdim : Z).
Variables (descent : St -> 'cV[F]_n -> 'cV[F]_n * St) (lsearch : St -> 'cV[F]_n -> 'cV[F]_n -> 'cV[F]_n * 'cV[F]_n * St).
Hypothesis Desc : forall s q, descends thr' [seq at_q l q | l <- req ++ opt] (descent s q).1.
Hypothesis Mv : moves_by (@along F n) (fun a d => a *: d) I 1 descent lsearch.
Variables (s : St) (q : 'cV[F]_n).
Hypothesis Is : I s.
Notation it := (iterate descent lsearch).
Let d := (descent s q).1.
Lemma first_step : (it 1 (s, q)).2 = q + d /\ I (it 1 (s, q)).1.
Proof.
rewrite /= /next /d /=; have [a [d' [s1 [s2 [E1 [E2 [/andP[H1 H2] I2]]]]]]] := Mv q Is.
have -> : descent s q = (d', s1) by []. have Ea : a = 1 by apply: le_anti; rewrite H2 H1. by rewrite E2 /= /along Ea scale1r.
Qed.
Lemma one_step fuel : feasible req -> stretch req L -> L * dmin <= thr -> 0 <= thr -> (Z.to_nat maxit <= fuel)%N -> rdim <> Z0 -> (Z.lt Z0 maxit) ->
  thr < aresidual req q ->
  asolve req descent lsearch dmin thr inf maxit rdim fuel s q = Some (Some SUCCESS, q + d, [:: q], Z.of_nat 1) /\
  solution req (q + d) /\
  (opt = [::] -> (exists l t, req = l :: t /\ al_rows l <> 0%N) -> closest (solution req) q (q + d)).
Proof.
move=> Fe Str Sc T0 Hf Hr Hm Ha.
have M0 : (1 - 1) ^+ (2 * Z.to_nat maxit) * aresidual req q <= thr.
  rewrite subrr expr0n. have -> : ((2 * Z.to_nat maxit)%N == 0%N) = false by rewrite muln_eq0 /=; apply/eqP; lia.
  by rewrite mul0r.
have [k [E [Hk [Hle [Hfirst [c [Hc Herr]]]]]]] :=
  @affine_success F n St req opt I 1 L dmin thr thr' inf maxit rdim descent lsearch Fe Desc Mv (s, q) Is ltr01 Str Sc fuel Hf Hr M0.
have [F1 F2] := first_step.
have Sol : solution req (q + d).
  move=> l Hl. rewrite mulmxDr /d (descends_zero (Desc s q) Fe Hl) /aerr opprB addrCA subrr addr0 //.
have R1 : aresidual req (q + d) <= thr.
  apply: le_trans T0. apply: residual_le => // l Hl. by rewrite /aerr Sol // subrr -sqn_norm2 sqn0.
have Ek : k = 1%N.
  case: k E Hk Hle Hfirst {Hc Herr} => [|[|k]] // E Hk Hle Hfirst.
    by move: Ha; rewrite ltNge Hle.
  have := Hfirst 1%N isT. by rewrite F1 ltNge R1.
move: E; rewrite Ek F1 /= => E. split; [exact: E|split=> //].
move=> E0 [l [t [Er Hl]]]. split=> // y Hy. rewrite addrAC subrr add0r.
have [_ Hmin] : least_norm (lex [seq prob1 l | l <- [seq at_q l q | l <- req ++ opt]]) d.
  apply: descends_least (Desc s q) _. by rewrite Er /=; do 2 eexists.
apply: Hmin. rewrite E0 cats0. apply: foldl_zero_in => // p' Hp.
have [l1 [E1 H1]] := @in_map_inv _ _ _ _ _ Hp; have [l2 [E2 H2]] := @in_map_inv _ _ _ _ _ H1.
by rewrite E1 E2 /cost /= /aerr mulmxBr (Hy _ H2) addrA subrK subrr -sqn_norm2 sqn0.
Qed.
Lemma infeasible fuel : (exists l t, req ++ opt = l :: t /\ al_rows l <> 0%N) -> (Z.to_nat maxit <= fuel)%N -> (Z.lt (Z.of_nat 1) maxit) -> 0 < dmin ->
  thr < aresidual req q -> thr < aresidual req (q + d) ->
  least_violation (req ++ opt) (q + d) /\
  (asolve req descent lsearch dmin thr inf maxit rdim fuel s q = Some (Some INFEASIBLE, q + d, [:: q], Z.of_nat 1) \/
   asolve req descent lsearch dmin thr inf maxit rdim fuel s q = Some (Some INFEASIBLE, q, [::], Z0) /\ (rdim = Z0 \/ norm2 d < dmin)).
Proof.
move=> [l [t [El Hl]]] /ssrnat.leP Hf Hm D0 A0 A1.
have Ex q' : exists l' t', [seq at_q l q' | l <- req ++ opt] = l' :: t' /\ rows l' <> 0%N by rewrite El /=; do 2 eexists.
have Lv : least_violation (req ++ opt) (q + d) by apply/lex_shift; have [] := descends_least (Desc s q) (Ex q).
split=> //. have [F1 F2] := first_step.
have [k [st [Es [Hk [Hs Hrest]]]]] := @hsolve_spec _ _ _ _ (fun a b : F => a < b) (aresidual req) descent (@sqn F n) dmin thr maxit rdim lsearch inf (s, q) fuel Hf.
rewrite /asolve Es /=.
case: Hrest => [[-> [-> [_ ->]]]|[_ [Hstop [Hfirst [_ [_ Hinf]]]]]]; first by right; split=> //; left.
have Small : small_step (fun a b : F => a < b) descent lsearch (@sqn F n) dmin (s, q) 1.
  rewrite /small_step F1. have [_ Hmin] := descends_least (Desc (it 1 (s, q)).1 (q + d)) (Ex (q + d)).
  rewrite sqn_norm2. apply: le_lt_trans (Hmin 0 _) _; first by apply/lex_shift; rewrite addr0.
  by rewrite -sqn_norm2 sqn0.
have K1 : (k <= 1)%coq_nat.
  case: (Compare_dec.le_lt_dec k 1) => // H. case: (Hfirst 1%N H). by right; right; right.
case: k K1 Es Hk Hs Hstop Hfirst Hinf => [|[|k]] K1 Es Hk Hs Hstop Hfirst Hinf; last by lia.
- have -> : st = INFEASIBLE by apply/Hinf; split=> //; split; [lia|case; lia].
  right; split=> //; right. case: Hstop => [H|[[H _]|[H|H]]]; [by case: H|lia|lia|].
  by move: H; rewrite /small_step /= sqn_norm2.
- have -> : st = INFEASIBLE.
    apply/Hinf; split; first by rewrite /above F1. split; [lia|case; lia].
  by left; rewrite -/(it 1 (s, q)) F1.
Qed.
End One.
