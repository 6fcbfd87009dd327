From Coq Require Import ZArith Lia.
From mathcomp Require Import all_ssreflect all_algebra.
From Verif Require Import EcsModel SolveModel SolveSpec SolveProofs DescentModel DescentSpec DescentProofs DescentMain AffModel AffSpec AffProofs AffMain NewtModel NewtSpec NewtProofs IneqModel IneqSpec IneqProofs IneqMain.
Set Implicit Arguments. Unset Strict Implicit. Unset Printing Implicit Defensive.
Import Order.TTheory GRing.Theory Num.Theory.
Open Scope ring_scope.

Section Bounds.
Variables (F : realFieldType) (n : nat) (tau : F) (l : ilevel F n).
Implicit Types (q d z : 'cV[F]_n) (i j : 'I_(il_rows l)).
Hypothesis Nz : forall i, exists k, il_A l i k != 0.
Hypothesis Rows : forall i j, i != j -> orthogonal i j \/ opposite i j.
Variable z0 : 'cV[F]_n.
Hypothesis Fe : ifeasible tau [:: l] z0.
Notation row i := (\sum_k il_A l i k ^+ 2).
Lemma row_pos i : 0 < row i.
Proof.
have [k Hk] := Nz i. rewrite (bigD1 k) //=. apply: (@lt_le_trans _ _ (il_A l i k ^+ 2)); first by rewrite exprn_even_gt0.
by rewrite ler_addl; apply: sumr_ge0 => j _; apply: sqr_ge0.
Qed.
Lemma fe i : holds tau (il_cmp i) (value z0 i). Proof. by apply: Fe; left. Qed.
Lemma value_sub q z i : value q i - value z i = \sum_k il_A l i k * (q - z) k 0.
Proof. by rewrite /value opprB addrA subrK -sumrB; apply: eq_bigr => k _; rewrite !mxE mulrBr. Qed.
Lemma value_opp q z i j c : (forall k, il_A l i k = c * il_A l j k) -> value q i - value z i = c * (value q j - value z j).
Proof. by move=> H; rewrite !value_sub mulr_sumr; apply: eq_bigr => k _; rewrite H mulrA. Qed.
Lemma value_add q d i : value (q + d) i = value q i + \sum_k il_A l i k * d k 0.
Proof. rewrite -[LHS](subrK (value q i)) value_sub addrC; congr (_ + _); apply: eq_bigr => k _; by rewrite !mxE addrAC subrr add0r. Qed.
(** two violated bounds are not opposite *)
Lemma not_opposite q i j : taking tau q i -> taking tau q j -> opposite i j -> False.
Proof.
move=> Ti Tj [bi [bj [c [Hi [Hj [c0 [Hc Hk]]]]]]].
have H := value_opp q z0 Hk. have := fe i; have := fe j. move: Ti Tj. rewrite /taking /holds.
have Pos (x y : F) : x < tau -> tau <= y -> x - y < 0 by move=> H1 H2; rewrite subr_lt0; apply: lt_le_trans H1 H2.
have Neg (x y : F) : - tau < x -> y <= - tau -> 0 < x - y by move=> H1 H2; rewrite subr_gt0; apply: le_lt_trans H2 H1.
have Cn : (0 < c) = false -> c < 0 by move=> E; rewrite lt_neqAle c0 /= leNgt E.
move: Hi Hj Hc H. case: (il_cmp i) => // -[<-]; case: (il_cmp j) => // -[<-] /= Hc H Ti Tj Fj Fi.
- have := Pos _ _ Ti Fi. rewrite H ltNge => /negP; apply. by apply: mulr_le0; apply: ltW; [exact: Cn|exact: Pos].
- have := Pos _ _ Ti Fi. rewrite H ltNge => /negP; apply. by apply: mulr_ge0; apply: ltW; [rewrite Hc|exact: Neg].
- have := Neg _ _ Ti Fi. rewrite H ltNge => /negP; apply. by rewrite mulr_ge0_le0 // ltW ?Hc //; exact: Pos.
- have := Neg _ _ Ti Fi. rewrite H ltNge => /negP; apply. by rewrite mulr_le0_ge0 // ltW ?Cn //; exact: Neg.
Qed.
Lemma taking_orth q i j : taking tau q i -> taking tau q j -> i != j -> orthogonal i j.
Proof. by move=> Ti Tj /Rows[//|/(not_opposite Ti Tj)]. Qed.
Lemma row_push q (lam : forall l0 : ilevel F n, 'cV[F]_(il_rows l0)) i :
  \sum_k il_A l i k * push tau [:: l] q lam k 0 = \sum_(j | taking tau q j) lam l j 0 * \sum_k il_A l i k * il_A l j k.
Proof.
transitivity (\sum_k \sum_(j | taking tau q j) lam l j 0 * (il_A l i k * il_A l j k)).
  by apply: eq_bigr => k _; rewrite mxE big_seq1 mulr_sumr; apply: eq_bigr => j _; rewrite mulrCA.
by rewrite exchange_big /=; apply: eq_bigr => j _; rewrite mulr_sumr.
Qed.
Lemma bounds_agree q : agree tau [:: l] q.
Proof.
exists (fun l0 : ilevel F n => \col_i (if taking tau q i then - lack tau q i / \sum_k il_A l0 i k ^+ 2 else 0)). split.
  move=> l0 i [E|[]]; subst l0. rewrite /inwards mxE /taking /lack. have P := row_pos i.
  case: (il_cmp i) => //; case: ifP => // H.
  - by rewrite divr_ge0 ?(ltW P) // oppr_ge0 subr_le0 ltW.
  - by rewrite mulr_le0_ge0 ?invr_ge0 ?(ltW P) // oppr_le0 -[tau]opprK subr_ge0 ltW.
move=> l0 i [E|[]]; subst l0 => Ti. rewrite row_push (bigD1 i) //= [X in _ + X]big1 ?addr0.
  have -> : \sum_k il_A l i k * il_A l i k = row i by apply: eq_bigr => k _; rewrite expr2.
  by rewrite mxE Ti divfK // gt_eqF // row_pos.
move=> j /andP[Tj Nj]. have := taking_orth Ti Tj. rewrite eq_sym Nj /orthogonal => ->//. by rewrite mulr0.
Qed.
Variable thr' : F.
Hypothesis Rws : il_rows l <> 0%N.
Lemma starts1 : exists (l0 : ilevel F n) t, [:: l] = l0 :: t /\ il_rows l0 <> 0%N. Proof. by do 2 eexists. Qed.
Notation ats q := [seq at_n q l | l <- [seq compared tau l | l <- [:: l]]].
Lemma bounds_step q d : descends thr' (ats q) d -> ifeasible tau [:: l] (q + d).
Proof.
move=> Hd. have [lam [_ [Ed Hj]]] := direction_push starts1 Hd (bounds_agree q).
have Act : forall i, taking tau q i -> \sum_k il_A l i k * d k 0 = - lack tau q i.
  by apply/ijac_err; apply: Hj; left.
have Rest i : ~~ taking tau q i -> (forall j, taking tau q j -> orthogonal i j) -> value (q + d) i = value q i.
  move=> _ H. rewrite value_add Ed row_push big1 ?addr0 // => j Tj. by have := H j Tj; rewrite /orthogonal => ->; rewrite mulr0.
move=> l0 i [E|[]]; subst l0. case Ti : (taking tau q i).
  rewrite value_add Act // /lack /holds. move: Ti; rewrite /taking. case: (il_cmp i) => _.
  - by rewrite subrr.
  - by rewrite subrr.
  - by rewrite opprB addrC subrK.
  - by rewrite opprD addrA subrr add0r.
case Al : [forall j, taking tau q j ==> (\sum_k il_A l i k * il_A l j k == 0)].
  rewrite Rest ?Ti //; last by move=> j Tj; apply/eqP; move/forallP: Al => /(_ j); rewrite Tj.
  move: Ti; rewrite /taking /holds. case: (il_cmp i) => // /negbT; by rewrite -leNgt.
move/negbT: Al => /forallPn[j]. rewrite negb_imply => /andP[Tj No].
have Nij : i != j by apply/eqP => E; move: Ti; rewrite E Tj.
case: (Rows Nij) => [O|[bi [bj [c [Hi [Hj' [c0 [Hc Hk]]]]]]]]; first by rewrite /orthogonal in O; rewrite O eqxx in No.
have H := value_opp (q + d) z0 Hk. have Vj := value_add q d j. rewrite Act // in Vj.
have Cn : (0 < c) = false -> c <= 0 by move=> E; rewrite leNgt E.
have := fe i; have := fe j. move: Hi Hj' Hc H Vj. rewrite /lack /holds.
have Up (x y : F) : 0 <= x - y -> tau <= y -> tau <= x by rewrite subr_ge0 => H1 H2; apply: le_trans H2 H1.
have Dn (x y : F) : x - y <= 0 -> y <= - tau -> x <= - tau by rewrite subr_le0; apply: le_trans.
case: (il_cmp i) => // -[<-]; case: (il_cmp j) => // -[<-] /= Hc H Vj Fj Fi.
- rewrite opprB addrCA subrr addr0 in Vj. apply: Up Fi. rewrite H Vj. by apply: mulr_le0; [exact: Cn|rewrite subr_le0].
- rewrite opprD addrA subrr add0r in Vj. apply: Up Fi. rewrite H Vj. by apply: mulr_ge0; [rewrite ltW ?Hc|rewrite subr_ge0].
- rewrite opprB addrCA subrr addr0 in Vj. apply: Dn Fi. rewrite H Vj. by apply: mulr_ge0_le0; [rewrite ltW ?Hc|rewrite subr_le0].
- rewrite opprD addrA subrr add0r in Vj. apply: Dn Fi. rewrite H Vj. by apply: mulr_le0_ge0; [exact: Cn|rewrite subr_ge0].
Qed.
Lemma bounds_closest q d : descends thr' (ats q) d -> closest (ifeasible tau [:: l]) q (q + d).
Proof. by move=> H; apply: (closest_step starts1 H (bounds_agree q)); apply: bounds_step. Qed.
(** the solver: one full step *)
Lemma bounds_success (St : Type) (J : St -> Prop) (L dmin thr inf : F) maxit rdim fuel
    (descent : St -> 'cV[F]_n -> 'cV[F]_n * St) (lsearch : St -> 'cV[F]_n -> 'cV[F]_n -> 'cV[F]_n * 'cV[F]_n * St) s q :
  moves_by (@along F n) (fun a d => a *: d) J 1 descent lsearch -> J s -> descends thr' (ats q) (descent s q).1 ->
  istretch [:: l] L -> 0 <= thr -> L * dmin <= thr -> (Z.to_nat maxit <= fuel)%N -> rdim <> Z0 -> Z.lt Z0 maxit ->
  thr < nresidual [:: compared tau l] q ->
  isolve tau [:: l] descent lsearch dmin thr inf maxit rdim fuel s q = Some (Some SUCCESS, q + (descent s q).1, [:: q], Z.of_nat 1) /\
  closest (ifeasible tau [:: l]) q (q + (descent s q).1).
Proof.
move=> Mv Js Hd Hst T0 Sc /ssrnat.leP Hf Hr Hm Hab. split; last exact: bounds_closest Hd. have L0 := proj1 Hst.
have E1 : (iterate descent lsearch 1 (s, q)).2 = q + (descent s q).1.
  have [a [d [s1 [s2 [E1 [E2 [/andP[a0 a1] _]]]]]]] := Mv s q Js. rewrite /= /next /= E1 E2 /=.
  have -> : a = 1 by apply: le_anti; rewrite a0 a1. by rewrite /along scale1r.
have [k [st [Es [Hk [Hs Hrest]]]]] := @hsolve_spec _ _ _ _ (fun a b : F => a < b) (nresidual [:: compared tau l]) descent (@sqn F n) dmin thr maxit rdim lsearch inf (s, q) fuel Hf.
case: Hrest => [[_ [H0 _]]|[_ [Hstop [Hfirst _]]]]; first by case: Hr.
have Z1 : ~ above (fun a b : F => a < b) (nresidual [:: compared tau l]) descent lsearch thr (s, q) 1.
  rewrite /above E1 => H. have := le_trans (feasible_res (bounds_step Hd)) T0. by rewrite leNgt H.
have K1 : k = 1%N.
  case: k Hstop Hfirst {Es Hk Hs} => [|[|k]] Hstop Hfirst //; last by case: (Hfirst 1%N); [lia|left].
  case: Hstop => [/(_ Hab)//|[[H3 _]|[H|Hsm]]]; [lia|lia|].
  have := lt_le_trans Hab (residual_step starts1 Hst Hd (bounds_agree q)). rewrite ltNge => /negP; case.
  apply: le_trans Sc; apply: ler_wpmul2l => //. rewrite -sqn_norm2. exact: ltW.
rewrite K1 in Es Hs. rewrite /isolve /nsolve. move: Es; rewrite (proj2 Hs Z1) E1 /=. by [].
Qed.
End Bounds.
