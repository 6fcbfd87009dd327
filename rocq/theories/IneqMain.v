From Coq Require Import ZArith Lia.
From mathcomp Require Import all_ssreflect all_algebra.
From Verif Require Import EcsModel SolveModel SolveSpec SolveProofs DescentModel DescentSpec DescentProofs DescentMain AffModel AffSpec AffProofs AffMain NewtModel NewtSpec NewtProofs IneqModel IneqSpec IneqProofs.
Set Implicit Arguments. Unset Strict Implicit. Unset Printing Implicit Defensive.
Import Order.TTheory GRing.Theory Num.Theory.
Open Scope ring_scope.

Section Main.
Variables (F : realFieldType) (n : nat) (tau : F) (ls : seq (ilevel F n)) (thr' : F).
Implicit Types (q d z : 'cV[F]_n).
Hypothesis Starts : exists l t, ls = l :: t /\ il_rows l <> 0%N.
Notation ats q := [seq at_n q l | l <- [seq compared tau l | l <- ls]].
Notation res := (nresidual [seq compared tau l | l <- ls]).
Lemma closest_step q d : descends thr' (ats q) d -> agree tau ls q -> ifeasible tau ls (q + d) -> closest (ifeasible tau ls) q (q + d).
Proof.
move=> Hd Ha Hf; split=> // z Hz. have := closer Starts Hd Ha Hz (@ler01 F). rewrite mul1r scale1r => H.
have E : 2%:R - 1 = 1 :> F by rewrite -[2%:R]/(1 + 1) addrK. rewrite E mul1r in H.
rewrite addrAC subrr add0r. have := le_trans (norm2_ge0 _) H. rewrite subr_ge0 => G; apply: le_trans G _.
by rewrite -opprB -scaleN1r norm2_scale sqrrN expr1n mul1r.
Qed.
Lemma feasible_res z : ifeasible tau ls z -> res z <= 0.
Proof.
move=> Hz. change (fres [seq compared tau l | l <- ls] (fun l0 : nlevel F n => nl_err l0 z) <= 0). apply/fresP; split=> // l' c Hl _.
have [l [E Hl']] := @in_map_inv _ _ _ _ _ Hl. rewrite {l' Hl}E /= big1 // => i _. rewrite ierrE.
have := Hz l i Hl'. rewrite /holds /taking /lack. case: (il_cmp i) => H.
- by rewrite H expr0n.
- by rewrite H expr0n.
- by rewrite ltNge H expr0n.
- by rewrite ltNge H expr0n.
Qed.

Variables (St : Type) (I : St -> Prop) (m L dmin thr inf : F) (maxit rdim : Z).
Variables (descent : St -> 'cV[F]_n -> 'cV[F]_n * St) (lsearch : St -> 'cV[F]_n -> 'cV[F]_n -> 'cV[F]_n * 'cV[F]_n * St).
Notation it := (iterate descent lsearch).
Lemma past_eq p k : List.map (fun j => (it j p).2) (List.rev (List.seq 0 k)) = [seq (it j p).2 | j <- rev (iota 0 k)].
Proof.
have -> : List.seq 0 k = iota 0 k by elim: k 0%N => //= k IH o; rewrite IH.
have -> (V : Type) (l : seq V) : List.rev l = rev l by elim: l => //= x l ->; rewrite rev_cons -cats1.
by elim: (rev _) => //= x l ->.
Qed.
Lemma ineq_ends p fuel z : moves_by (@along F n) (fun a d => a *: d) I m descent lsearch -> I p.1 ->
  (forall j, thr < res (it j p).2 -> descends thr' (ats (it j p).2) (descent (it j p).1 (it j p).2).1 /\ agree tau ls (it j p).2) ->
  ifeasible tau ls z -> istretch ls L -> 0 < m -> 0 <= thr -> L * dmin <= thr -> (Z.to_nat maxit <= fuel)%N -> rdim <> Z0 ->
  L * norm2 (p.2 - z) <= (Z.to_nat maxit)%:R * (m * thr) ->
  exists k st, isolve tau ls descent lsearch dmin thr inf maxit rdim fuel p.1 p.2 =
      Some (Some st, (it k p).2, [seq (it j p).2 | j <- rev (iota 0 k)], Z.of_nat k) /\ (k <= Z.to_nat maxit)%N /\
    (st = SUCCESS /\ res (it k p).2 <= thr \/ st = ERROR_INCREASED /\ thr < res (it k p).2) /\
    forall j y, (j < k)%N -> ifeasible tau ls y -> norm2 ((it j.+1 p).2 - y) < norm2 ((it j p).2 - y).
Proof.
move=> Mv Ip Hit Hz Hst M0 T0 Sc /ssrnat.leP Hf Hr Hn. have L0 := proj1 Hst.
have Inv j : I (it j p).1.
  elim: j => // j IH. have [a [d [s1 [s2 [E1 [E2 [_ I2]]]]]]] := Mv _ (it j p).2 IH. by rewrite /= /next E1 E2.
have Step j y : thr < res (it j p).2 -> ifeasible tau ls y -> 0 < norm2 (descent (it j p).1 (it j p).2).1 /\
    norm2 ((it j.+1 p).2 - y) <= norm2 ((it j p).2 - y) - m * norm2 (descent (it j p).1 (it j p).2).1 /\ thr < L * norm2 (descent (it j p).1 (it j p).2).1.
  move=> Hj Hy. have [a [d [s1 [s2 [E1 [E2 [/andP[a0 a1] _]]]]]]] := Mv _ (it j p).2 (Inv j).
  have [Hd Ha] := Hit j Hj. have -> : (it j.+1 p).2 = (it j p).2 + a *: d by rewrite /= /next E1 E2.
  rewrite E1 /= in Hd *. have Lr := lt_le_trans Hj (residual_step Starts Hst Hd Ha).
  have P : 0 < norm2 d.
    rewrite lt_neqAle norm2_ge0 andbT; apply/eqP => Z. by move: Lr; rewrite -Z mulr0 ltNge T0.
  split=> //; split=> //. have ap : 0 <= a by apply: le_trans a0; exact: ltW.
  apply: le_trans (closer Starts Hd Ha Hy ap) _. rewrite ler_add2l ler_opp2; apply: ler_wpmul2r; first exact: ltW.
  apply: le_trans a0 _. rewrite -{1}(mulr1 a); apply: ler_wpmul2l => //.
  by rewrite ler_subr_addr; apply: (@le_trans _ _ (1 + 1)); rewrite ?ler_add2l.
have Sum k : (forall j, (j < k)%N -> thr < res (it j p).2) -> L * norm2 ((it k p).2 - z) + k%:R * (m * thr) <= L * norm2 (p.2 - z).
  elim: k => [|k IH] Hk; first by rewrite mul0r addr0.
  apply: le_trans (IH _); last by move=> j Hj; apply: Hk; apply: leq_trans Hj _.
  have [_ [H1 H2]] := Step k z (Hk k (leqnn _)) Hz. rewrite (mulrSr 1 k) mulrDl mul1r addrA addrAC ler_add2r.
  rewrite -ler_subr_addr. apply: le_trans (ler_wpmul2l L0 H1) _. rewrite mulrBr ler_add2l ler_opp2 mulrCA.
  by apply: ler_wpmul2l; exact: ltW.
have [k [st [Es [Hk [Hs Hrest]]]]] := @hsolve_spec _ _ _ _ (fun a b : F => a < b) res descent (@sqn F n) dmin thr maxit rdim lsearch inf p fuel Hf.
case: Hrest => [[_ [H0 _]]|[_ [Hstop [Hfirst [Hmax [Herr Hinf]]]]]]; first by case: Hr.
have Past j : (j < k)%N -> thr < res (it j p).2.
  move=> /ssrnat.ltP Hj. have := Hfirst j Hj; rewrite /stops /above => H.
  case E : (thr < res (it j p).2) => //. case: H; left. by rewrite E.
exists k, st. rewrite /isolve /nsolve Es past_eq. split=> //; split; first by apply/ssrnat.leP; lia. split; last first.
  move=> j y Hj Hy. have [P [H _]] := Step j y (Past j Hj) Hy. apply: le_lt_trans H _. by rewrite gtr_addl oppr_lt0 mulr_gt0.
case E : (thr < res (it k p).2); last first.
  left; split; last by rewrite leNgt E. apply: (proj2 Hs). by rewrite /above E.
have NoMax : ~ Z.le maxit (Z.of_nat k).
  move=> H. have Ek : k = Z.to_nat maxit by lia.
  have [P [H1 H2]] := Step k z E Hz. have := Sum k Past. apply/negP; rewrite -ltNge. apply: le_lt_trans Hn _. rewrite -Ek ltr_addr.
  apply: mulr_gt0.
    rewrite lt_neqAle L0 andbT; apply/eqP => Z. by move: H2; rewrite -Z mul0r ltNge T0.
  have := le_trans (norm2_ge0 _) H1. rewrite subr_ge0; apply: lt_le_trans. exact: mulr_gt0.
right; split=> //. apply: (proj2 Herr). split=> //; split; first by lia.
case: Hstop => [/(_ E)//|[//|[/NoMax//|Hsm]]].
have [Hd Ha] := Hit k E. exfalso. have := lt_le_trans E (residual_step Starts Hst Hd Ha).
apply/negP; rewrite -leNgt; apply: le_trans Sc. apply: ler_wpmul2l => //. rewrite -sqn_norm2. exact: ltW.
Qed.
End Main.
