From Coq Require Import ZArith Lia.
From mathcomp Require Import all_ssreflect all_algebra.
From Verif Require Import SolveModel SolveSpec SolveProofs DescentModel DescentSpec DescentProofs DescentMain AffModel AffSpec AffProofs AffMain NewtModel NewtSpec.
Set Implicit Arguments. Unset Strict Implicit. Unset Printing Implicit Defensive.
Import Order.TTheory GRing.Theory Num.Theory.
Open Scope ring_scope.

Section Vec.
Variable F : realFieldType.
Definition dot k (x y : 'cV[F]_k) : F := \sum_i x i 0 * y i 0.
Lemma norm2_ge0 k (x : 'cV[F]_k) : 0 <= norm2 x.
Proof. by apply: sumr_ge0 => i _; apply: sqr_ge0. Qed.
Lemma norm2_add k (x y : 'cV[F]_k) : norm2 (x + y) = norm2 x + dot x y *+ 2 + norm2 y.
Proof.
rewrite /norm2 /dot -sumrMnl -!big_split /=; apply: eq_bigr => i _. by rewrite mxE sqrrD.
Qed.
Lemma dot_le k (x y : 'cV[F]_k) a b : 0 <= a -> 0 <= b -> norm2 x <= a ^+ 2 -> norm2 y <= b ^+ 2 -> dot x y <= a * b.
Proof.
move=> a0 b0 Hx Hy.
have G u v : norm2 (u *: x - v *: y) = u ^+ 2 * norm2 x - (u * v) * dot x y *+ 2 + v ^+ 2 * norm2 y.
  rewrite norm2_add -scaleNr !norm2_scale sqrrN. congr (_ + _ + _). rewrite -mulNrn -mulNr; congr (_ *+ 2).
  by rewrite /dot mulr_sumr; apply: eq_bigr => i _; rewrite !mxE mulrACA mulrN.
have := norm2_ge0 (b *: x - a *: y). rewrite G => H.
have H2 : (b * a) * dot x y *+ 2 <= (b * a) * (a * b) *+ 2.
  rewrite -subr_ge0; apply: le_trans H _. rewrite addrAC; apply: ler_add => //.
  rewrite mulr2n; apply: ler_add.
  - by apply: le_trans (ler_wpmul2l (sqr_ge0 b) Hx) _; rewrite -exprMn expr2 [a * b]mulrC.
  - by apply: le_trans (ler_wpmul2l (sqr_ge0 a) Hy) _; rewrite -exprMn expr2 [a * b]mulrC.
case: (eqVneq a 0) => [Ea|Na].
  have -> : x = 0 by apply: sqn_eq0; apply: le_anti; rewrite sqn_ge0 andbT sqn_norm2; move: Hx; rewrite Ea expr0n.
  by rewrite /dot big1 ?mulr_ge0 // => i _; rewrite mxE mul0r.
case: (eqVneq b 0) => [Eb|Nb].
  have -> : y = 0 by apply: sqn_eq0; apply: le_anti; rewrite sqn_ge0 andbT sqn_norm2; move: Hy; rewrite Eb expr0n.
  by rewrite /dot big1 ?mulr_ge0 // => i _; rewrite mxE mulr0.
move: H2; rewrite ler_pmuln2r // ler_pmul2l // mulr_gt0 // lt_neqAle eq_sym ?Na ?Nb //.
Qed.
Lemma norm2_triangle k (x y : 'cV[F]_k) a b : 0 <= a -> 0 <= b -> norm2 x <= a ^+ 2 -> norm2 y <= b ^+ 2 -> norm2 (x + y) <= (a + b) ^+ 2.
Proof.
move=> a0 b0 Hx Hy. rewrite norm2_add sqrrD. apply: ler_add => //; apply: ler_add => //.
by rewrite ler_muln2r; apply/orP; right; apply: dot_le.
Qed.
Lemma sqr_convex (a u w : F) : 0 <= a <= 1 -> ((1 - a) * u + a * w) ^+ 2 <= (1 - a) * u ^+ 2 + a * w ^+ 2.
Proof.
move=> /andP[a0 a1]. pose b := 1 - a; pose d := u - w.
have -> : (1 - a) * u + a * w = w + b * d.
  by rewrite /b /d mulrBr [(1 - a) * w]mulrBl mul1r opprB [RHS]addrCA [w + _]addrCA subrr addr0.
have -> : (1 - a) * u ^+ 2 + a * w ^+ 2 = w ^+ 2 + w * (b * d) *+ 2 + b * d ^+ 2.
  have -> : u = w + d by rewrite /d addrCA subrr addr0.
  rewrite -/b sqrrD (mulrDr b (_ + _)) (mulrDr b (w ^+ 2)) mulrnAr [b * (w * d)]mulrCA addrAC. congr (_ + _). rewrite addrAC -mulrDl /b subrK mul1r //.
rewrite sqrrD ler_add2l exprMn; apply: ler_wpmul2r; first exact: sqr_ge0.
have b0 : 0 <= b by rewrite subr_ge0. have b1 : b <= 1 by rewrite ler_subl_addr ler_addl.
by rewrite expr2 -{3}(mulr1 b); apply: ler_wpmul2l.
Qed.
End Vec.

Section Fam.
Variables (F : realFieldType) (n : nat).
Implicit Types (ls : seq (nlevel F n)) (q d : 'cV[F]_n) (b : forall l : nlevel F n, 'cV[F]_(nl_rows l)).
Definition fres ls b : F := foldl (fun m l => seg_max (b l) 0 (nl_sizes l) m) 0 ls.
Lemma seg_maxP r (e : 'cV[F]_r) M sizes : forall iv m, seg_max e iv sizes m <= M <->
  m <= M /\ forall c, (c < size sizes)%N -> seg_norm e (iv + sumn (take c sizes)) (nth 0%N sizes c) <= M.
Proof.
elim: sizes => [|nv t IH] iv m /=; first by split=> [H|[]].
rewrite IH le_maxl; split.
- move=> [/andP[H1 H2] H3]; split=> // -[|c] /= Hc; first by rewrite addn0. by have := H3 c Hc; rewrite addnA.
- move=> [H1 H]; split; first by rewrite H1; have := H 0%N isT; rewrite /= addn0.
  by move=> c Hc; have := H c.+1 Hc; rewrite /= addnA.
Qed.
Lemma take_next (s : seq nat) c : (c < size s)%N -> (sumn (take c s) + nth 0 s c = sumn (take c.+1 s))%N.
Proof. by move=> H; rewrite (take_nth 0%N) // sumn_rcons. Qed.
Lemma fresP ls b M : fres ls b <= M <-> 0 <= M /\ each ls b M.
Proof.
suff G m : foldl (fun m l => seg_max (b l) 0 (nl_sizes l) m) m ls <= M <-> m <= M /\ each ls b M by apply: G.
elim: ls m => [|l ls IH] m /=; first by split=> [H|[]//]; split=> // l c [].
rewrite IH seg_maxP; split.
- move=> [[H1 H2] H3]; split=> // l' c [<-|Hl] Hc; last exact: H3.
  by have := H2 c Hc; rewrite /seg_norm add0n take_next.
- move=> [H1 H2]; split; last by move=> l' c Hl; apply: H2; right.
  split=> // c Hc. by rewrite /seg_norm add0n take_next //; apply: H2 => //; left.
Qed.
Lemma fres_ge0 ls b : 0 <= fres ls b. Proof. by have /fresP[] := lexx (fres ls b). Qed.
Lemma fres_each ls b : each ls b (fres ls b). Proof. by have /fresP[] := lexx (fres ls b). Qed.
Lemma fres_opp ls b b' : (forall l, List.In l ls -> b' l = - b l) -> fres ls b' <= fres ls b.
Proof.
move=> H; apply/fresP; split; first exact: fres_ge0.
move=> l c Hl Hc. have := @fres_each ls b l c Hl Hc. rewrite H //. by under [in X in _ -> X]eq_bigr do rewrite mxE sqrrN.
Qed.
(** errors (1 - a) e + r with r small *)
Lemma fres_convex ls (b e r : forall l : nlevel F n, 'cV[F]_(nl_rows l)) a M N : 0 < a <= 1 -> (forall l, List.In l ls -> b l = (1 - a) *: e l + r l) ->
  0 <= M -> 0 <= N -> each ls e M -> each ls r (a ^+ 2 * N) -> fres ls b <= (1 - a) * M + a * N.
Proof.
move=> /andP[a0 a1] Hb M0 N0 He Hr. have b0 : 0 <= 1 - a by rewrite subr_ge0.
have a' : a != 0 by apply/eqP => E; move: a0; rewrite E ltxx.
apply/fresP; split; first by rewrite addr_ge0 // mulr_ge0 // ltW.
move=> l c Hl Hc. rewrite Hb //.
apply: (@le_trans _ _ (\sum_(i < nl_rows l | (sumn (take c (nl_sizes l)) <= i < sumn (take c.+1 (nl_sizes l)))%N)
   ((1 - a) * (e l i 0) ^+ 2 + a * (a^-1 * r l i 0) ^+ 2))).
  apply: ler_sum => i _. rewrite !mxE. have := @sqr_convex F a (e l i 0) (a^-1 * r l i 0). rewrite mulVKf //; apply. by rewrite (ltW a0).
rewrite big_split /= -!mulr_sumr; apply: ler_add; apply: ler_wpmul2l => //; try exact: ltW; try exact: He.
under eq_bigr do rewrite exprMn. rewrite -mulr_sumr exprVn.
by rewrite ler_pdivr_mull ?exprn_gt0 //; apply: Hr.
Qed.
End Fam.

Section Traj.
Variables (F : realFieldType) (n : nat) (ls : seq (nlevel F n)) (q0 : 'cV[F]_n) (r B K L s0 m thr' : F).
Hypothesis Wb : well_behaved ls q0 r B K L.
Hypothesis Starts : exists l t, ls = l :: t /\ nl_rows l <> 0%N.
Hypothesis B0 : 0 <= B.
Hypothesis S0 : 0 <= s0.
Hypothesis M0 : 0 < m.
Hypothesis M1 : m <= 1.
Hypothesis R0 : nresidual ls q0 <= s0 ^+ 2.
Hypothesis Theta : (K * B ^+ 2 * s0) ^+ 2 < 1.
Notation gain := (m * (1 - (K * B ^+ 2 * s0) ^+ 2)).
Hypothesis Radius : B * s0 * 2%:R <= r * gain.
Let sg := 1 - gain / 2%:R.
Let rho := 1 - gain.
Lemma gain_pos : 0 < gain. Proof. by rewrite mulr_gt0 // subr_gt0. Qed.
Lemma gain_le1 : gain <= 1.
Proof. by rewrite -[X in _ <= X](mulr1 1); apply: ler_pmul => //; [exact: ltW|rewrite subr_ge0 ltW|rewrite ler_subl_addr ler_addl sqr_ge0]. Qed.
Lemma rho_ge0 : 0 <= rho. Proof. by rewrite subr_ge0 gain_le1. Qed.
Lemma rho_lt1 : rho < 1. Proof. by rewrite gtr_addl oppr_lt0 gain_pos. Qed.
Lemma sg_ge0 : 0 <= sg.
Proof. by rewrite subr_ge0 ler_pdivr_mulr ?ltr0n // mul1r; apply: le_trans gain_le1 _; rewrite ler1n. Qed.
Lemma sg_lt1 : sg < 1. Proof. by rewrite gtr_addl oppr_lt0 divr_gt0 ?gain_pos ?ltr0n. Qed.
Lemma rho_sg : rho <= sg ^+ 2.
Proof.
have E : gain / 2%:R *+ 2 = gain by rewrite -[LHS]mulr_natr divfK // pnatr_eq0.
by rewrite /sg sqrrB expr1n mul1r E ler_addl sqr_ge0.
Qed.
(** distance covered by the first j steps *)
Fixpoint dist (j : nat) : F := if j is k.+1 then dist k + B * (s0 * sg ^+ k) else 0.
Lemma dist_ge0 j : 0 <= dist j.
Proof. by elim: j => //= j IH; rewrite addr_ge0 // !mulr_ge0 // exprn_ge0 // sg_ge0. Qed.
Lemma dist_sum j : dist j * (1 - sg) = B * s0 * (1 - sg ^+ j).
Proof.
elim: j => [|j IH]; first by rewrite /= expr0 subrr mul0r mulr0.
by rewrite [dist _]/= mulrDl IH (mulrA B s0) -(mulrA (B * s0) (sg ^+ j)) -mulrDr mulrBr mulr1 addrA subrK exprSr.
Qed.
Lemma dist_le j : dist j <= r.
Proof.
have P : 0 < 1 - sg by rewrite subr_gt0 sg_lt1.
rewrite -(ler_pmul2r P) dist_sum. apply: (@le_trans _ _ (B * s0)).
  by rewrite -{2}(mulr1 (B * s0)); apply: ler_wpmul2l; [exact: mulr_ge0|rewrite ler_subl_addr ler_addl exprn_ge0 ?sg_ge0].
rewrite /sg opprB addrCA subrr addr0 mulrA ler_pdivl_mulr ?ltr0n //.
Qed.
Definition traj (j : nat) (q : 'cV[F]_n) : Prop :=
  norm2 (q - q0) <= dist j ^+ 2 /\ nresidual ls q <= (s0 * sg ^+ j) ^+ 2 /\ nresidual ls q <= rho ^+ j * nresidual ls q0.
Lemma nres_ge0 q : 0 <= nresidual ls q. Proof. exact: (fres_ge0 ls (fun l => nl_err l q)). Qed.
Lemma traj_0 : traj 0 q0.
Proof. by rewrite /traj /= subrr -sqn_norm2 sqn0 expr0n expr0 mulr1 mul1r !lexx. Qed.
Lemma traj_ball j q : traj j q -> ball q0 r q.
Proof. by move=> [H _]; apply: le_trans H _; rewrite ler_sqr ?nnegrE ?dist_ge0 ?dist_le // (le_trans (dist_ge0 j)) // dist_le. Qed.
Lemma in_ls (l : level F n) q : List.In l [seq at_n q l | l <- ls] -> exists l', l = at_n q l' /\ List.In l' ls.
Proof. exact: in_map_inv. Qed.
Lemma newton q d : ball q0 r q -> descends thr' [seq at_n q l | l <- ls] d ->
  (forall l, List.In l ls -> nl_jac l q *m d = - nl_err l q) /\ norm2 d <= B ^+ 2 * nresidual ls q.
Proof.
move=> Hq Hd. have [Hr _] := proj1 Wb q Hq.
have [x [Hx1 Hx2]] := Hr (fun l => - nl_err l q) (nresidual ls q) (nres_ge0 q)
   (fun l c Hl Hc => le_trans (@fres_each _ _ ls (fun l => - nl_err l q) l c Hl Hc) (@fres_opp _ _ ls (fun l => nl_err l q) (fun l => - nl_err l q) (fun _ _ => erefl))).
have Zx pb : List.In pb [seq prob1 l | l <- [seq at_n q l | l <- ls]] -> cost pb x = 0.
  move=> Hb; have [l1 [-> H1]] := @in_map_inv _ _ _ _ _ Hb; have [l2 [-> H2]] := in_ls H1.
  by rewrite /cost /= Hx2 // addNr -sqn_norm2 sqn0.
have [l0 [t [E0 Hl0]]] := Starts.
have [Lx Hmin] : least_norm (lex [seq prob1 l | l <- [seq at_n q l | l <- ls]]) d.
  by apply: descends_least Hd _; rewrite E0 /=; do 2 eexists.
split; last by apply: le_trans Hx1; apply: Hmin; apply: foldl_zero_in.
move=> l Hl. have C : cost (prob1 (at_n q l)) d = 0.
  by apply: (foldl_zero (A := fun _ => True) (x := x) I Zx Lx); apply: in_map; apply: in_map.
have /sqn_eq0 : sqn (nl_jac l q *m d + nl_err l q) = 0 by rewrite sqn_norm2.
by move/eqP; rewrite addr_eq0 => /eqP.
Qed.
Lemma traj_res j q : traj j q -> nresidual ls q <= s0 ^+ 2.
Proof.
move=> [_ [H _]]; apply: le_trans H _; rewrite exprMn -{2}(mulr1 (s0 ^+ 2)). apply: ler_wpmul2l; first exact: sqr_ge0.
by rewrite -exprM exprn_ile1 ?sg_ge0 // ltW // sg_lt1.
Qed.
Lemma traj_step j q d a : traj j q -> descends thr' [seq at_n q l | l <- ls] d -> m <= a <= 1 ->
  [/\ traj j.+1 (q + a *: d), nresidual ls (q + a *: d) <= rho * nresidual ls q &
      nresidual ls (q + a *: d) <= (1 - a) * nresidual ls q + a * ((K * B ^+ 2) * nresidual ls q) ^+ 2].
Proof.
move=> Ht Hd /andP[a0 a1]. have Hb := traj_ball Ht. have [Hj Hn] := newton Hb Hd.
have ap : 0 < a by apply: lt_le_trans a0. have E0 := nres_ge0 q.
have [T1 [T2 T3]] := Ht.
have Hstep : norm2 (a *: d) <= (B * (s0 * sg ^+ j)) ^+ 2.
  rewrite norm2_scale exprMn. apply: le_trans (ler_wpmul2l (sqr_ge0 B) T2). apply: le_trans Hn.
  by rewrite -{2}(mul1r (norm2 d)); apply: ler_wpmul2r; [exact: norm2_ge0|rewrite expr_le1 // ltW].
have Hd' : norm2 (q + a *: d - q0) <= dist j.+1 ^+ 2.
  rewrite addrAC; apply: norm2_triangle => //; [exact: dist_ge0|]. by rewrite !mulr_ge0 // exprn_ge0 // sg_ge0.
have Hb' : ball q0 r (q + a *: d).
  by apply: le_trans Hd' _; rewrite ler_sqr ?nnegrE ?dist_ge0 ?dist_le // (le_trans (dist_ge0 j)) // dist_le.
have Hc := proj2 Wb q (a *: d) Hb Hb'.
have Q : nresidual ls (q + a *: d) <= (1 - a) * nresidual ls q + a * ((K * B ^+ 2) * nresidual ls q) ^+ 2.
  apply: (@fres_convex _ _ ls (fun l => nl_err l (q + a *: d)) (fun l => nl_err l q)
    (fun l => nl_err l (q + a *: d) - nl_err l q - nl_jac l q *m (a *: d))) => //; try exact: sqr_ge0.
  - by rewrite ap.
  - move=> l Hl. rewrite -scalemxAr Hj // scalerN opprK scalerBl scale1r.
    by rewrite [RHS]addrACA [X in _ = X + _]addrCA subrr addr0 addNr addr0.
  - exact: (@fres_each _ _ ls (fun l => nl_err l q)).
  - move=> l c Hl H; apply: le_trans (Hc l c Hl H) _.
    rewrite norm2_scale -(mulrA K (B ^+ 2)) (exprMn _ K (a ^+ 2 * _)) (exprMn _ K (B ^+ 2 * _)) (mulrCA (a ^+ 2)); apply: ler_wpmul2l; first exact: sqr_ge0.
    rewrite exprMn. have a2 : 0 <= a ^+ 2 <= 1 by rewrite sqr_ge0 expr_le1 // ltW.
    case/andP: a2 => a2 a2'. apply: ler_pmul; rewrite ?sqr_ge0 //.
      by rewrite expr2 -{3}(mulr1 (a ^+ 2)); apply: ler_wpmul2l.
    by rewrite ler_sqr ?nnegrE ?norm2_ge0 // mulr_ge0 // sqr_ge0.
have Q2 : nresidual ls (q + a *: d) <= rho * nresidual ls q.
  apply: le_trans Q _. have T : ((K * B ^+ 2) * nresidual ls q) ^+ 2 <= (K * B ^+ 2 * s0) ^+ 2 * nresidual ls q.
    rewrite exprMn expr2 [in X in X <= _]mulrA; apply: ler_wpmul2r => //.
    by rewrite exprMn; apply: ler_wpmul2l; [exact: sqr_ge0|exact: traj_res Ht].
  apply: (@le_trans _ _ ((1 - a * (1 - (K * B ^+ 2 * s0) ^+ 2)) * nresidual ls q)).
    have E (t : F) : 1 - a * (1 - t) = (1 - a) + a * t by rewrite mulrBr mulr1 opprB addrCA addrC.
    rewrite E [X in _ <= X]mulrDl ler_add2l -[X in _ <= X]mulrA. by apply: ler_wpmul2l => //; exact: ltW.
  apply: ler_wpmul2r => //. rewrite ler_add2l ler_opp2; apply: ler_wpmul2r => //. by rewrite subr_ge0 ltW.
split=> //; split=> //; split.
- apply: le_trans Q2 _. apply: le_trans (ler_wpmul2l rho_ge0 T2) _.
  rewrite (exprSr sg) (mulrA s0) (exprMn _ (s0 * _) sg) (mulrC rho). apply: ler_wpmul2l; [exact: sqr_ge0|exact: rho_sg].
- apply: le_trans Q2 _. by rewrite exprS -mulrA; apply: ler_wpmul2l => //; exact: rho_ge0.
Qed.
Lemma traj_no_small q d dmin thr : 0 <= L -> L * dmin <= thr -> ball q0 r q -> descends thr' [seq at_n q l | l <- ls] d ->
  thr < nresidual ls q -> sqn d < dmin -> False.
Proof.
move=> L0 Sc Hq Hd H1 H2; move: H1; apply/negP; rewrite -leNgt; apply: le_trans Sc.
apply: le_trans (ler_wpmul2l L0 (ltW H2)). rewrite sqn_norm2.
have [Hj _] := newton Hq Hd. have [_ Hs] := proj1 Wb q Hq.
apply: (@le_trans _ _ (fres ls (fun l => nl_jac l q *m d))).
  by apply: (@fres_opp _ _ ls _ (fun l => nl_err l q)) => l Hl; rewrite Hj // opprK.
apply/fresP; split; first by rewrite mulr_ge0 // norm2_ge0. exact: Hs.
Qed.
Lemma rho_pow k l : (k <= l)%N -> rho ^+ l <= rho ^+ k.
Proof. by move=> H; apply: ler_wiexpn2l => //; [exact: rho_ge0|exact: ltW rho_lt1]. Qed.
End Traj.

Section Hier.
Variables (F : realFieldType) (n : nat) (St : Type) (ls : seq (nlevel F n)) (I : St -> Prop) (r B K L s0 m dmin thr thr' inf : F) (maxit rdim : Z).
Variables (descent : St -> 'cV[F]_n -> 'cV[F]_n * St) (lsearch : St -> 'cV[F]_n -> 'cV[F]_n -> 'cV[F]_n * 'cV[F]_n * St).
Notation it := (iterate descent lsearch).
Notation gain := (m * (1 - (K * B ^+ 2 * s0) ^+ 2)).
Lemma newton_success p fuel :
  well_behaved ls p.2 r B K L -> (exists l t, ls = l :: t /\ nl_rows l <> 0%N) ->
  (forall s q, ball p.2 r q -> descends thr' [seq at_n q l | l <- ls] (descent s q).1) ->
  moves_by (@along F n) (fun a d => a *: d) I m descent lsearch -> I p.1 -> 0 <= B -> 0 <= s0 -> 0 <= L -> 0 < m ->
  nresidual ls p.2 <= s0 ^+ 2 -> (K * B ^+ 2 * s0) ^+ 2 < 1 -> B * s0 * 2%:R <= r * gain ->
  L * dmin <= thr -> (Z.to_nat maxit <= fuel)%N -> rdim <> Z0 -> (1 - gain) ^+ (Z.to_nat maxit) * nresidual ls p.2 <= thr ->
  exists k, nsolve ls descent lsearch dmin thr inf maxit rdim fuel p.1 p.2 =
      Some (Some SUCCESS, (it k p).2, [seq (it j p).2 | j <- rev (iota 0 k)], Z.of_nat k) /\
    (k <= Z.to_nat maxit)%N /\ nresidual ls (it k p).2 <= thr /\
    (forall j, (j < k)%N -> thr < nresidual ls (it j p).2) /\
    forall j, ball p.2 r (it j p).2 /\ nresidual ls (it j.+1 p).2 <= (1 - gain) * nresidual ls (it j p).2 /\
      (m = 1 -> nresidual ls (it j.+1 p).2 <= (K * B ^+ 2 * nresidual ls (it j p).2) ^+ 2).
Proof.
move=> Wb Starts Desc Mv Ip B0 S0 L0 M0 R0 Theta Radius Scale /ssrnat.leP Hf Hr Hn.
have M1 : m <= 1 by have [a [d [s1 [s2 [_ [_ [/andP[H1 H2] _]]]]]]] := Mv p.1 p.2 Ip; apply: le_trans H1 H2.
pose T := traj ls p.2 B K s0 m.
have Step j : T j (it j p).2 -> I (it j p).1 -> T j.+1 (it j.+1 p).2 /\ I (it j.+1 p).1 /\
    nresidual ls (it j.+1 p).2 <= (1 - gain) * nresidual ls (it j p).2 /\
    (m = 1 -> nresidual ls (it j.+1 p).2 <= (K * B ^+ 2 * nresidual ls (it j p).2) ^+ 2).
  move=> Tj Ij. have [a [d [s1 [s2 [E1 [E2 [Ha I2]]]]]]] := Mv (it j p).1 (it j p).2 Ij.
  have Hb : ball p.2 r (it j p).2 := traj_ball B0 S0 M0 M1 Theta Radius Tj.
  have Hd := Desc (it j p).1 _ Hb. rewrite E1 /= in Hd.
  have [H1 H2 H3] := traj_step Wb Starts B0 S0 M0 M1 Theta Radius Tj Hd Ha.
  have -> : it j.+1 p = (s2, (it j p).2 + a *: d) by rewrite /= /next E1 E2.
  split=> //; split=> //; split=> // Em. move: H3. case/andP: Ha; rewrite Em => a0 a1.
  have -> : a = 1 by apply: le_anti; rewrite a0 a1. by rewrite /= subrr mul0r add0r mul1r.
have Inv j : T j (it j p).2 /\ I (it j p).1.
  elim: j => [|j [IH1 IH2]]; first by split=> //; apply: traj_0.
  by have [? [? _]] := Step j IH1 IH2.
have Ball j : ball p.2 r (it j p).2 := traj_ball B0 S0 M0 M1 Theta Radius (proj1 (Inv j)).
have Rest j : nresidual ls (it j.+1 p).2 <= (1 - gain) * nresidual ls (it j p).2 /\
    (m = 1 -> nresidual ls (it j.+1 p).2 <= (K * B ^+ 2 * nresidual ls (it j p).2) ^+ 2).
  by have [_ [_ H]] := Step j (proj1 (Inv j)) (proj2 (Inv j)).
have E0 := nres_ge0 ls.
have thr0 : 0 <= thr by apply: le_trans Hn; rewrite mulr_ge0 // exprn_ge0 // (rho_ge0 M0 M1 Theta).
have [k [st [Es [Hk [Hs Hrest]]]]] := @hsolve_spec _ _ _ _ (fun a b : F => a < b) (nresidual ls) descent (@sqn F n) dmin thr maxit rdim lsearch inf p fuel Hf.
case: Hrest => [[_ [H0 _]]|[_ [Hstop [Hfirst _]]]]; first by case: Hr.
have Hbelow : ~ above (fun a b : F => a < b) (nresidual ls) descent lsearch thr p k.
  move=> Hab. case: Hstop => [//|[[H3 Hdec]|[Hmax|Hsm]]].
  - case: k Hab H3 Hdec {Es Hk Hs Hfirst} => [|[|[|k]]] Hab H3 Hdec; try by lia.
    have : decreased (fun a b : F => a < b) (nresidual ls) descent lsearch inf p k.+2 = false by apply: Hdec; lia.
    rewrite /decreased {1}/reference => /negP; apply. have [H _] := Rest k.+2.
    apply: le_lt_trans H _. rewrite -{2}(mul1r (nresidual _ _)) ltr_pmul2r ?(rho_lt1 M0 Theta) //.
    rewrite lt_neqAle E0 andbT; apply/eqP => Z. have [H _] := Rest k.+2; move: H Hab; rewrite -Z mulr0 /above => H Hab.
    by have := lt_le_trans Hab (le_trans H thr0); rewrite ltxx.
  - move: Hab; rewrite /above; apply/negP; rewrite -leNgt; apply: le_trans Hn.
    have [[_ [_ H]] _] := Inv k. apply: le_trans H _; apply: ler_wpmul2r => //.
    by apply: (rho_pow M0 M1 Theta); apply/ssrnat.leP; lia.
  - exact: (traj_no_small Wb Starts L0 Scale (Ball k) (Desc (it k p).1 _ (Ball k)) Hab).
exists k. rewrite /nsolve Es (proj2 Hs Hbelow). split; last split; last split; last split.
- congr (Some (_, _, _, _)). have -> : List.seq 0 k = iota 0 k by elim: k 0%N {Es Hk Hs Hstop Hfirst Hbelow} => //= k IH o; rewrite IH.
  have -> (V : Type) (l : seq V) : List.rev l = rev l by elim: l => //= x l ->; rewrite rev_cons -cats1.
  by elim: (rev _) => //= x l ->.
- by apply/ssrnat.leP; lia.
- by move: Hbelow; rewrite /above => /negP; rewrite -leNgt.
- move=> j /ssrnat.ltP Hj. have := Hfirst j Hj; rewrite /stops /above => H.
  case E : (thr < nresidual ls (it j p).2) => //. case: H; left. by rewrite E.
- by move=> j; split.
Qed.
End Hier.
