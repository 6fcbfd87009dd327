(** Around a solution where the equations are smooth and independent they are well behaved. *)
From Coq Require Import Reals Lra.
From mathcomp Require Import all_ssreflect all_algebra.
From Verif Require Import RField RReal DescentSpec AffModel NewtModel NewtSpec NewtProofs NearSpec NearMat.
Set Implicit Arguments. Unset Strict Implicit. Unset Printing Implicit Defensive.
Import Order.TTheory GRing.Theory Num.Theory.
Delimit Scope R_scope with coqR.
Open Scope ring_scope.

(** square roots *)
Definition rt (x : FR) : FR := R_sqrt.sqrt x.
Lemma rt_ge0 x : 0 <= rt x. Proof. by apply/leR; exact: R_sqrt.sqrt_pos. Qed.
Lemma rt_sq x : 0 <= x -> rt x ^+ 2 = x.
Proof. by move=> /leR H; rewrite expr2; exact: R_sqrt.sqrt_sqrt. Qed.
Lemma rt_le x y : 0 <= y -> x <= y ^+ 2 -> rt x <= y.
Proof.
move=> Hy Hx. have [X|X] := lerP 0 x.
  by rewrite -(ler_pexpn2r (n := 2)) ?nnegrE ?rt_ge0 // rt_sq.
by rewrite /rt; move/ltW/leR: X => X; rewrite R_sqrt.sqrt_neg_0.
Qed.
Lemma sq_abs (F : realFieldType) (x y : F) : 0 <= y -> x ^+ 2 <= y ^+ 2 -> `|x| <= y.
Proof. by move=> Hy H; rewrite -(ler_pexpn2r (n := 2)) ?nnegrE // real_normK ?num_real. Qed.
Lemma abs_sq (F : realFieldType) (x y : F) : `|x| <= y -> x ^+ 2 <= y ^+ 2.
Proof. by move=> H; rewrite -real_normK ?num_real // ler_pexpn2r ?nnegrE //; apply: le_trans H. Qed.
Lemma norm2_bnd k (d : 'cV[FR]_k) : bnd d (rt (norm2 d)).
Proof.
move=> i j; rewrite !ord1. apply: sq_abs; first exact: rt_ge0. rewrite rt_sq ?norm2_ge0 // /norm2 (bigD1 i) //= ler_addl.
by apply: sumr_ge0 => *; exact: sqr_ge0.
Qed.
Lemma bnd_norm2 (F : realFieldType) k (d : 'cV[F]_k) e : bnd d e -> norm2 d <= k%:R * e ^+ 2.
Proof.
move=> H. rewrite mulr_natl -[X in _ *+ X](card_ord k) -sumr_const. by apply: ler_sum => i _; apply: abs_sq; exact: H.
Qed.
Lemma norm2_scale (F : realFieldType) k (t : F) (d : 'cV[F]_k) : norm2 (t *: d) = t ^+ 2 * norm2 d.
Proof. by rewrite /norm2 mulr_sumr; apply: eq_bigr => i _; rewrite mxE exprMn. Qed.

Section Each.
Variables (F : realFieldType) (n : nat).
Implicit Type ls : seq (nlevel F n).
Lemma rows_le ls l : List.In l ls -> (nl_rows l <= all_rows ls)%N.
Proof. by elim: ls => //= x t IH [->|/IH H]; [exact: leq_addr|apply: leq_trans H _; exact: leq_addl]. Qed.
Lemma bnd_each ls b e : (forall l, List.In l ls -> bnd (b l) e) -> each ls b ((all_rows ls)%:R * e ^+ 2).
Proof.
move=> H l c Hl _. apply: (@le_trans _ _ ((nl_rows l)%:R * e ^+ 2)); last by apply: ler_wpmul2r; rewrite ?sqr_ge0 ?ler_nat ?rows_le.
apply: le_trans (bnd_norm2 (H l Hl)). rewrite /norm2 big_mkcond /=. apply: ler_sum => i _. by case: ifP => // _; exact: sqr_ge0.
Qed.
Lemma find_seg s i : (i < sumn s)%N -> exists c, (c < size s)%N /\ (sumn (take c s) <= i < sumn (take c.+1 s))%N.
Proof.
elim: s i => //= x t IH i H. have [Hx|Hx] := ltnP i x; first by exists 0%N; rewrite /= take0 /= addn0.
have /IH [c [Hc /andP[H1 H2]]] : (i - x < sumn t)%N by rewrite ltn_subLR.
by exists c.+1; rewrite ltnS /=; split=> //; rewrite -leq_subRL // H1 /= -ltn_subLR.
Qed.
Lemma each_bnd ls b e : covered ls -> 0 <= e -> each ls b (e ^+ 2) -> forall l, List.In l ls -> bnd (b l) e.
Proof.
move=> C He H l Hl i j; rewrite !ord1. have [c [Hc Hi]] := find_seg (leq_trans (ltn_ord i) (C l Hl)).
apply: sq_abs => //. apply: le_trans (H l c Hl Hc). rewrite (bigD1 i) //= ler_addl. by apply: sumr_ge0 => *; exact: sqr_ge0.
Qed.
Fixpoint stackb ls (b : forall l : nlevel F n, 'cV[F]_(nl_rows l)) : 'cV[F]_(all_rows ls) :=
  match ls return 'cV[F]_(all_rows ls) with [::] => 0 | l :: t => col_mx (b l) (stackb t b) end.
Lemma stackb_bnd ls b e : (forall l, List.In l ls -> bnd (b l) e) -> bnd (stackb ls b) e.
Proof.
elim: ls => [_ [] //|l t IH H] /=. by apply/bnd_col; split; [exact: H (or_introl erefl)|apply: IH => x Hx; apply: H; right].
Qed.
Lemma stack_solve ls b q x : stacked ls q *m x = stackb ls b -> forall l, List.In l ls -> nl_jac l q *m x = b l.
Proof. by elim: ls => //= l t IH; rewrite mul_col_mx => /eq_col_mx [H /IH K] l' [<-|/K]. Qed.
Lemma stacked_bnd ls q e : bnd (stacked ls q) e -> forall l, List.In l ls -> bnd (nl_jac l q) e.
Proof. by elim: ls => //= l t IH /bnd_col [H /IH K] l' [<-|/K]. Qed.
Lemma stacked_diff ls q q' e : (forall l, List.In l ls -> bnd (nl_jac l q' - nl_jac l q) e) -> bnd (stacked ls q' - stacked ls q) e.
Proof.
elim: ls => [_ [] //|l t IH H] /=. rewrite opp_col_mx add_col_mx.
by apply/bnd_col; split; [exact: H (or_introl erefl)|apply: IH => x Hx; apply: H; right].
Qed.
End Each.

Lemma ball_convex (F : realFieldType) n (q0 q d : 'cV[F]_n) r t : ball q0 r q -> ball q0 r (q + d) -> 0 <= t <= 1 -> ball q0 r (q + t *: d).
Proof.
rewrite /ball => H1 H2 Ht.
have -> : q + t *: d - q0 = (1 - t) *: (q - q0) + t *: (q + d - q0).
  by rewrite scalerBl scale1r [q + d - q0]addrAC [t *: (_ + d)]scalerDr addrA subrK addrAC.
move: H1 H2; set u := q - q0; set v := q + d - q0 => H1 H2. apply: (@le_trans _ _ ((1 - t) * norm2 u + t * norm2 v)).
  rewrite /norm2 !mulr_sumr -big_split /=. apply: ler_sum => i _. rewrite !mxE. exact: sqr_convex.
have /andP[t0 t1] := Ht.
have -> : r ^+ 2 = (1 - t) * r ^+ 2 + t * r ^+ 2 by rewrite -mulrDl subrK mul1r.
by apply: ler_add; apply: ler_wpmul2l; rewrite ?subr_ge0.
Qed.

Section Ball.
Variables (n : nat) (ls : seq (nlevel FR n)) (q0 : 'cV[FR]_n) (r a : FR).
Hypotheses (S : smooth ls q0 r a) (a0 : 0 <= a) (r0 : 0 <= r) (C : covered ls).
Local Notation N := ((all_rows ls)%:R : FR).
Lemma ball_q0 : ball q0 r q0.
Proof. by rewrite /ball subrr /norm2 big1 ?sqr_ge0 // => i _; rewrite mxE expr0n. Qed.
(** mean value *)
Lemma mean l q d i : List.In l ls -> ball q0 r q -> ball q0 r (q + d) ->
  exists t : FR, (0 <= t <= 1) /\ (nl_err l (q + d) - nl_err l q) i 0 = (nl_jac l (q + t *: d) *m d) i 0.
Proof.
move=> Hl H1 H2.
pose f (t : R) : R := nl_err l (q + (t : FR) *: d) i 0. pose f' (t : R) : R := (nl_jac l (q + (t : FR) *: d) *m d) i 0.
have D : forall c, (0 <= c <= 1)%coqR -> derivable_pt_lim f c (f' c).
  move=> c [c0 c1]. have Hb : ball q0 r (q + (c : FR) *: d) by apply: ball_convex => //; apply/andP; split; apply/leR.
  have [H _] := S Hl Hb. move=> eps He. have [dl Hd] := H d i eps He. exists dl => h Hn Hh. have := Hd h Hn Hh.
  rewrite /f. have -> : q + ((c + h)%coqR : FR) *: d = q + (c : FR) *: d + ((0 + h)%coqR : FR) *: d.
    by rewrite -addrA -scalerDl Rplus_0_l.
  have <- : q + (c : FR) *: d = q + (c : FR) *: d + (0%coqR : FR) *: d by rewrite scale0r addr0.
  by [].
have [t [E [t0 t1]]] := MVT_cor2 f f' 0%coqR 1%coqR Rlt_0_1 D.
exists t. split; first by apply/andP; split; apply/leR; apply: Rlt_le.
move: E. rewrite Rminus_0_r Rmult_1_r /f /f' scale1r scale0r addr0 => <-. by rewrite !mxE.
Qed.
Lemma lip l q q' : List.In l ls -> ball q0 r q -> ball q0 r q' -> bnd (nl_jac l q' - nl_jac l q) (a * rt (norm2 (q' - q))).
Proof.
move=> Hl H1 H2 i j. have [_ H] := S Hl H1. rewrite 2!mxE. apply: sq_abs; first by rewrite mulr_ge0 ?rt_ge0.
by rewrite exprMn rt_sq ?norm2_ge0 //; exact: H.
Qed.
Lemma curved_ball q d : ball q0 r q -> ball q0 r (q + d) -> curved ls (N * (n%:R * a)) q d.
Proof.
move=> H1 H2. have := @bnd_each _ _ ls (fun l => nl_err l (q + d) - nl_err l q - nl_jac l q *m d) (n%:R * (a * rt (norm2 d) * rt (norm2 d))) _.
have P : forall l, List.In l ls -> bnd (nl_err l (q + d) - nl_err l q - nl_jac l q *m d) (n%:R * (a * rt (norm2 d) * rt (norm2 d))).
  move=> l Hl i j. rewrite !ord1. have [t [Ht E]] := mean i Hl H1 H2. rewrite mxE E.
  have -> : (nl_jac l (q + t *: d) *m d) i 0 + (- (nl_jac l q *m d)) i 0 = ((nl_jac l (q + t *: d) - nl_jac l q) *m d) i 0 by rewrite mulmxBl !mxE.
  refine (bnd_mul _ (norm2_bnd d) i 0). have /andP[t0 t1] := Ht.
  apply: bnd_le (lip Hl H1 (ball_convex H1 H2 Ht)). apply: ler_wpmul2l => //. rewrite addrC addKr norm2_scale.
  apply: rt_le; first exact: rt_ge0. rewrite rt_sq ?norm2_ge0 // -[X in _ <= X]mul1r. apply: ler_wpmul2r; rewrite ?norm2_ge0 //.
  by apply: exprn_ile1.
move=> /(_ P) H l c Hl Hc. apply: le_trans (H l c Hl Hc) _.
rewrite -[a * _ * _]mulrA -expr2 rt_sq ?norm2_ge0 // !exprMn !mulrA.
do 6! (apply: ler_wpmul2r; first by rewrite ?ler0n ?norm2_ge0).
case: (all_rows ls) => [|k]; first by rewrite expr0n. by rewrite expr2 ler_pmull ?ltr0n // ler1n.
Qed.
Variable jb : FR.
Hypotheses (jb0 : 0 <= jb) (HJ : bnd (stacked ls q0) jb).
Lemma jac_ball l q : List.In l ls -> ball q0 r q -> bnd (nl_jac l q) (jb + a * r).
Proof.
move=> Hl H i j. have -> : nl_jac l q i j = nl_jac l q0 i j + (nl_jac l q - nl_jac l q0) i j by rewrite !mxE addrC subrK.
apply: le_trans (ler_norm_add _ _) _. apply: ler_add; first exact: (stacked_bnd HJ Hl).
apply: le_trans (lip Hl ball_q0 H i j) _. by apply: ler_wpmul2l => //; apply: rt_le.
Qed.
Lemma stretch_ball q : ball q0 r q -> nstretch ls (N * (n%:R * (jb + a * r)) ^+ 2) q.
Proof.
move=> H x. have P : forall l, List.In l ls -> bnd (nl_jac l q *m x) (n%:R * ((jb + a * r) * rt (norm2 x))).
  by move=> l Hl; apply: bnd_mul (norm2_bnd x); exact: jac_ball.
move=> l c Hl Hc. apply: le_trans (bnd_each P Hl Hc) _. by rewrite mulrA exprMn rt_sq ?norm2_ge0 // mulrA.
Qed.
Lemma residual_ball q : root ls q0 -> ball q0 r q -> nresidual ls q <= N * (n%:R * (jb + a * r)) ^+ 2 * norm2 (q - q0).
Proof.
move=> R0 H. have E : q = q0 + (q - q0) by rewrite addrC subrK.
have P : forall l, List.In l ls -> bnd (nl_err l q) (n%:R * ((jb + a * r) * rt (norm2 (q - q0)))).
  move=> l Hl i j. rewrite !ord1. have [|t [Ht]] := @mean l q0 (q - q0) i Hl ball_q0; first by rewrite -E.
  rewrite -E R0 // subr0 => ->. refine (bnd_mul _ (norm2_bnd _) i 0). apply: jac_ball => //. apply: ball_convex => //; [exact: ball_q0|by rewrite -E].
apply/(fresP ls (fun l => nl_err l q)); split.
  by rewrite mulr_ge0 ?norm2_ge0 // mulr_ge0 ?ler0n ?sqr_ge0.
move=> l c Hl Hc. apply: le_trans (bnd_each P Hl Hc) _. by rewrite mulrA exprMn rt_sq ?norm2_ge0 // mulrA.
Qed.
Variables (X : 'M[FR]_(n, all_rows ls)) (x : FR).
Hypotheses (HX : stacked ls q0 *m X = 1%:M) (Hx : bnd X x) (x0 : 0 <= x).
Lemma regular_ball q : N * (n%:R * (a * r * x)) * 2%:R <= 1 -> ball q0 r q -> regular ls (n%:R * (N * (x * (2%:R * N)))) q.
Proof.
move=> Hs H b M M0 Hb.
have Hb' := each_bnd C (rt_ge0 M); rewrite rt_sq // in Hb'.
have [|y [Hy By]] := near_inverse (A' := stacked ls q) HX _ Hx Hs (stackb_bnd (Hb' b Hb)).
  apply: stacked_diff => l Hl. apply: bnd_le (lip Hl ball_q0 H). by apply: ler_wpmul2l => //; apply: rt_le.
exists y; split; last exact: stack_solve.
apply: le_trans (bnd_norm2 By) _.
have -> : N * (x * (2%:R * (N * rt M))) = N * (x * (2%:R * N)) * rt M by rewrite !mulrA.
set Z := N * (x * (2%:R * N)). rewrite exprMn rt_sq // [(n%:R * Z) ^+ 2]exprMn [n%:R * _]mulrA.
apply: ler_wpmul2r => //.
apply: ler_wpmul2r; first exact: sqr_ge0. case: {+}n => [|k] /=; first by rewrite expr0n. rewrite // expr2 ler_pmull ?ltr0n // ler1n //.
Qed.
End Ball.
