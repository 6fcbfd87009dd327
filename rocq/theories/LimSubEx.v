(** Concrete runs by substitution under bounds. *)
From Coq Require Import Reals ZArith Lra Lia.
From mathcomp Require Import all_ssreflect all_algebra.
From Verif Require Import SolveModel LineModel SatModel DescentModel DescentSpec DescentProofs DescentMain RField RReal AffModel AffSpec AffProofs AffMain AffBack NewtModel NearExamples SvdMain LimModel LimSpec LimScalar LimProofs LimMain LimExamples LimSub.
Set Implicit Arguments. Unset Strict Implicit. Unset Printing Implicit Defensive.
Import Order.TTheory GRing.Theory Num.Theory.
Delimit Scope R_scope with coqR.
Open Scope ring_scope.

Lemma sum1 (f : 'I_1 -> FR) : \sum_j f j = f 0. Proof. by rewrite big_ord_recl big_ord0 addr0. Qed.
Section Out.
Definition o_lm : limits FR 2 := mklim (vec 2 [:: -10; -10]%coqR) (vec 2 [:: 10; 10]%coqR).
Definition o_lmy : limits FR 1 := mklim (vec 1 [:: -1]%coqR) (vec 1 [:: 1]%coqR).
Definition o_G : 'M[FR]_(1, 2) := mat 1 2 [:: [:: 2; 0]]%coqR.
Notation o_a := (ones + (0 : 'rV[FR]_1) *m o_G).
Notation o_b := (rhs (0 : 'cV[FR]_1) (0 : 'rV[FR]_1) (4%coqR : FR)).
Lemma o_aE : o_a = ones. Proof. by rewrite mul0mx addr0. Qed.
Lemma o_bE : o_b = 4%coqR. Proof. by rewrite /rhs sum1 !mxE mul0r subr0. Qed.
Lemma o_e x : LimProofs.e o_a o_b x = (cx x + cy x - 4)%coqR. Proof. by rewrite o_aE o_bE ones_e. Qed.
Lemma o_ca i : ca o_lm o_a o_b (pt 0 0) i = 1%coqR.
Proof.
rewrite /ca /coef o_e pt_x pt_y o_aE; have -> : ones 0 i = 1%coqR by rewrite mxE /=; move: i; ords.
have -> : fl (lo o_lm i 0) (hi o_lm i 0) (pt 0 0 i 0) = 0%coqR by rewrite /fl; move: i; ords; rewrite !mxE /=; toR; flags.
by case: Rlt_dec => //; lra.
Qed.
Lemma o_step : step o_lm o_a o_b (pt 0 0) = pt 2%coqR 2%coqR.
Proof.
have c : cn o_lm o_a o_b (pt 0 0) = 2%coqR by rewrite /cn sum2 !o_ca !expr2; req; ring.
apply/matrixP => i j; rewrite ord1 mxE o_ca c o_e pt_x pt_y.
have -> : (pt 2%coqR 2%coqR : 'cV[FR]_2) i 0 = 2%coqR by rewrite mxE; case: ifP.
apply: (mulIf (x := (2%coqR : FR))); first by apply/eqP => /=; toR; lra.
rewrite mulr1 mulNr mulfVK; last by apply/eqP => /=; toR; lra.
by req; ring.
Qed.
End Out.

Notation gf G h := (fun x : 'cV[FR]_ _ => G *m x + h).
Lemma out_of_bounds : exists (lm : limits FR 2) (lmy : limits FR 1) (G : 'M[FR]_(1, 2)) (h : 'cV[FR]_1) (u : 'rV[FR]_2) (v : 'rV[FR]_1) (w : FR) (c good bad : conf FR 2 1),
  (forall i, lo lm i 0 < hi lm i 0) /\ (forall i, lo lmy i 0 < hi lmy i 0) /\
  (within (lo lm) (hi lm) c.1 /\ within (lo lmy) (hi lmy) c.2 /\ c.2 = G *m c.1 + h) /\
  (within (lo lm) (hi lm) good.1 /\ within (lo lmy) (hi lmy) good.2 /\ good.2 = G *m good.1 + h /\ pair_error u v w good = 0) /\
  ~ within (lo lmy) (hi lmy) bad.2 /\
  forall St (s : St) descent thr' (dmin thr : FR) maxit rdim fuel,
   (forall s x, within (lo lm) (hi lm) x -> descends thr' [:: at_blim lm G (row_blevel u v w) (x, G *m x + h)] (descent s (x, G *m x + h)).1) ->
   (0 < dmin <= 8)%coqR -> (0 < thr <= 16)%coqR -> rdim <> Z0 -> Z.lt Z0 maxit -> (0 < fuel)%N ->
   exists b, absolve [:: row_blevel u v w] G h descent (@bls_constant FR 2 1 lm lmy St (fun x => G *m x + h)) dmin thr maxit rdim fuel s c = Done SUCCESS bad b.
Proof.
exists o_lm, o_lmy, o_G, 0, ones, 0, (4%coqR : FR), (pt 0 0, 0), (pt (1/2)%coqR (7/2)%coqR, vec 1 [:: 1%coqR]), (pt 2%coqR 2%coqR, o_G *m pt 2%coqR 2%coqR + 0).
have hl : forall i, lo o_lm i 0 < hi o_lm i 0 by ords; rewrite !mxE /=; apply/ltR => /=; lra.
have inx x y : (-10 <= x <= 10)%coqR -> (-10 <= y <= 10)%coqR -> within (lo o_lm) (hi o_lm) (pt x y).
  by move=> hx hy; rewrite /within; ords; rewrite !mxE /=; apply/andP; split; apply/leR => /=; lra.
have GE x y : o_G *m pt x y + 0 = vec 1 [:: (2 * x)%coqR].
  by apply/matrixP => i j; rewrite !ord1 addr0 mxE sum2 !mxE /=; req; ring.
split=> //; split; first by ords; rewrite !mxE /=; apply/ltR => /=; lra.
split; first split; first by apply: inx; toR; lra.
  split; first by rewrite /within; ords; rewrite !mxE /=; apply/andP; split; apply/leR => /=; toR; lra.
  by rewrite GE; apply/matrixP => i j; rewrite !ord1 !mxE /=; req; ring.
split; first split; first by apply: inx; lra.
  split; first by rewrite /within; ords; rewrite !mxE /=; apply/andP; split; apply/leR => /=; toR; lra.
  rewrite GE; split; first by apply/matrixP => i j; rewrite !ord1 !mxE /=; req; field.
  by rewrite /pair_error sum1 sum2 /= !mxE /= expr2; req; field.
split; first by rewrite GE => /(_ ord0); rewrite !mxE /= => /andP[_ /leR]; lra.
move=> St s descent thr' dmin thr maxit rdim fuel Desc hd ht hr hm hf.
have [t0 t16] : 4%:R^-1 * thr < 16%coqR /\ (4%:R^-1 * thr < 0) = false.
  have p4 : 0 < 4%:R :> FR by rewrite ltr0n.
  split; last by apply/negbTE; rewrite -leNgt mulr_ge0 ?invr_ge0 ?ltW //; apply/ltR; toR; lra.
  rewrite mulrC ltr_pdivr_mulr //; apply/ltR; rewrite natINR; toR; simpl; lra.
rewrite /absolve /bsolve /= /binit bresE o_e pt_x pt_y.
have -> : (rdim =? 0)%Z = false by apply/Z.eqb_neq.
rewrite andbF /=.
have e0 : ((0 + 0 - 4)%coqR : FR) ^+ 2 = 16%coqR by rewrite expr2; req; ring.
rewrite !e0.
have -> : (16%coqR < thr) = false by apply/negbTE; rewrite -leNgt; apply/leR; lra.
case: fuel hf => // fuel _; rewrite /= t0 /=.
have -> : (maxit <=? 0)%Z = false by apply/Z.leb_gt.
case Ed: (descent s _) => [d s1].
have dE : d = pt 2%coqR 2%coqR.
  have := bdesc Desc s (inx 0%coqR 0%coqR ltac:(lra) ltac:(lra)); rewrite Ed /= => ->; exact: o_step.
have -> : (sqn d < dmin) = false.
  by apply/negbTE; rewrite -leNgt dE sqn_norm2 /norm2 sum2 -/(cx _) -/(cy _) pt_x pt_y !expr2; apply/leR; toR; lra.
have -> : lintegrate o_lm (pt 0 0) d = pt 2%coqR 2%coqR.
  rewrite dE /lintegrate (_ : pt 0 0 + _ = pt 2%coqR 2%coqR); first by rewrite saturated_id //; apply: inx; lra.
  by apply/matrixP => i j; rewrite !mxE; case: ifP => _; rewrite add0r.
rewrite /= bresE o_e pt_x pt_y.
have -> : ((2 + 2 - 4)%coqR : FR) ^+ 2 = 0 by rewrite expr2; req; ring.
have -> : (0 : FR) < 16%coqR by apply/ltR; toR; lra.
rewrite loop_out /=; first by eexists.
exact: t16.
Qed.

(** y = x1 + x2 in the unit square, y = 2 and y = 3 *)
Definition one1 : 'rV[FR]_1 := mat 1 1 [:: [:: 1]]%coqR.
Lemma one1_mul : (0 : 'rV[FR]_2) + one1 *m ones = ones.
Proof. by rewrite add0r; apply/matrixP => i j; rewrite ord1 mxE sum1 !mxE /= -[RHS]mul1r. Qed.
Lemma sum_error w x : pair_error (0 : 'rV[FR]_2) one1 w (x, ones *m x + 0) = ((cx x + cy x - w) * (cx x + cy x - w))%coqR.
Proof.
have E : (ones *m x + 0) 0 0 = (cx x + cy x)%coqR.
  by rewrite addr0 mxE sum2 -/(cx x) -/(cy x) !mxE /=; req; ring.
rewrite /pair_error sum1 /= E big1 ?expr2; last by move=> i _; rewrite mxE mul0r.
by rewrite mxE /=; req; ring.
Qed.
Lemma sub_case : exists (d2 d3 : unit -> conf FR 2 1 -> 'cV[FR]_2 * unit),
  (forall s x, descends 0 [:: at_blim square ones (row_blevel 0 one1 (2%coqR : FR)) (x, ones *m x + 0)] (d2 s (x, ones *m x + 0)).1) /\
  (forall s x, descends 0 [:: at_blim square ones (row_blevel 0 one1 (3%coqR : FR)) (x, ones *m x + 0)] (d3 s (x, ones *m x + 0)).1) /\
  (exists c b, absolve [:: row_blevel 0 one1 (2%coqR : FR)] ones 0 d2 (@bls_constant FR 2 1 square o_lmy unit (fun x => ones *m x + 0)) (1 / 100)%coqR (1 / 10)%coqR (Zpos 40) (Zpos 2) 40 tt (pt 0 0, 0)
     = Done SUCCESS c b) /\
  (exists c b, absolve [:: row_blevel 0 one1 (3%coqR : FR)] ones 0 d3 (@bls_constant FR 2 1 square o_lmy unit (fun x => ones *m x + 0)) (1 / 100)%coqR (1 / 10)%coqR (Zpos 40) (Zpos 2) 40 tt (pt 0 0, 0)
     = Done INFEASIBLE c b).
Proof.
have [d2 h2] := @descent_function 2 0 unit _ (fun c : conf FR 2 1 => [:: at_blim square ones (row_blevel 0 one1 (2%coqR : FR)) c]).
have [d3 h3] := @descent_function 2 0 unit _ (fun c : conf FR 2 1 => [:: at_blim square ones (row_blevel 0 one1 (3%coqR : FR)) c]).
exists d2, d3; split=> //; split=> //.
have hl : forall i, lo square i 0 < hi square i 0 by ords; rewrite !mxE /=; apply/ltR => /=; lra.
have hd : (0 : FR) < (1 / 100)%coqR by apply/ltR; toR; lra.
have t4 : 4%:R^-1 * (1 / 10)%coqR = (1 / 40)%coqR :> FR.
  by apply: (mulfI (x := 4%:R : FR)); rewrite ?pnatr_eq0 // mulrA divff ?pnatr_eq0 // mul1r natINR; req; simpl; field.
have ht : (1 / 100)%coqR * row_norm ((0 : 'rV[FR]_2) + one1 *m ones) <= 4%:R^-1 * (1 / 10)%coqR :> FR by rewrite one1_mul ones_norm t4; apply/leR; toR; lra.
have hq : within (lo square) (hi square) (pt 0 0, (0 : 'cV[FR]_1)).1 by rewrite /within; ords; rewrite !mxE /=; apply/andP; split; apply/leR => /=; toR; lra.
have h0 : (0 : FR) < (1 / 10)%coqR by apply/ltR; toR; lra.
split.
  have [st [x [b [-> [_ [[_ h] _]]]]]] := @bone_row 2 1 unit square o_lmy ones 0 0 one1 (2%coqR : FR) (1 / 100)%coqR (1 / 10)%coqR 0 (Zpos 40) (Zpos 2) d2 hl hd ht (fun s x _ => h2 s (x, ones *m x + 0)) 40 tt (pt 0 0, 0) hq ltac:(by []) ltac:(simpl; lia) (erefl _) h0.
  do 2 eexists; rewrite h //; right; exists (pt 1 1); split; first by rewrite /within; ords; rewrite !mxE /=; apply/andP; split; apply/leR => /=; toR; lra.
  by rewrite t4 sum_error !pt_x !pt_y; apply/leR; toR; lra.
have [st [x [b [-> [_ [[h _] [_ [h' _]]]]]]]] := @bone_row 2 1 unit square o_lmy ones 0 0 one1 (3%coqR : FR) (1 / 100)%coqR (1 / 10)%coqR 0 (Zpos 40) (Zpos 2) d3 hl hd ht (fun s x _ => h3 s (x, ones *m x + 0)) 40 tt (pt 0 0, 0) hq ltac:(by []) ltac:(simpl; lia) (erefl _) h0.
do 2 eexists; rewrite (h' _).1 //; move=> /h [|[z [hz]]].
  by rewrite sum_error /= !pt_x !pt_y => /ltR; toR; lra.
have [/andP[/leR a1 /leR a2] /andP[/leR b1 /leR b2]] := (hz ord0, hz ord_max); move: a2 b2; rewrite !mxE /= -/(cx z) -/(cy z) => a2 b2.
rewrite t4 sum_error => /leR; toR; nra.
Qed.
