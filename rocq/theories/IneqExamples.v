(** Three inequalities between two variables on which the solver turns in circles. *)
From Coq Require Import Reals ZArith Lia Lra.
From mathcomp Require Import all_ssreflect all_algebra.
From Verif Require Import RField RReal EcsModel SolveModel SolveSpec SolveProofs DescentModel DescentSpec DescentProofs DescentMain AffModel AffSpec AffProofs AffMain AffExamples NewtModel NewtSpec NewtProofs IneqModel IneqSpec IneqProofs IneqMain IneqBounds.
Set Implicit Arguments. Unset Strict Implicit. Unset Printing Implicit Defensive.
Import Order.TTheory GRing.Theory Num.Theory.
Open Scope ring_scope.
Delimit Scope R_scope with coqR.
Notation FR := R_realFieldType.

Ltac toR := repeat match goal with
  | |- context [@GRing.add ?T ?a ?b] => change (@GRing.add T a b) with (Rplus a b)
  | |- context [@GRing.mul ?T ?a ?b] => change (@GRing.mul T a b) with (Rmult a b)
  | |- context [@GRing.opp ?T ?a] => change (@GRing.opp T a) with (Ropp a)
  | |- context [@GRing.one ?T] => change (@GRing.one T) with R1
  | |- context [@GRing.zero ?T] => change (@GRing.zero T) with R0
  end.
Definition mat32 (a b c d e f : R) : 'M[FR]_(3, 2) := \matrix_(i, j) (match nat_of_ord i, nat_of_ord j with 0, 0 => a | 0, _ => b | 1, 0 => c | 1, _ => d | _, 0 => e | _, _ => f end)%N.
Definition col3 (a b c : R) : 'cV[FR]_3 := \col_i (match nat_of_ord i with 0 => a | 1 => b | _ => c end)%N.
Definition pt (x y : R) : 'cV[FR]_2 := \col_i (match nat_of_ord i with 0 => x | _ => y end)%N.
Lemma sum2 (f : 'I_2 -> FR) : \sum_i f i = f ord0 + f ord_max.
Proof. by rewrite big_ord_recl big_ord1; congr (_ + f _); apply: val_inj. Qed.
Lemma pt_eta (q : 'cV[FR]_2) : q = pt (q ord0 0) (q ord_max 0).
Proof. apply/matrixP => -[[|[|i]] Hi] j //; rewrite ord1 !mxE /=; congr (q _ _); exact: val_inj. Qed.
Lemma norm2_pt x y : norm2 (pt x y) = (x * x + y * y)%coqR.
Proof. by rewrite /norm2 sum2 !mxE /= !expr2. Qed.
(** 63 x - 16 y >= 300, -4 x + 3 y >= 0, 84 x + 12 y >= 300 *)
Definition circle : ilevel FR 2 := @mkil FR 2 3 (mat32 63 (-16) (-4) 3 84 12) (col3 300 0 300) (fun _ => Superior) [:: 1; 1; 1]%N.
Notation i0 := (@Ordinal 3 0 isT). Notation i1 := (@Ordinal 3 1 isT). Notation i2 := (@Ordinal 3 2 isT).
Lemma ord3 (P : 'I_3 -> Prop) : P i0 -> P i1 -> P i2 -> forall i, P i.
Proof. move=> H0 H1 H2 [[|[|[|i]]] Hi] //; [move: H0|move: H1|move: H2]; congr P; exact: val_inj. Qed.
Lemma circle_value x y : [/\ @value FR 2 circle (pt x y) i0 = (63 * x - 16 * y - 300)%coqR, @value FR 2 circle (pt x y) i1 = (-4 * x + 3 * y)%coqR & @value FR 2 circle (pt x y) i2 = (84 * x + 12 * y - 300)%coqR].
Proof. by split; rewrite /value sum2 !mxE /=; toR; ring. Qed.
Lemma circle_res (q : 'cV[FR]_2) M : nresidual [:: compared 0 circle] q <= M <-> 0 <= M /\ forall i : 'I_3, ierr 0 circle q i 0 ^+ 2 <= M.
Proof.
change (fres [:: compared 0 circle] (fun l0 : nlevel FR 2 => nl_err l0 q) <= M <-> 0 <= M /\ forall i : 'I_3, ierr 0 circle q i 0 ^+ 2 <= M).
rewrite fresP; split=> -[M0 H]; split=> //.
- move=> i. have := H (compared 0 circle) i (or_introl erefl) (ltn_ord i).
  rewrite (bigD1 i) /=; last by move: i; apply: ord3.
  by apply: le_trans; rewrite ler_addl; apply: sumr_ge0 => j _; apply: sqr_ge0.
- move=> l c [<-|[]] /= Hc. rewrite (bigD1 (Ordinal Hc)) /=; last by case: c Hc => [|[|[|c]]].
  rewrite big1 ?addr0; first exact: H. move=> j /andP[Hj /eqP Nj]. case: Nj. apply: val_inj => /=.
  by move: c Hc Hj => [|[|[|c]]] // _; case: j => [[|[|[|j]]] ].
Qed.
Notation resc := (nresidual [:: compared 0 circle]).
Lemma circle_ge (q : 'cV[FR]_2) (i : 'I_3) : ierr 0 circle q i 0 ^+ 2 <= resc q.
Proof. by have [_] := proj1 (circle_res q (resc q)) (lexx _). Qed.
Lemma ltRb (a b : R) : (a < b)%coqR -> (a < b :> FR) = true. Proof. by move=> H; apply/ltR. Qed.
Lemma ltRf (a b : R) : (b <= a)%coqR -> (a < b :> FR) = false. Proof. by move=> H; apply/negbTE; rewrite -leNgt; apply/leR. Qed.
Lemma circle_takes (q : 'cV[FR]_2) i : taking 0 (l := circle) q i = (value q i < 0). Proof. by []. Qed.
Notation P0 := (pt 0 0). Notation P1 := (pt 4 (-3)).
Lemma takes0 : [/\ taking 0 (l := circle) P0 i0 = true, taking 0 (l := circle) P0 i1 = false & taking 0 (l := circle) P0 i2 = true].
Proof.
have [E0 E1 E2] := circle_value 0 0. split; rewrite circle_takes ?E0 ?E1 ?E2; [apply: ltRb|apply: ltRf|apply: ltRb]; toR; lra.
Qed.
Lemma takes1 : [/\ taking 0 (l := circle) P1 i0 = false, taking 0 (l := circle) P1 i1 = true & taking 0 (l := circle) P1 i2 = false].
Proof.
have [E0 E1 E2] := circle_value 4 (-3). split; rewrite circle_takes ?E0 ?E1 ?E2; [apply: ltRf|apply: ltRb|apply: ltRf]; toR; lra.
Qed.
Lemma err0 : [/\ ierr 0 circle P0 i0 0 = (-300)%coqR, ierr 0 circle P0 i1 0 = 0 & ierr 0 circle P0 i2 0 = (-300)%coqR].
Proof.
have [E0 E1 E2] := circle_value 0 0. have [T0 T1 T2] := takes0. split; rewrite ierrE ?T0 ?T1 ?T2 /lack /= ?E0 ?E2 //; toR; lra.
Qed.
Lemma err1 : [/\ ierr 0 circle P1 i0 0 = 0, ierr 0 circle P1 i1 0 = (-25)%coqR & ierr 0 circle P1 i2 0 = 0].
Proof.
have [E0 E1 E2] := circle_value 4 (-3). have [T0 T1 T2] := takes1. split; rewrite ierrE ?T0 ?T1 ?T2 /lack /= ?E1 //; toR; lra.
Qed.
Lemma res0 : resc P0 = 90000%coqR.
Proof.
have [E0 E1 E2] := err0. apply: le_anti; apply/andP; split.
- apply/circle_res; split; first by apply/leR; toR; lra. by apply: ord3; rewrite ?E0 ?E1 ?E2 !expr2; apply/leR; toR; lra.
- apply: le_trans (circle_ge P0 i0). by rewrite E0 expr2; apply/leR; toR; lra.
Qed.
Lemma res1 : resc P1 = 625%coqR.
Proof.
have [E0 E1 E2] := err1. apply: le_anti; apply/andP; split.
- apply/circle_res; split; first by apply/leR; toR; lra. by apply: ord3; rewrite ?E0 ?E1 ?E2 !expr2; apply/leR; toR; lra.
- apply: le_trans (circle_ge P1 i1). by rewrite E1 expr2; apply/leR; toR; lra.
Qed.
Notation atc q := [seq at_n q l | l <- [seq compared 0 l | l <- [:: circle]]].
Lemma circle_starts : exists (l : ilevel FR 2) t, [:: circle] = l :: t /\ il_rows l <> 0%N. Proof. by do 2 eexists. Qed.
Lemma row_sum (i : 'I_3) (x : 'cV[FR]_2) : \sum_j il_A circle i j * x j 0 = il_A circle i ord0 * x ord0 0 + il_A circle i ord_max * x ord_max 0.
Proof. by rewrite sum2. Qed.
Lemma dir0 thr' d : descends thr' (atc P0) d -> d = P1.
Proof.
move=> Hd. have [T0 T1 T2] := takes0. have [E0 E1 E2] := err0.
have Hx l : List.In l [:: circle] -> ijac 0 l P0 *m P1 = - ierr 0 l P0.
  move=> [<-|[]]. apply/ijac_err. apply: ord3; rewrite ?T1 // => _; rewrite sum2 !mxE /=; have [V0 V1 V2] := circle_value 0 0; rewrite /lack /= ?V0 ?V2; toR; lra.
have [Hj _] := solves circle_starts Hd Hx. have := Hj circle (or_introl erefl) => /ijac_err H.
have := H i0 T0; have := H i2 T2. have [V0 V1 V2] := circle_value 0 0. rewrite /lack /= V0 V2 !sum2 !mxE /=.
rewrite [d]pt_eta. set a := d ord0 0; set b := d ord_max 0. rewrite !mxE /=. toR => H2 H0.
by have [-> ->] : a = 4%coqR /\ b = (-3)%coqR by split; lra.
Qed.
Lemma dir1 thr' d : descends thr' (atc P1) d -> d = pt (-4) 3.
Proof.
move=> Hd. have [T0 T1 T2] := takes1.
have Hx l : List.In l [:: circle] -> ijac 0 l P1 *m pt (-4) 3 = - ierr 0 l P1.
  move=> [<-|[]]. apply/ijac_err. apply: ord3; rewrite ?T0 ?T2 // => _; rewrite sum2 !mxE /=; have [V0 V1 V2] := circle_value 4 (-3); rewrite /lack /= ?V1; toR; lra.
have [Hj] := solves circle_starts Hd Hx. have := Hj circle (or_introl erefl) => /ijac_err H.
have := H i1 T1. have [V0 V1 V2] := circle_value 4 (-3). rewrite /lack /= V1 !sum2 !mxE /=.
rewrite [d]pt_eta. set a := d ord0 0; set b := d ord_max 0. rewrite !norm2_pt !mxE /=. toR => H1 /leR H2.
have [-> ->] : a = (-4)%coqR /\ b = 3%coqR by split; nra.
by [].
Qed.
Lemma step_sum : P0 + P1 = P1 /\ P1 + pt (-4) 3 = P0.
Proof. split; apply/matrixP => -[[|[|i]] Hi] j //; rewrite !mxE /=; toR; lra. Qed.
(** strictly feasible *)
Definition inside (z : 'cV[FR]_2) : Prop := forall i : 'I_3, 0 < @value FR 2 circle z i.
Lemma circle_inside : inside (pt 12 17).
Proof. have [E0 E1 E2] := circle_value 12 17. apply: ord3; rewrite ?E0 ?E1 ?E2; apply/ltR; toR; lra. Qed.
Section Turns.
Variables (thr' dmin thr inf : R) (maxit rdim : Z) (fuel : nat) (descent : unit -> 'cV[FR]_2 -> 'cV[FR]_2 * unit).
Hypothesis D0 : descends (thr' : FR) (atc P0) (descent tt P0).1.
Hypothesis D1 : descends (thr' : FR) (atc P1) (descent tt P1).1.
Notation it k := (iterate descent (@full FR 2) k (tt, P0)).
Lemma turns k : (it k).2 = if odd k then P1 else P0.
Proof.
elim: k => // k IH. rewrite /= /next. case E : (descent _ _) => [d s] /=. move: E; rewrite IH. case: (it k).1.
have [S0 S1] := step_sum. case: (odd k) => /= E.
- by rewrite (_ : d = pt (-4) 3) //; apply: dir1; rewrite -[d]/(d, s).1 -E; exact: D1.
- by rewrite (_ : d = P1) //; apply: dir0; rewrite -[d]/(d, s).1 -E; exact: D0.
Qed.
Lemma circle_turns : (thr < 625)%coqR -> (dmin <= 25)%coqR -> (Z.to_nat maxit <= fuel)%N -> Z.lt Z0 maxit -> rdim <> Z0 ->
  isolve 0 [:: circle] descent (@full FR 2) dmin thr inf maxit rdim fuel tt P0 =
    Some (Some MAX_ITERATION_REACHED, if odd (Z.to_nat maxit) then P1 else P0, [seq (if odd j then P1 else P0) | j <- rev (iota 0 (Z.to_nat maxit))], maxit).
Proof.
move=> Ht Hd /ssrnat.leP Hf Hm Hr.
have [k [st [Es [Hk [Hs Hrest]]]]] := @hsolve_spec _ _ _ _ (fun a b : FR => a < b) resc descent (@sqn FR 2) dmin thr maxit rdim (@full FR 2) inf (tt, P0) fuel Hf.
case: Hrest => [[_ [H0 _]]|[_ [Hstop [Hfirst [Hmax _]]]]]; first by case: Hr.
have Ab j : above (fun a b : FR => a < b) resc descent (@full FR 2) thr (tt, P0) j.
  rewrite /above turns. case: (odd j); rewrite ?res0 ?res1; apply: ltRb; lra.
have Dec j : (2 <= j)%N -> ~~ odd j -> decreased (fun a b : FR => a < b) resc descent (@full FR 2) inf (tt, P0) j.
  move=> Hj Ho. rewrite /decreased. case: j Hj Ho => // j Hj Ho. rewrite {1}/reference !turns.
  have -> : odd j.+2 = true by rewrite /= negbK; move: Ho; rewrite /= negbK.
  have -> : odd j.+1 = false by apply/negbTE. rewrite res0 res1. apply: ltRb; lra.
have No3 j : ~ three_increases (fun a b : FR => a < b) resc descent (@full FR 2) inf (tt, P0) j.
  case: j => [|[|[|j]]] [H3 H]; try lia.
  case Eo : (odd j).
  - have := H j.+1. rewrite Dec //=; [|by move: j Eo {H3 H} => [|j]|by rewrite Eo]. by move=> /(_ ltac:(lia)).
  - have := H j.+2. rewrite Dec //=; last by rewrite Eo. by move=> /(_ ltac:(lia)).
have NoS j : ~ small_step (fun a b : FR => a < b) descent (@full FR 2) (@sqn FR 2) dmin (tt, P0) j.
  rewrite /small_step. have := turns j. case: (it j) => -[] q /= ->. rewrite sqn_norm2.
  case: (odd j); [rewrite (dir1 D1)|rewrite (dir0 D0)]; rewrite norm2_pt ltRf //; lra.
have Kk : k = Z.to_nat maxit.
  case: Hstop => [|[|[H|]]]; [by move/(_ (Ab k))|by move/No3|by lia|by move/NoS].
have Est : st = MAX_ITERATION_REACHED by apply: (proj2 Hmax); split; [exact: Ab|lia].
rewrite /isolve /nsolve [X in hsolve _ X]/= Es past_eq Est turns Kk. congr (Some (_, _, _, _)); last by lia.
by apply: eq_map => j; apply: turns.
Qed.
End Turns.

(** singular values at the two points *)
Definition U0 : 'M[FR]_(3, 2) := mat32 (3 / 5) (- (4 / 5)) 0 0 (4 / 5) (3 / 5).
Definition S0 : 'rV[FR]_2 := \row_j (match nat_of_ord j with 0 => 105 | _ => 20 end)%coqR%N.
Lemma mat2P (A B : 'M[FR]_2) : A ord0 ord0 = B ord0 ord0 -> A ord0 ord_max = B ord0 ord_max -> A ord_max ord0 = B ord_max ord0 -> A ord_max ord_max = B ord_max ord_max -> A = B.
Proof.
move=> H1 H2 H3 H4; apply/matrixP => i j.
have O (k : 'I_2) : k = ord0 \/ k = ord_max by case: k => [[|[|k]] Hk] //; [left|right]; apply: val_inj.
by case: (O i) => ->; case: (O j) => ->.
Qed.
Lemma sum3 (f : 'I_3 -> FR) : \sum_i f i = f i0 + f i1 + f i2.
Proof. rewrite !big_ord_recl big_ord0 addr0 addrA. by congr (f _ + f _ + f _); apply: val_inj. Qed.
Lemma ord2 (P : 'I_2 -> Prop) : P ord0 -> P ord_max -> forall i, P i.
Proof. move=> H0 H1 [[|[|i]] Hi] //; [move: H0|move: H1]; congr P; exact: val_inj. Qed.
Lemma svd0_E : ijac 0 circle P0 = U0 *m diag_mx S0 *m (1%:M)^T.
Proof.
have [T0 T1 T2] := takes0. rewrite trmx1 mulmx1. apply/matrixP; apply: ord3; apply: ord2; rewrite ijacE ?T0 ?T1 ?T2 !mxE sum2 !mxE /=; rewrite ?mulr1n ?mulr0n; toR; try lra; field.
Qed.
Lemma svd0_S (i : 'I_2) : 0 < S0 0 i.
Proof. by move: i; apply: ord2; rewrite mxE /=; apply/ltR; toR; lra. Qed.
Lemma svd0_U : U0^T *m U0 = 1%:M.
Proof. apply: mat2P; rewrite !mxE sum3 !mxE /= ?mulr1n ?mulr0n; toR; try lra.
Qed.
Lemma id_V1 : (1%:M : 'M[FR]_2)^T *m 1%:M = 1%:M. Proof. by rewrite trmx1 mulmx1. Qed.
Lemma id_V2 : (0 : 'M[FR]_(2, 0))^T *m 0 = 1%:M. Proof. by apply/matrixP => -[]. Qed.
Lemma id_V12 : (1%:M : 'M[FR]_2)^T *m (0 : 'M[FR]_(2, 0)) = 0. Proof. by rewrite mulmx0. Qed.
Lemma id_full : 1%:M *m (1%:M : 'M[FR]_2)^T + (0 : 'M[FR]_(2, 0)) *m 0^T = 1%:M. Proof. by rewrite trmx1 mulmx1 mul0mx addr0. Qed.
Definition svd0 : svd (ijac 0 circle P0) := @mksvd FR 3 2 _ 2 0 U0 S0 1%:M 0 svd0_E svd0_S svd0_U id_V1 id_V2 id_V12 id_full (addn0 2%N).
Definition U1 : 'M[FR]_(3, 1) := col3 0 1 0.
Definition S1 : 'rV[FR]_1 := const_mx 5%coqR.
Definition V1a : 'M[FR]_(2, 1) := pt (- (4 / 5)) (3 / 5).
Definition V1b : 'M[FR]_(2, 1) := pt (3 / 5) (4 / 5).
Lemma svd1_E : ijac 0 circle P1 = U1 *m diag_mx S1 *m V1a^T.
Proof.
have [T0 T1 T2] := takes1. apply/matrixP; apply: ord3; apply: ord2; rewrite ijacE ?T0 ?T1 ?T2 !mxE big_ord1 !mxE big_ord1 !mxE /= ?mulr1n; toR; lra.
Qed.
Lemma svd1_S (i : 'I_1) : 0 < S1 0 i. Proof. by rewrite mxE; apply/ltR; toR; lra. Qed.
Lemma svd1_U : U1^T *m U1 = 1%:M. Proof. apply/matrixP => i j; rewrite !ord1 !mxE sum3 !mxE /= ?mulr1n; toR; lra. Qed.
Lemma svd1_V1 : V1a^T *m V1a = 1%:M. Proof. apply/matrixP => i j; rewrite !ord1 !mxE sum2 !mxE /= ?mulr1n; toR; lra. Qed.
Lemma svd1_V2 : V1b^T *m V1b = 1%:M. Proof. apply/matrixP => i j; rewrite !ord1 !mxE sum2 !mxE /= ?mulr1n; toR; lra. Qed.
Lemma svd1_V12 : V1a^T *m V1b = 0. Proof. apply/matrixP => i j; rewrite !ord1 !mxE sum2 !mxE /=; toR; lra. Qed.
Lemma svd1_full : V1a *m V1a^T + V1b *m V1b^T = 1%:M.
Proof. apply: mat2P; rewrite !mxE !big_ord1 !mxE /= ?mulr1n ?mulr0n; toR; lra. Qed.
Definition svd1 : svd (ijac 0 circle P1) := @mksvd FR 3 2 _ 1 1 U1 S1 V1a V1b svd1_E svd1_S svd1_U svd1_V1 svd1_V2 svd1_V12 svd1_full erefl.
(** the directions computed from them *)
Definition circle_descent (s : unit) (q : 'cV[FR]_2) : 'cV[FR]_2 * unit :=
  (if q ord0 0 == 0 then solve svd0 (- ierr 0 circle P0) else solve svd1 (- ierr 0 circle P1), s).
Lemma circle_D0 (thr' : R) : descends (thr' : FR) (atc P0) (circle_descent tt P0).1.
Proof.
apply: (@desc_one FR 2 thr' _ _ (at_n P0 (compared 0 circle)) svd0 0) => //. by rewrite /circle_descent mxE /= eqxx.
Qed.
Lemma circle_D1 (thr' : R) : descends (thr' : FR) (atc P1) (circle_descent tt P1).1.
Proof.
apply: (@desc_one FR 2 thr' _ _ (at_n P1 (compared 0 circle)) svd1 0) => //.
rewrite /circle_descent mxE /=. have -> // : ((4%coqR : FR) == 0) = false. apply/eqP. toR. lra.
Qed.

(** x >= 1, x <= 5, y <= -1 *)
Definition box : ilevel FR 2 := @mkil FR 2 3 (mat32 1 0 1 0 0 1) (col3 1 5 (-1)) (fun i => if nat_of_ord i is 0%N then Superior else Inferior) [:: 1; 1; 1]%N.
Lemma box_value x y : [/\ @value FR 2 box (pt x y) i0 = (x - 1)%coqR, @value FR 2 box (pt x y) i1 = (x - 5)%coqR & @value FR 2 box (pt x y) i2 = (y + 1)%coqR].
Proof. by split; rewrite /value sum2 !mxE /=; toR; ring. Qed.
Lemma box_nz (i : 'I_3) : exists k, il_A box i k != 0.
Proof. move: i; apply: ord3; [exists ord0|exists ord0|exists ord_max]; rewrite mxE /=; apply/eqP; toR; lra. Qed.
Lemma box_rows (i j : 'I_3) : i != j -> @orthogonal FR 2 box i j \/ @opposite FR 2 box i j.
Proof.
have Op (a b : 'I_3) : (a == i0) && (b == i1) || (a == i1) && (b == i0) -> @opposite FR 2 box a b.
  move=> H. exists (a == i1), (b == i1), 1. move: H; case/orP => /andP[/eqP-> /eqP->]; split=> //; split=> //; split; rewrite ?oner_eq0 // ltr01; split=> //;
  apply: ord2; rewrite !mxE /=; toR; lra.
move: i j; apply: ord3; apply: ord3 => // _; try (right; exact: Op); left; rewrite /orthogonal sum2 !mxE /=; toR; lra.
Qed.
Lemma box_feasible : ifeasible 0 [:: box] (pt 1 (-1)).
Proof.
have [E0 E1 E2] := box_value 1 (-1). move=> l i [E|[]]; subst l; move: i; apply: ord3; rewrite /holds /= ?E0 ?E1 ?E2; apply/leR; toR; lra.
Qed.
