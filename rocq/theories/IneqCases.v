(** Bounds, and two inequalities met by going back and forth. *)
From Coq Require Import Reals ZArith Lia Lra.
From mathcomp Require Import all_ssreflect all_algebra.
From Verif Require Import RField RReal EcsModel SolveModel SolveSpec SolveProofs DescentModel DescentSpec DescentProofs DescentMain DescentExamples AffModel AffSpec AffProofs AffMain AffExamples NewtModel NewtSpec NewtProofs NewtExamples IneqModel IneqSpec IneqProofs IneqMain IneqBounds IneqExamples.
Set Implicit Arguments. Unset Strict Implicit. Unset Printing Implicit Defensive.
Import Order.TTheory GRing.Theory Num.Theory.
Open Scope ring_scope.
Delimit Scope R_scope with coqR.
Notation FR := R_realFieldType.
Notation i0 := (@Ordinal 3 0 isT). Notation i1 := (@Ordinal 3 1 isT). Notation i2 := (@Ordinal 3 2 isT).
Lemma descends_at (F : realFieldType) n (thr' : F) (l : level F n) (M : 'M[F]_(rows l, n)) (D : svd M) : jac l = M -> descends thr' [:: l] (solve D (- err l)).
Proof. by move=> E; subst M; apply: (@desc_one F n thr' _ _ l D 0). Qed.

(** box from (0, 0) *)
Notation P0 := (pt 0 0).
Lemma box_takes : [/\ taking 0 (l := box) P0 i0 = true, taking 0 (l := box) P0 i1 = false & taking 0 (l := box) P0 i2 = true].
Proof.
have [E0 E1 E2] := box_value 0 0. split; rewrite /taking /= ?E0 ?E1 ?E2; [apply: ltRb|apply: ltRf|apply: ltRb]; toR; lra.
Qed.
Definition box_J : 'M[FR]_(3, 2) := mat32 1 0 0 0 0 1.
Lemma box_jac : ijac 0 box P0 = box_J.
Proof. have [T0 T1 T2] := box_takes. by apply/matrixP; apply: ord3; apply: ord2; rewrite ijacE ?T0 ?T1 ?T2 !mxE. Qed.
Lemma box_err : ierr 0 box P0 = col3 (-1) 0 1.
Proof.
have [T0 T1 T2] := box_takes. have [E0 E1 E2] := box_value 0 0.
apply/matrixP => i j; rewrite ord1; move: i; apply: ord3; rewrite ierrE ?T0 ?T1 ?T2 /lack /= ?E0 ?E2 !mxE //=; toR; lra.
Qed.
Lemma box_isom : box_J^T *m box_J = 1%:M.
Proof. apply: mat2P; rewrite !mxE sum3 !mxE /= ?mulr1n ?mulr0n; toR; lra. Qed.
Definition box_descent (s : unit) (q : 'cV[FR]_2) : 'cV[FR]_2 * unit := (solve (svd_isom box_isom) (- ierr 0 box q), s).
Lemma box_dir : (box_descent tt P0).1 = pt 1 (-1).
Proof.
rewrite /box_descent /= box_err /solve /=.
have -> : (\row_i ((const_mx 1 : 'rV[FR]_2) 0 i)^-1) = const_mx 1 by apply/rowP => i; rewrite !mxE invr1.
rewrite diag_const_mx !mul1mx. apply/matrixP => i j; rewrite ord1; move: i; apply: ord2; rewrite !mxE sum3 !mxE /=; toR; lra.
Qed.
Lemma box_desc (thr' : R) : descends (thr' : FR) [seq at_n P0 l | l <- [seq compared 0 l | l <- [:: box]]] (box_descent tt P0).1.
Proof. exact: (@descends_at FR 2 thr' (at_n P0 (compared 0 box)) _ (svd_isom box_isom) box_jac). Qed.
Lemma box_stretch : istretch [:: box] (2%coqR : FR).
Proof.
split; first by apply/leR; toR; lra. move=> l x [<-|[]]. rewrite [x]pt_eta. set a := x ord0 0; set b := x ord_max 0.
rewrite norm2_pt /norm2 sum3 !mxE !sum2 !mxE /= !expr2. apply/leR; toR. nra.
Qed.
Lemma case_box (inf : R) fuel : (100 <= fuel)%N ->
  (forall i, exists k, il_A box i k != 0) /\ (forall i j : 'I_(il_rows box), i != j -> orthogonal i j \/ opposite i j) /\
  ifeasible 0 [:: box] (pt 3 (-2)) /\ istretch [:: box] (2%coqR : FR) /\ 2%coqR * dmin12R <= thr8R :> FR /\
  descends (thr8R : FR) [seq at_n P0 l | l <- [seq compared 0 l | l <- [:: box]]] (box_descent tt P0).1 /\
  thr8R < nresidual [:: compared 0 box] P0 /\
  isolve 0 [:: box] box_descent (@full FR 2) dmin12R thr8R inf (Z.of_nat 40) (Z.of_nat 3) fuel tt P0 = Some (Some SUCCESS, pt 1 (-1), [:: P0], Z.of_nat 1).
Proof.
move=> Hf.
have Sc : 2%coqR * dmin12R <= thr8R :> FR by apply/leR; rewrite /dmin12R /thr8R; toR; lra.
have Ab : thr8R < nresidual [:: compared 0 box] P0.
  apply: (@lt_le_trans _ _ (ierr 0 box P0 i0 0 ^+ 2)); first by rewrite box_err mxE expr2; apply/ltR; rewrite /thr8R /=; toR; lra.
  have := @fres_each FR 2 [:: compared 0 box] (fun l0 : nlevel FR 2 => nl_err l0 P0) (compared 0 box) 0%N (or_introl erefl) isT.
  apply: le_trans. rewrite (bigD1 i0) //= ler_addl. by apply: sumr_ge0 => i _; apply: sqr_ge0.
have Fe : ifeasible 0 [:: box] (pt 3 (-2)).
  have [E0 E1 E2] := box_value 3 (-2). move=> l i [E|[]]; subst l; move: i; apply: ord3; rewrite /holds /= ?E0 ?E1 ?E2; apply/leR; toR; lra.
split; first exact: box_nz. split; first exact: box_rows. do 5! (split; first by [exact: Fe|exact: box_stretch|exact: Sc|exact: box_desc|exact: Ab]).
have T0 : 0 <= thr8R :> FR by apply/leR; rewrite /thr8R; toR; lra.
have [] := @bounds_success FR 2 0 box box_nz box_rows (pt 3 (-2)) Fe thr8R ltac:(done) unit (fun _ => True) 2%coqR dmin12R thr8R inf (Z.of_nat 40) (Z.of_nat 3) fuel box_descent (@full FR 2) tt P0
  (@moves_full FR 2 box_descent) I (box_desc _) box_stretch T0 Sc ltac:(by apply: leq_trans Hf) ltac:(done) ltac:(done) Ab.
rewrite box_dir. have -> : P0 + pt 1 (-1) = pt 1 (-1) by apply/matrixP => i j; rewrite ord1; move: i; apply: ord2; rewrite !mxE /=; toR; lra. by [].
Qed.

(** x >= 1, -4 x + 3 y >= 0 from (0, 0) *)
Definition mat22 (a b c d : R) : 'M[FR]_2 := \matrix_(i, j) (match nat_of_ord i, nat_of_ord j with 0, 0 => a | 0, _ => b | _, 0 => c | _, _ => d end)%N.
Definition wedge : ilevel FR 2 := @mkil FR 2 2 (mat22 1 0 (-4) 3) (pt 1 0) (fun _ => Superior) [:: 1; 1]%N.
Lemma wedge_value x y : @value FR 2 wedge (pt x y) ord0 = (x - 1)%coqR /\ @value FR 2 wedge (pt x y) ord_max = (-4 * x + 3 * y)%coqR.
Proof. by split; rewrite /value sum2 !mxE /=; toR; ring. Qed.
Lemma sumc (P : pred 'I_2) (f : 'I_2 -> FR) : \sum_(i | P i) f i = (if P ord0 then f ord0 else 0) + (if P ord_max then f ord_max else 0).
Proof. by rewrite big_mkcond sum2. Qed.
(** the points reached *)
Definition left_of (q : 'cV[FR]_2) : Prop := exists x : R, (0 <= x <= 1)%coqR /\ q = pt x (4 / 3 * x).
Definition below (q : 'cV[FR]_2) : Prop := exists y : R, (0 <= y <= 4 / 3)%coqR /\ q = pt 1 y.
Definition Ja : 'M[FR]_2 := mat22 1 0 0 0.
Definition Jb : 'M[FR]_2 := mat22 0 0 (-4) 3.
Definition Ua : 'M[FR]_(2, 1) := pt 1 0. Definition Ub : 'M[FR]_(2, 1) := pt 0 1.
Definition Wb : 'M[FR]_(2, 1) := pt (- (4 / 5)) (3 / 5). Definition Wb' : 'M[FR]_(2, 1) := pt (3 / 5) (4 / 5).
Ltac two := first [apply: mat2P | (apply/matrixP => ? ?; rewrite ?ord1)]; rewrite ?mxE ?sum2 ?big_ord1 ?mxE ?big_ord1 ?sum2 ?mxE /= ?mulr1n ?mulr0n; toR; lra.
Lemma Ua_o : Ua^T *m Ua = 1%:M. Proof. two. Qed.
Lemma Ub_o : Ub^T *m Ub = 1%:M. Proof. two. Qed.
Lemma Uab : Ua^T *m Ub = 0. Proof. two. Qed.
Lemma Ua_full : Ua *m Ua^T + Ub *m Ub^T = 1%:M. Proof. two. Qed.
Lemma Wb_o : Wb^T *m Wb = 1%:M. Proof. two. Qed.
Lemma Wb'_o : Wb'^T *m Wb' = 1%:M. Proof. two. Qed.
Lemma Wbb : Wb^T *m Wb' = 0. Proof. two. Qed.
Lemma Wb_full : Wb *m Wb^T + Wb' *m Wb'^T = 1%:M. Proof. two. Qed.
Lemma Ja_E : Ja = Ua *m diag_mx (const_mx 1) *m Ua^T. Proof. two. Qed.
Lemma Jb_E : Jb = Ub *m diag_mx (const_mx (5%coqR : FR)) *m Wb^T. Proof. two. Qed.
Lemma pos1 (i : 'I_1) : 0 < (const_mx 1 : 'rV[FR]_1) 0 i. Proof. by rewrite mxE ltr01. Qed.
Lemma pos5 (i : 'I_1) : 0 < (const_mx (5%coqR : FR) : 'rV[FR]_1) 0 i. Proof. by rewrite mxE; apply/ltR; toR; lra. Qed.
Definition svda : svd Ja := @mksvd FR 2 2 _ 1 1 Ua (const_mx 1) Ua Ub Ja_E pos1 Ua_o Ua_o Ub_o Uab Ua_full erefl.
Definition svdb : svd Jb := @mksvd FR 2 2 _ 1 1 Ub (const_mx 5%coqR) Wb Wb' Jb_E pos5 Ub_o Wb_o Wb'_o Wbb Wb_full erefl.
Definition wedge_descent (s : unit) (q : 'cV[FR]_2) : 'cV[FR]_2 * unit :=
  (if taking 0 (l := wedge) q ord0 then solve svda (- ierr 0 wedge q) else if taking 0 (l := wedge) q ord_max then solve svdb (- ierr 0 wedge q) else 0, s).
Notation atw q := [seq at_n q l | l <- [seq compared 0 l | l <- [:: wedge]]].
Notation resw := (nresidual [:: compared 0 wedge]).
Lemma wedge_takes x y : taking 0 (l := wedge) (pt x y) ord0 = ((x - 1)%coqR < 0 :> FR) /\ taking 0 (l := wedge) (pt x y) ord_max = ((-4 * x + 3 * y)%coqR < 0 :> FR).
Proof. by have [E0 E1] := wedge_value x y; rewrite /taking /= E0 E1. Qed.
Lemma solve_a (e : 'cV[FR]_2) : solve svda e = pt (e ord0 0) 0.
Proof. apply/matrixP => i j; rewrite ord1; move: i; apply: ord2; rewrite /solve /= !mxE sum2 !mxE !big_ord1 !mxE /= !big_ord1 !mxE /= ?mulr1n ?invr1; toR; lra. Qed.
Lemma solve_b (x y : R) : solve svdb (- pt x y) = pt (4 / 25 * y) (- (3 / 25) * y).
Proof.
have I5 : (5%coqR : FR)^-1 = (1 / 5)%coqR by apply: (mulIf (x := 5%coqR : FR)); [apply/eqP; toR; lra|rewrite mulVf; [toR; lra|apply/eqP; toR; lra]].
apply/matrixP => i j; rewrite ord1; move: i; apply: ord2; rewrite /solve /= !mxE sum2 !mxE !big_ord1 !mxE /= !big_ord1 !mxE /= ?mulr1n ?I5; toR; lra.
Qed.
Lemma wedge_left x : (0 <= x < 1)%coqR -> let q := pt x (4 / 3 * x) in (wedge_descent tt q).1 = pt (1 - x) 0 /\
  (forall thr' : R, descends (thr' : FR) (atw q) (wedge_descent tt q).1) /\ agree 0 [:: wedge] q.
Proof.
move=> Hx q. have [T0 T1] := wedge_takes x (4 / 3 * x). rewrite ltRb in T0; last by toR; lra. rewrite ltRf in T1; last by toR; lra.
have [V0 V1] := wedge_value x (4 / 3 * x).
have E : ierr 0 wedge q = pt (x - 1) 0.
  apply/matrixP => i j; rewrite ord1; move: i; apply: ord2; rewrite ierrE /q ?T0 ?T1 /lack /= ?V0 !mxE //=; toR; lra.
have J : ijac 0 wedge q = Ja by apply/matrixP; apply: ord2; apply: ord2; rewrite ijacE /q ?T0 ?T1 !mxE.
split; last split.
- rewrite /wedge_descent /q T0 /= -/q E solve_a !mxE /=. by congr pt; toR; lra.
- move=> thr'. rewrite /wedge_descent /q T0 /= -/q. exact: (@descends_at FR 2 thr' (at_n q (compared 0 wedge)) _ svda J).
- exists (fun l => \col_i (if nat_of_ord i is 0%N then (1 - x)%coqR : FR else 0)); split.
    move=> l i [El|[]]; subst l; rewrite /inwards /= mxE. case: (nat_of_ord i) => [|k] //. by apply/leR; toR; lra.
  move=> l i [El|[]]; subst l; move: i; apply: ord2; rewrite /q ?T1 // => _.
  rewrite sum2 !mxE !big_seq1 !(sumc (taking 0 (l := wedge) _)) T0 T1 !mxE /= /lack /= V0; toR; lra.
Qed.
Lemma wedge_below y : (0 <= y < 4 / 3)%coqR -> let q := pt 1 y in (wedge_descent tt q).1 = pt (- (4 / 25) * (4 - 3 * y)) (3 / 25 * (4 - 3 * y)) /\
  (forall thr' : R, descends (thr' : FR) (atw q) (wedge_descent tt q).1) /\ agree 0 [:: wedge] q.
Proof.
move=> Hx q. have [T0 T1] := wedge_takes 1 y. rewrite ltRf in T0; last by toR; lra. rewrite ltRb in T1; last by toR; lra.
have [V0 V1] := wedge_value 1 y.
have E : ierr 0 wedge q = pt 0 (3 * y - 4).
  apply/matrixP => i j; rewrite ord1; move: i; apply: ord2; rewrite ierrE /q ?T0 ?T1 /lack /= ?V1 !mxE //=; toR; lra.
have J : ijac 0 wedge q = Jb by apply/matrixP; apply: ord2; apply: ord2; rewrite ijacE /q ?T0 ?T1 !mxE.
split; last split.
- rewrite /wedge_descent /q T0 T1 /= -/q E solve_b. by congr pt; toR; lra.
- move=> thr'. rewrite /wedge_descent /q T0 T1 /= -/q. exact: (@descends_at FR 2 thr' (at_n q (compared 0 wedge)) _ svdb J).
- exists (fun l => \col_i (if nat_of_ord i is 0%N then 0 else ((4 - 3 * y) / 25)%coqR : FR)); split.
    move=> l i [El|[]]; subst l; rewrite /inwards /= mxE. case: (nat_of_ord i) => [|k] //. by apply/leR; toR; lra.
  move=> l i [El|[]]; subst l; move: i; apply: ord2; rewrite /q ?T0 // => _.
  rewrite sum2 !mxE !big_seq1 !(sumc (taking 0 (l := wedge) _)) T0 T1 !mxE /= /lack /= V1; toR; lra.
Qed.
Lemma wedge_done q : q = pt 1 (4 / 3) -> (wedge_descent tt q).1 = 0 /\ resw q <= 0.
Proof.
move=> ->. have [T0 T1] := wedge_takes 1 (4 / 3). rewrite ltRf in T0; last by toR; lra. rewrite ltRf in T1; last by toR; lra.
split; first by rewrite /wedge_descent T0 T1.
apply: (@feasible_res FR 2 0 [:: wedge]). have [V0 V1] := wedge_value 1 (4 / 3).
move=> l i [El|[]]; subst l; move: i; apply: ord2; rewrite /holds /= ?V0 ?V1; apply/leR; toR; lra.
Qed.
Notation itw j := (iterate wedge_descent (@full FR 2) j (tt, P0)).
Lemma wedge_inv j : left_of (itw j).2 \/ below (itw j).2.
Proof.
elim: j => [|j IH]; first by left; exists 0%coqR; split; [lra|congr pt; toR; lra].
have -> : (itw j.+1).2 = (itw j).2 + (wedge_descent tt (itw j).2).1 by rewrite /= /next /=; case: (itw j).1.
case: IH => -[x [Hx ->]].
- case: (Rle_lt_dec 1 x) => H.
    have -> : x = 1%coqR by lra. right; exists (4 / 3)%coqR; split; first lra.
    have -> : (4 / 3 * 1 = 4 / 3)%coqR by lra. by rewrite (proj1 (wedge_done erefl)) addr0.
  right; exists (4 / 3 * x)%coqR; split; first lra. rewrite (proj1 (wedge_left _)); last by split; lra.
  by apply/matrixP => i k; rewrite ord1; move: i; apply: ord2; rewrite !mxE /=; toR; lra.
- case: (Rle_lt_dec (4 / 3) x) => H.
    have -> : x = (4 / 3)%coqR by lra. right; exists (4 / 3)%coqR; split; first lra.
    by rewrite (proj1 (wedge_done erefl)) addr0.
  left; exists ((9 + 12 * x) / 25)%coqR; split; first lra. rewrite (proj1 (wedge_below _)); last by split; lra.
  by apply/matrixP => i k; rewrite ord1; move: i; apply: ord2; rewrite !mxE /=; toR; lra.
Qed.
Definition thrw : R := (3 / 4)%coqR.
Definition dminw : R := (1 / 100)%coqR.
Lemma wedge_hyp (thr' : R) j : (thrw : FR) < resw (itw j).2 -> descends (thr' : FR) (atw (itw j).2) (wedge_descent (itw j).1 (itw j).2).1 /\ agree 0 [:: wedge] (itw j).2.
Proof.
have -> : (itw j).1 = tt by case: (itw j).1.
have No : ~ (thrw : FR) < resw (pt 1 (4 / 3)).
  move=> H. have := lt_le_trans H (proj2 (wedge_done erefl)). by move/ltR; rewrite /thrw; toR; lra.
case: (wedge_inv j) => -[x [Hx ->]] H.
- case: (Rle_lt_dec 1 x) => Hx1.
    exfalso. apply: No. move: H. have -> : x = 1%coqR by lra. by have -> : (4 / 3 * 1 = 4 / 3)%coqR by lra.
  by have [_ [H1 H2]] := @wedge_left x ltac:(split; lra).
- case: (Rle_lt_dec (4 / 3) x) => Hx1.
    exfalso. apply: No. move: H. by have -> : x = (4 / 3)%coqR by lra.
  by have [_ [H1 H2]] := @wedge_below x ltac:(split; lra).
Qed.
Lemma wedge_stretch : istretch [:: wedge] (26%coqR : FR).
Proof.
split; first by apply/leR; toR; lra. move=> l x [<-|[]]. rewrite [x]pt_eta. set a := x ord0 0; set b := x ord_max 0.
rewrite norm2_pt /norm2 sum2 !mxE !sum2 !mxE /= !expr2. apply/leR; toR. have := Rle_0_sqr (3 * a + 4 * b); have := Rle_0_sqr b. rewrite /Rsqr. nra.
Qed.
Lemma wedge_feasible : ifeasible 0 [:: wedge] (pt 1 (4 / 3)).
Proof.
have [V0 V1] := wedge_value 1 (4 / 3). move=> l i [El|[]]; subst l; move: i; apply: ord2; rewrite /holds /= ?V0 ?V1; apply/leR; toR; lra.
Qed.
Lemma natR k : (k%:R : FR) = INR k.
Proof. elim: k => // k IH. by rewrite mulrS IH S_INR; toR; rewrite Rplus_comm. Qed.
Lemma case_wedge :
  (forall (thr' : R) j, (thrw : FR) < resw (itw j).2 -> descends (thr' : FR) (atw (itw j).2) (wedge_descent (itw j).1 (itw j).2).1 /\ agree 0 [:: wedge] (itw j).2) /\
  ifeasible 0 [:: wedge] (pt 1 (4 / 3)) /\ istretch [:: wedge] (26%coqR : FR) /\ 26%coqR * dminw <= thrw :> FR /\
  26%coqR * norm2 (P0 - pt 1 (4 / 3)) <= 100%N%:R * (1 * thrw) :> FR /\ (thrw : FR) < resw P0.
Proof.
split; first exact: wedge_hyp. split; first exact: wedge_feasible. split; first exact: wedge_stretch.
split; first by apply/leR; rewrite /dminw /thrw; toR; lra. split.
  have -> : P0 - pt 1 (4 / 3) = pt (-1) (- (4 / 3)) by apply/matrixP => i k; rewrite ord1; move: i; apply: ord2; rewrite !mxE /=; toR; lra.
  rewrite norm2_pt. rewrite natR INR_IZR_INZ /=.
  apply/leR; rewrite /thrw; toR; lra.
apply: (@lt_le_trans _ _ (ierr 0 wedge P0 ord0 0 ^+ 2)).
  have [T0 _] := wedge_takes 0 0. rewrite ltRb in T0; last by toR; lra. have [V0 _] := wedge_value 0 0.
  rewrite ierrE T0 /lack /= V0 expr2; apply/ltR; rewrite /thrw; toR; lra.
have := @fres_each FR 2 [:: compared 0 wedge] (fun l0 : nlevel FR 2 => nl_err l0 P0) (compared 0 wedge) 0%N (or_introl erefl) isT.
apply: le_trans. rewrite (bigD1 ord0) //= ler_addl. by apply: sumr_ge0 => i _; apply: sqr_ge0.
Qed.
