(** The circle x^2 + y^2 = 2 around (1, 1). *)
From Coq Require Import Reals ZArith Lra.
From mathcomp Require Import all_ssreflect all_algebra.
From Verif Require Import RField RReal SolveModel SolveSpec DescentModel DescentSpec DescentProofs AffModel AffSpec AffExamples NewtModel NewtSpec NewtProofs NewtExamples NearSpec NearMat NearBall NearMain NearSolve.
Set Implicit Arguments. Unset Strict Implicit. Unset Printing Implicit Defensive.
Import Order.TTheory GRing.Theory Num.Theory.
Delimit Scope R_scope with coqR.
Open Scope ring_scope.

Ltac toR := repeat match goal with
  | |- context [@GRing.add ?T ?a ?b] => change (@GRing.add T a b) with (Rplus a b)
  | |- context [@GRing.mul ?T ?a ?b] => change (@GRing.mul T a b) with (Rmult a b)
  | |- context [@GRing.opp ?T ?a] => change (@GRing.opp T a) with (Ropp a)
  | |- context [@GRing.one ?T] => change (@GRing.one T) with R1
  | |- context [@GRing.zero ?T] => change (@GRing.zero T) with R0
  end.
Ltac req := toR; match goal with |- @eq _ ?a ?b => change (@eq R a b) end.
Lemma sum2 (f : 'I_2 -> FR) : \sum_i f i = f ord0 + f ord_max.
Proof. by rewrite big_ord_recl big_ord1; congr (_ + f _); apply: val_inj. Qed.
Definition cx (q : 'cV[FR]_2) : R := q ord0 0.
Definition cy (q : 'cV[FR]_2) : R := q ord_max 0.
Definition pt (x y : R) : 'cV[FR]_2 := \col_i (if i == ord0 then x else y).
Definition circ (q : 'cV[FR]_2) : R := (cx q * cx q + cy q * cy q - 2)%coqR.
(** one constraint of size one *)
Definition round_level : nlevel FR 2 := @mknl FR 2 1 (fun q => const_mx (circ q)) (fun q => (pt (2 * cx q)%coqR (2 * cy q)%coqR)^T) [:: 1%N].
Lemma norm2_2 (q : 'cV[FR]_2) : norm2 q = (cx q * cx q + cy q * cy q)%coqR.
Proof. by rewrite /norm2 sum2 !expr2. Qed.
Lemma pt_x x y : cx (pt x y) = x. Proof. by rewrite /cx mxE. Qed.
Lemma pt_y x y : cy (pt x y) = y. Proof. by rewrite /cy mxE. Qed.
Lemma pt_eq (p q : 'cV[FR]_2) : cx p = cx q -> cy p = cy q -> p = q.
Proof.
move=> H1 H2; apply/matrixP => i j; rewrite !ord1. have [->|] := eqVneq i ord0; first exact: H1.
by case: i => -[|[|i]] Hi // _; have -> : Ordinal Hi = ord_max by [apply: val_inj]; exact: H2.
Qed.
Lemma add_x (p q : 'cV[FR]_2) : cx (p + q) = (cx p + cx q)%coqR. Proof. by rewrite /cx mxE. Qed.
Lemma add_y (p q : 'cV[FR]_2) : cy (p + q) = (cy p + cy q)%coqR. Proof. by rewrite /cy mxE. Qed.
Lemma sub_x (p q : 'cV[FR]_2) : cx (p - q) = (cx p - cx q)%coqR. Proof. by rewrite /cx !mxE. Qed.
Lemma sub_y (p q : 'cV[FR]_2) : cy (p - q) = (cy p - cy q)%coqR. Proof. by rewrite /cy !mxE. Qed.
Lemma sc_x (t : FR) (q : 'cV[FR]_2) : cx (t *: q) = (t * cx q)%coqR. Proof. by rewrite /cx mxE. Qed.
Lemma sc_y (t : FR) (q : 'cV[FR]_2) : cy (t *: q) = (t * cy q)%coqR. Proof. by rewrite /cy mxE. Qed.
Lemma quad_deriv (f : R -> R) s c : (forall t, f t = f 0 + s * t + c * (t * t))%coqR -> derivable_pt_lim f 0%coqR s.
Proof.
move=> H eps He. have P : (0 < eps / (Rabs c + 1))%coqR by apply: Rdiv_lt_0_compat => //; have := Rabs_pos c; lra.
exists (mkposreal _ P) => h Hh /= Hl. rewrite Rplus_0_l (H h).
have -> : ((f 0 + s * h + c * (h * h) - f 0) / h - s = c * h)%coqR by field.
rewrite Rabs_mult. have Hc := Rabs_pos c.
have Hl' : (Rabs h * (Rabs c + 1) < eps)%coqR.
  have := Rmult_lt_compat_r (Rabs c + 1) _ _ ltac:(lra) Hl. by rewrite /Rdiv Rmult_assoc Rinv_l ?Rmult_1_r //; lra.
have := Rabs_pos h; nra.
Qed.
Lemma round_smooth : smooth [:: round_level] (pt 1 1) (1 / 2)%coqR 2%coqR.
Proof.
move=> l q [<-|[]] _. split.
- move=> d i. apply: (@quad_deriv _ _ (cx d * cx d + cy d * cy d)%coqR) => t.
  rewrite !mxE sum2 !mxE /= /circ !add_x !add_y !sc_x !sc_y -/(cx d) -/(cy d). req. ring.
- move=> q' i j _. rewrite norm2_2 sub_x sub_y !mxE !expr2. apply/leR.
  by case: ifP => _; toR; set x := cx q; set y := cy q; set x' := cx q'; set y' := cy q'; have := Rle_0_sqr (x' - x); have := Rle_0_sqr (y' - y); rewrite /Rsqr; nra.
Qed.
Lemma round_covered : covered [:: round_level]. Proof. by move=> l [<-|[]]. Qed.
Lemma round_root : root [:: round_level] (pt 1 1).
Proof. move=> l [<-|[]]. apply/matrixP => i j; rewrite !mxE /circ !pt_x !pt_y. req; ring. Qed.
Lemma round_independent : independent [:: round_level] (pt 1 1).
Proof.
move=> y /= H. have E := congr1 (fun M : 'M[FR]_(1, 2) => M 0 ord0) H.
move: E. rewrite !mxE. rewrite (bigD1 (lshift 0 0)) //= big1 ?addr0; last by case=> -[|k] Hk //= /negP [].
rewrite col_mxEu !mxE /= pt_x => /eqP. rewrite mulf_eq0 => /orP[/eqP Y|/eqP]; last by toR; lra.
apply/matrixP => i j; rewrite !ord1 [RHS]mxE. rewrite -Y; congr (y _ _); exact: val_inj.
Qed.
(** a singular value decomposition of the Jacobian *)
Section Svd.
Variable q : 'cV[FR]_2.
Let x := cx q. Let y := cy q. Let w : R := R_sqrt.sqrt (x * x + y * y)%coqR.
Hypothesis P : (0 < x * x + y * y)%coqR.
Lemma ww : (w * w = x * x + y * y)%coqR. Proof. by apply: R_sqrt.sqrt_sqrt; lra. Qed.
Lemma w0 : (0 < w)%coqR. Proof. exact: R_sqrt.sqrt_lt_R0. Qed.
Let J : 'M[FR]_(1, 2) := (pt (2 * x)%coqR (2 * y)%coqR)^T.
Let v1 := pt (x / w)%coqR (y / w)%coqR. Let v2 := pt (- y / w)%coqR (x / w)%coqR.
Let one1 : 'M[FR]_1 := 1%:M.
Let sg : 'rV[FR]_1 := const_mx (2 * w)%coqR.
Lemma mat2 (A B : 'M[FR]_2) : A ord0 ord0 = B ord0 ord0 -> A ord0 ord_max = B ord0 ord_max -> A ord_max ord0 = B ord_max ord0 -> A ord_max ord_max = B ord_max ord_max -> A = B.
Proof.
move=> H1 H2 H3 H4; apply/matrixP => i j.
have O (k : 'I_2) : k = ord0 \/ k = ord_max by case: k => -[|[|k]] Hk //; [left|right]; apply: val_inj.
by case: (O i) => ->; case: (O j) => ->.
Qed.
Lemma rE : J = one1 *m diag_mx sg *m v1^T.
Proof.
have W := w0. rewrite mul1mx. apply/trmx_inj; rewrite trmx_mul trmxK tr_diag_mx /J trmxK. apply: pt_eq; rewrite /cx /cy !mxE big_ord1 !mxE /= mulr1n; req; field; lra.
Qed.
Lemma rS : forall i, 0 < sg 0 i. Proof. by move=> i; rewrite mxE; apply/ltR; have := w0; toR; lra. Qed.
Lemma rU : one1^T *m one1 = 1%:M. Proof. by rewrite trmx1 mulmx1. Qed.
Lemma r1 : (x / w * (x / w) + y / w * (y / w) = 1)%coqR.
Proof. have W := w0. transitivity ((x * x + y * y) / (w * w))%coqR; [field; lra|rewrite -ww; field; lra]. Qed.
Lemma r2 : (- y / w * (- y / w) + x / w * (x / w) = 1)%coqR.
Proof. have W := w0. rewrite -r1. field; lra. Qed.
Lemma rV1 : v1^T *m v1 = 1%:M.
Proof. apply/matrixP => i j; rewrite !ord1 !mxE sum2 !mxE /= mulr1n. exact: r1. Qed.
Lemma rV2 : v2^T *m v2 = 1%:M.
Proof. apply/matrixP => i j; rewrite !ord1 !mxE sum2 !mxE /= mulr1n. exact: r2. Qed.
Lemma rV12 : v1^T *m v2 = 0.
Proof. have W := w0. apply/matrixP => i j; rewrite !ord1 !mxE sum2 !mxE /=; req. field; lra. Qed.
Lemma rVF : v1 *m v1^T + v2 *m v2^T = 1%:M.
Proof.
have W := w0. apply: mat2; rewrite !mxE !big_ord1 !mxE /= ?mulr1n ?mulr0n; req.
- transitivity (x / w * (x / w) + y / w * (y / w))%coqR; [field; lra|exact: r1].
- field; lra.
- field; lra.
- transitivity (x / w * (x / w) + y / w * (y / w))%coqR; [field; lra|exact: r1].
Qed.
Definition round_svd : svd J := @mksvd FR 1 2 J 1 1 one1 sg v1 v2 rE rS rU rV1 rV2 rV12 rVF erefl.
End Svd.
Definition round_dir (q : 'cV[FR]_2) : 'cV[FR]_2 := let n := (cx q * cx q + cy q * cy q)%coqR in
  pt (- circ q * cx q / (2 * n))%coqR (- circ q * cy q / (2 * n))%coqR.
Definition round_descent (s : unit) (q : 'cV[FR]_2) : 'cV[FR]_2 * unit := (round_dir q, s).
Lemma round_desc thr s q : ball (F := FR) (pt 1 1) (1 / 2)%coqR q -> descends thr [seq at_n q l | l <- [:: round_level]] (round_descent s q).1.
Proof.
rewrite /ball norm2_2 sub_x sub_y pt_x pt_y expr2 => /leR.
set x := cx q; set y := cy q. change ((x - 1) * (x - 1) + (y - 1) * (y - 1) <= 1 / 2 * (1 / 2) -> descends thr [seq at_n q l | l <- [:: round_level]] (round_descent s q).1)%coqR => H.
have X : (1 / 2 <= x)%coqR by have := Rle_0_sqr (y - 1); rewrite /Rsqr; nra.
have P : (0 < x * x + y * y)%coqR by nra.
apply: (@desc_one FR 2 thr _ _ (at_n q round_level) (round_svd P) 0) => //.
rewrite /= /solve /= /round_dir trmx1 mulmx1. have W := w0 P. have E := ww P. move: W E. rewrite -/x -/y; set w := R_sqrt.sqrt _ => W E.
have I2 : ((2 * w)%coqR : FR)^-1 = (/ (2 * w))%coqR.
  have NZ : ((2 * w)%coqR : FR) != 0 by apply/eqP; change (2 * w <> 0)%coqR; lra.
  apply: (mulfI NZ). rewrite divff //. req; field; lra.
by apply: pt_eq; rewrite ?pt_x ?pt_y /cx /cy !mxE !big_ord1 ?mxE ?big_ord1 ?mxE /= mulr1n ?mxE I2 -E; req; field; lra.
Qed.
Lemma round_moves : moves_by (@along FR 2) (fun a d => a *: d) (fun _ => True) 1 round_descent (@full FR 2).
Proof. by move=> s q _; exists 1, (round_dir q), s, s; rewrite /full /along !scale1r lexx. Qed.
Lemma round_case : smooth [:: round_level] (pt 1 1) (1 / 2)%coqR 2%coqR /\ covered [:: round_level] /\ independent [:: round_level] (pt 1 1) /\ root [:: round_level] (pt 1 1) /\
  (forall thr s q, ball (F := FR) (pt 1 1) (1 / 2)%coqR q -> descends thr [seq at_n q l | l <- [:: round_level]] (round_descent s q).1) /\
  moves_by (@along FR 2) (fun a d => a *: d) (fun _ => True) 1 round_descent (@full FR 2) /\
  exists delta D : FR, 0 < delta /\ 0 <= D /\ forall thr, 0 < thr -> exists dm (M : nat), 0 < dm /\
  forall inf fuel x y, ((x - 1) * (x - 1) + (y - 1) * (y - 1) <= delta * delta)%coqR -> (M <= fuel)%N -> exists q past k,
    nsolve [:: round_level] round_descent (@full FR 2) dm thr inf (Z.of_nat M) (Z.of_nat 1) fuel tt (pt x y) = Some (Some SUCCESS, q, past, k) /\
    (circ q * circ q <= thr)%coqR /\ norm2 (q - pt x y) <= D * norm2 (pt x y - pt 1 1).
Proof.
split; first exact: round_smooth. split; first exact: round_covered. split; first exact: round_independent. split; first exact: round_root.
split; first exact: round_desc. split; first exact: round_moves.
have r0 : 0 < ((1 / 2)%coqR : FR) by apply/ltR; change (0 < 1 / 2)%coqR; lra.
have St : exists l t, [:: round_level] = l :: t /\ nl_rows l <> 0%N by do 2 eexists; split; [reflexivity|].
have [|delta [D [d0 [D0 H]]]] := near_solve (m := 1) round_smooth r0 round_covered round_independent round_root St; first by rewrite ltr01 lexx.
exists delta, D; do 2! split=> //. move=> thr t0. have [dm [M [dm0 {}H]]] := H thr t0. exists dm, M; split=> //.
move=> inf fuel x y Hb Hf.
have Hb' : ball (pt 1 1) delta (pt x y) by rewrite /ball norm2_2 sub_x sub_y !pt_x !pt_y expr2; apply/leR.
have Nr : Z.of_nat 1 <> Z0 by [].
have M1 : (M <= Z.to_nat (Z.of_nat M))%N by rewrite Znat.Nat2Z.id.
have M2 : (Z.to_nat (Z.of_nat M) <= fuel)%N by rewrite Znat.Nat2Z.id.
have [q [past [k [E [Hr Hn]]]]] := H unit (fun _ => True) round_descent (@full FR 2) dm thr inf (Z.of_nat M) (Z.of_nat 1) fuel tt (pt x y) (@round_desc thr) round_moves Logic.I Hb' (lexx _) M1 M2 Nr.
exists q, past, k; split=> //; split=> //. move: Hr.
rewrite /nresidual /= /seg_norm (eq_bigl xpredT) ?big_ord1; last by move=> i; rewrite ord1.
by rewrite mxE max_r ?sqr_ge0 // expr2 => /leR.
Qed.

(** y = x^2 computed, y = 2 to solve, around the square root of 2 *)
Definition s2 : R := R_sqrt.sqrt 2%coqR.
Notation sub_rs := [seq substituted sub_g sub_G l | l <- [:: sub_level]].
Lemma s2s2 : (s2 * s2 = 2)%coqR. Proof. by apply: R_sqrt.sqrt_sqrt; lra. Qed.
Lemma s2_pos : (1 < s2)%coqR. Proof. have := s2s2; have := R_sqrt.sqrt_pos 2%coqR; rewrite -/s2; nra. Qed.
Lemma subs_smooth : smooth sub_rs (const_mx s2) (1 / 2)%coqR 2%coqR.
Proof.
move=> l q [<-|[]] _. split.
- move=> d i. pose e : R := d 0 0. apply: (@quad_deriv _ _ (e * e)%coqR) => t.
  rewrite [nl_jac _ _]sub_jac !mxE big_ord1 ?mxE /= ?mxE. set x := q 0 0; rewrite -/e. req. rewrite /sq2'. ring.
- move=> q' i j _. rewrite ![nl_jac _ _]sub_jac norm2_1 !mxE /sq2' !expr2. set x := q 0 0; set x' := q' 0 0. apply/leR. toR. have := Rle_0_sqr (x' - x); rewrite /Rsqr; lra.
Qed.
Lemma subs_root : root sub_rs (const_mx s2).
Proof. by move=> l [<-|[]]; rewrite [nl_err _ _]sub_err; apply/matrixP => i j; rewrite !mxE /sq2; req; rewrite s2s2; ring. Qed.
Lemma subs_independent : independent sub_rs (const_mx s2).
Proof.
move=> y /= H. have E := congr1 (fun M : 'M[FR]_(1, 1) => M 0 0) H.
move: E. rewrite [RHS]mxE [LHS]mxE (bigD1 (lshift 0 0)) //= big1 ?addr0; last by case=> -[|k] Hk //= /negP [].
rewrite col_mxEu sub_jac !mxE => /eqP. rewrite mulf_eq0 => /orP[/eqP Y|/eqP]; last by rewrite /sq2' => Z; have := s2_pos; move: Z; toR; lra.
apply/matrixP => i j; rewrite !ord1 [RHS]mxE. rewrite -Y; congr (y _ _); exact: val_inj.
Qed.
Lemma subs_desc thr s c : on_graph sub_g c -> ball (F := FR) (const_mx s2) (1 / 2)%coqR c.1 -> descends thr [seq at_nb sub_G c l | l <- [:: sub_level]] (sub_descent s c).1.
Proof.
case: c => x y'; rewrite /on_graph [(_, _).2]/= => -> Hb. rewrite /=. have -> : at_nb sub_G (x, sub_g x) sub_level = at_n x (@eqn FR sq2 sq2') by rewrite /at_nb sub_err sub_jac.
apply: (@eqn_desc FR thr sq2 sq2' tt x). apply/eqP. move: Hb. rewrite /ball norm2_1 !mxE !expr2 => /leR. set t := x 0 0. have S := s2_pos.
change ((t - s2) * (t - s2) <= 1 / 2 * (1 / 2) -> (2 * t <> 0))%coqR. nra.
Qed.
Lemma subs_moves : nbmoves_by sub_g (fun _ => True) 1 sub_descent sub_full.
Proof. move=> s c _ _. exists 1, (sub_descent s c).1, s, s, c.2. by rewrite /sub_full !scale1r lexx. Qed.
Lemma subs_case : smooth sub_rs (const_mx s2) (1 / 2)%coqR 2%coqR /\ covered sub_rs /\ independent sub_rs (const_mx s2) /\ root sub_rs (const_mx s2) /\
  (forall thr s c, on_graph sub_g c -> ball (F := FR) (const_mx s2) (1 / 2)%coqR c.1 -> descends thr [seq at_nb sub_G c l | l <- [:: sub_level]] (sub_descent s c).1) /\
  nbmoves_by sub_g (fun _ => True) 1 sub_descent sub_full /\
  exists delta : FR, 0 < delta /\ forall thr, 0 < thr -> exists dm (M : nat), 0 < dm /\
  forall fuel (x y : 'cV[FR]_1), ball (const_mx s2) delta x -> (M <= fuel)%N -> exists c b,
    nbsolve [:: sub_level] sub_g sub_descent sub_full dm thr (Z.of_nat M) (Z.of_nat 1) fuel tt (x, y) = Done SUCCESS c b /\ on_graph sub_g c /\ nbresidual [:: sub_level] c <= thr.
Proof.
have Cv : covered sub_rs by move=> l [<-|[]].
split; first exact: subs_smooth. split=> //. split; first exact: subs_independent. split; first exact: subs_root. split; first exact: subs_desc. split; first exact: subs_moves.
have r0 : 0 < ((1 / 2)%coqR : FR) by apply/ltR; change (0 < 1 / 2)%coqR; lra.
have St : exists l t, [:: sub_level] = l :: t /\ nb_rows l <> 0%N by do 2 eexists; split; [reflexivity|].
have [|delta [D [d0 [D0 H]]]] := near_by_substitution (m := 1) subs_smooth r0 Cv subs_independent subs_root St; first by rewrite ltr01 lexx.
exists delta; split=> // thr t0. have [dm [M [dm0 {}H]]] := H thr t0. exists dm, M; split=> // fuel x y Hb Hf.
have Nr : Z.of_nat 1 <> Z0 by [].
have M1 : (M <= Z.to_nat (Z.of_nat M))%N by rewrite Znat.Nat2Z.id.
have M2 : (Z.to_nat (Z.of_nat M) <= fuel)%N by rewrite Znat.Nat2Z.id.
have [c [b [E [Hg [Hr _]]]]] := H unit (fun _ => True) sub_descent sub_full dm thr (Z.of_nat M) (Z.of_nat 1) fuel tt (x, y) (@subs_desc thr) subs_moves Logic.I Hb (lexx _) M1 M2 Nr.
by exists c, b.
Qed.
