(** Concrete runs under bounds. *)
From Coq Require Import Reals ZArith Lra Lia.
From mathcomp Require Import all_ssreflect all_algebra.
From Verif Require Import SolveModel LineModel SatModel DescentModel DescentSpec DescentProofs DescentMain RField RReal AffModel AffProofs AffMain NewtModel NearExamples SvdMain LimModel LimSpec LimScalar LimProofs LimMain.
Set Implicit Arguments. Unset Strict Implicit. Unset Printing Implicit Defensive.
Import Order.TTheory GRing.Theory Num.Theory.
Delimit Scope R_scope with coqR.
Open Scope ring_scope.

(** The searches of the code end with a call of integrate. *)
Section Searches.
Variables (n : nat) (lm : limits FR n).
Lemma lbacktracking_some St (ls : seq (nlevel FR n)) (s : St) q d : exists a : R, lls_backtracking lm ls s q d = Some (lintegrate lm q (a *: d), a *: d, s).
Proof.
rewrite /lls_backtracking /bt_step. case: Rlt_dec => _; first by eexists.
have step f (al : R) : (al <= 1)%coqR -> forall fuel, (2 / 10 * (10 / 7) ^ fuel >= al)%coqR ->
   match bt_loop (lintegrate lm) (@vscale n) (nresidual ls) fuel bt_new f (nresidual ls q) q d al with
   | None => False | Some None => True | Some (Some (q', d')) => exists a : R, q' = lintegrate lm q (a *: d) /\ d' = a *: d end.
  move=> H1 fuel; elim: fuel al H1 => [|fuel IH] al H1 H2 /=; case: Rlt_dec => //= H3; try (simpl in H2; lra).
  case: Rle_dec => _; first by exists al.
  apply: IH; [lra|]. simpl in H2. lra.
have := step (2 * bt_c bt_new * lslope lm ls q d)%coqR 1%coqR (Rle_refl 1) 6%N.
case: (bt_loop _ _ _ _ _ _ _ _ _ _) => [[[q' d']|]|] H.
- case: H; first by simpl; lra. by move=> a [-> ->]; exists a.
- by eexists.
- by case: H; simpl; lra.
Qed.
Lemma searches_saturate St :
  (forall (s : St) q d, exists x, (lls_constant lm s q d).1.1 = lintegrate lm q x) /\
  (forall s q d, exists x, (lls_fixed lm s q d).1.1 = lintegrate lm q x) /\
  (forall ls p thr (s : St) q d, exists x, (lls_error_norm lm ls p thr s q d).1.1 = lintegrate lm q x) /\
  (forall ls (s : St) q d, exists r, lls_backtracking lm ls s q d = Some r /\ exists x, r.1.1 = lintegrate lm q x).
Proof.
split; first by eexists. split; first by move=> s q d; rewrite /lls_fixed; eexists.
split; first by move=> ls p thr s q d; eexists.
by move=> ls s q d; have [a ->] := lbacktracking_some ls s q d; eexists; split; [reflexivity|eexists].
Qed.
End Searches.

(** Vectors and matrices by their entries. *)
Definition vec (m : nat) (l : seq R) : 'cV[FR]_m := \col_i nth R0 l i.
Definition mat (m k : nat) (l : seq (seq R)) : 'M[FR]_(m, k) := \matrix_(i, j) nth R0 (nth [::] l i) j.
Ltac ents := rewrite ?mxE ?big_ord_recl ?big_ord0 ?mxE ?big_ord_recl ?big_ord0 ?mxE /= /bump /=.
Ltac ords := repeat match goal with |- forall i : 'I__, _ => case=> -[|[|[|[|?]]]] ? //= end.

(** A starting point out of bounds is kept. *)
Definition square : limits FR 2 := mklim (vec 2 [:: 0; 0]%coqR) (vec 2 [:: 1; 1]%coqR).
Definition ones : 'rV[FR]_2 := mat 1 2 [:: [:: 1; 1]]%coqR.
Lemma ones_e b q : LimProofs.e ones b q = (cx q + cy q - b)%coqR.
Proof. rewrite /LimProofs.e sum2 !mxE /= -/(cx q) -/(cy q); req; ring. Qed.
Lemma start_kept : exists (n : nat) (lm : limits FR n) (a : 'rV[FR]_n) (b : FR) (q : 'cV[FR]_n), (forall i, lo lm i 0 < hi lm i 0) /\ ~ within (lo lm) (hi lm) q /\
  (exists x, within (lo lm) (hi lm) x /\ row_error a b x = 0) /\
  forall St (s : St) descent dmin thr maxit rdim lsearch inf fuel, 0 <= thr ->
   hsolve (fun x y : FR => x < y) (nresidual [:: row_level a b]) descent (@sqn FR n) dmin thr maxit rdim lsearch inf fuel s q = Some (Some SUCCESS, q, [::], Z0).
Proof.
exists 2%N, square, ones, (2%coqR : FR), (pt 2%coqR 0%coqR); split; first by ords; rewrite !mxE /=; apply/ltR => /=; lra.
split; first by move=> /(_ ord0); rewrite !mxE /= => /andP[_ /leR]; lra.
split.
  exists (pt 1%coqR 1%coqR); split; first by rewrite /within; ords; rewrite !mxE /=; apply/andP; split; apply/leR => /=; lra.
  by rewrite /row_error -/(LimProofs.e ones _ _) ones_e pt_x pt_y expr2; req; ring.
move=> St s descent dmin thr maxit rdim lsearch inf fuel ht; rewrite /hsolve.
have -> : nresidual [:: row_level ones (2%coqR : FR)] (pt 2%coqR 0%coqR) = 0.
  by rewrite residualE ones_e pt_x pt_y expr2; req; ring.
rewrite ltNge ht /=; case: fuel => [|fuel] /=; by rewrite ltNge ht /= ltNge ht.
Qed.

(** Two configurations exchanged for ever. *)
Section Cycle.
Variables (n : nat) (St : Type) (ls : seq (nlevel FR n)) (lm : limits FR n) (dmin thr inf : FR) (maxit rdim : Z).
Variable descent : St -> 'cV[FR]_n -> 'cV[FR]_n * St.
Variables (q0 q1 d0 d1 : 'cV[FR]_n).
Hypotheses (D0 : forall s, (descent s q0).1 = d0) (D1 : forall s, (descent s q1).1 = d1)
  (S0 : lintegrate lm q0 d0 = q1) (S1 : lintegrate lm q1 d1 = q0)
  (N0 : dmin <= sqn d0) (N1 : dmin <= sqn d1)
  (T0 : thr < nresidual ls q0) (T1 : thr < nresidual ls q1) (T : nresidual ls q0 < nresidual ls q1).
Notation E := (nresidual ls).
Notation loop := (hloop (fun x y : FR => x < y) E descent (@sqn FR n) dmin thr maxit (@lls_constant FR n lm St)).
Lemma cycle_loop k : forall fuel s past prev ed iter st, (k <= fuel)%N -> Z.le iter maxit -> Z.to_nat (Z.sub maxit iter) = k ->
  (ed = Zpos 3 -> exists st' q' past' sn, loop fuel s q0 past (E q0) prev ed iter st = Some (st', q', past', sn, maxit) /\ thr < sn) /\
  (ed = Zpos 3 \/ ed = Zpos 2 -> prev = E q1 -> exists st' q' past' sn, loop fuel s q1 past (E q1) prev ed iter st = Some (st', q', past', sn, maxit) /\ thr < sn).
Proof.
elim: k => [|k IH] fuel s past prev ed iter st hf hi hk.
  have -> : iter = maxit by lia.
  have hm : (maxit <? maxit)%Z = false by apply/Z.ltb_ge; lia.
  by split=> *; case: fuel hf => [|fuel] _ /=; rewrite hm ?andbF; do 4 eexists; split.
case: fuel hf => // fuel hf; have hm : (iter <? maxit)%Z by apply/Z.ltb_lt; lia.
have hi' : Z.le (Z.add iter (Zpos 1)) maxit by lia.
have hk' : Z.to_nat (Z.sub maxit (Z.add iter (Zpos 1))) = k by lia.
split=> [->|he hp] /=.
  rewrite T0 hm /=; case Ed: (descent s q0) => [d s1]; have := D0 s; rewrite Ed /= => ->; rewrite ltNge N0 /= S0.
  case: ifP => _; [apply: (IH _ _ _ _ _ _ _ hf hi' hk').2 => //; by left|apply: (IH _ _ _ _ _ _ _ hf hi' hk').2 => //; by right].
have -> : (ed =? 0)%Z = false by case: he => ->.
rewrite T1 hm /=; case Ed: (descent s q1) => [d s1]; have := D1 s; rewrite Ed /= => ->; rewrite ltNge N1 /= S1 hp T.
exact: (IH _ _ _ _ _ _ _ hf hi' hk').1.
Qed.
Lemma cycle s fuel : rdim <> Z0 -> Z.le Z0 maxit -> (Z.to_nat maxit <= fuel)%N ->
  exists q' past, hsolve (fun x y : FR => x < y) E descent (@sqn FR n) dmin thr maxit rdim (@lls_constant FR n lm St) inf fuel s q0
    = Some (Some MAX_ITERATION_REACHED, q', past, maxit).
Proof.
move=> hr hi hf; rewrite /hsolve; have -> : (rdim =? 0)%Z = false by apply/Z.eqb_neq. rewrite andbF.
have hk : Z.to_nat (Z.sub maxit Z0) = Z.to_nat maxit by lia.
have [[//|st' [q' [past' [sn [-> ->]]]]] _] := @cycle_loop _ fuel s [::] inf (Zpos 3) Z0 None hf hi hk.
by rewrite Z.leb_refl; do 2 eexists.
Qed.
End Cycle.

Definition cyc_A : 'M[FR]_(3, 4) := mat 3 4 [:: [:: -1; 2; -2; 0]; [:: 1; -1; 2; -1]; [:: 2; 0; 2; -2]]%coqR.
Definition cyc_b : 'cV[FR]_3 := vec 3 [:: -1/2; 1; 2]%coqR.
Definition cyc_lim : limits FR 4 := mklim (vec 4 [:: 0; 0; 0; 0]%coqR) (vec 4 [:: 1; 1; 2; 1]%coqR).
Definition cyc_level : nlevel FR 4 := rows_level cyc_A cyc_b.
Definition cyc0 : 'cV[FR]_4 := vec 4 [:: 1; 0; 0; 0]%coqR.
Definition cyc1 : 'cV[FR]_4 := vec 4 [:: 1/2; 0; 0; 0]%coqR.
Lemma cyc_err0 : cyc_A *m cyc0 - cyc_b = vec 3 [:: -1/2; 0; 0]%coqR.
Proof. by apply/matrixP => i j; rewrite ord1; move: i; ords; ents; req; field. Qed.
Lemma cyc_err1 : cyc_A *m cyc1 - cyc_b = vec 3 [:: 0; -1/2; -1]%coqR.
Proof. by apply/matrixP => i j; rewrite ord1; move: i; ords; ents; req; field. Qed.
Lemma limitedE n (lm : limits FR n) q (l : level FR n) : limited lm q l =
  mklevel (\matrix_(i, j) (if Rlt_dec (Rmult (fl (lo lm j 0) (hi lm j 0) (q j 0)) (((jac l)^T *m err l) j 0)) R0 then 0 else jac l i j)) (err l).
Proof.
have bE j : blocked lm q l j = (if Rlt_dec (Rmult (fl (lo lm j 0) (hi lm j 0) (q j 0)) (((jac l)^T *m err l) j 0)) R0 then true else false).
  by rewrite /blocked flag_fl; case: Rlt_dec => h; [apply/ltR|apply/negP => /ltR].
rewrite /limited; case: ifP => r.
  by congr mklevel; apply/matrixP => i j; rewrite [LHS]mxE [RHS]mxE bE; case: Rlt_dec.
case: l bE => k J e bE; congr mklevel; apply/matrixP => i j; rewrite [RHS]mxE /=.
by have := bE j; rewrite /blocked not_reached //= mul0r ltxx; case: Rlt_dec.
Qed.
Ltac flags := rewrite /fl; repeat (case: Rle_dec => /= ?; try lra); repeat (case: Rlt_dec => /= ?; try lra).
Definition cyc_J0 : 'M[FR]_(3, 4) := mat 3 4 [:: [:: -1; 2; 0; 0]; [:: 1; -1; 0; -1]; [:: 2; 0; 0; -2]]%coqR.
Definition cyc_J1 : 'M[FR]_(3, 4) := mat 3 4 [:: [:: -1; 0; -2; 0]; [:: 1; 0; 2; 0]; [:: 2; 0; 2; 0]]%coqR.
Lemma cyc_back0 : (cyc_A)^T *m vec 3 [:: -1/2; 0; 0]%coqR = vec 4 [:: 1/2; -1; 1; 0]%coqR.
Proof. by apply/matrixP => i j; rewrite ord1; move: i; ords; ents; req; field. Qed.
Lemma cyc_back1 : (cyc_A)^T *m vec 3 [:: 0; -1/2; -1]%coqR = vec 4 [:: -5/2; 1/2; -3; 5/2]%coqR.
Proof. by apply/matrixP => i j; rewrite ord1; move: i; ords; ents; req; field. Qed.
Lemma cyc_at0 : at_lim cyc_lim cyc0 cyc_level = mklevel cyc_J0 (vec 3 [:: -1/2; 0; 0]%coqR).
Proof.
rewrite /at_lim limitedE /= cyc_err0 cyc_back0; congr mklevel; apply/matrixP => i j; rewrite [LHS]mxE.
by case: j => -[|[|[|[|j]]]] hj //=; rewrite !mxE /=; flags; case: i => -[|[|[|i]]] hi.
Qed.
Lemma cyc_at1 : at_lim cyc_lim cyc1 cyc_level = mklevel cyc_J1 (vec 3 [:: 0; -1/2; -1]%coqR).
Proof.
rewrite /at_lim limitedE /= cyc_err1 cyc_back1; congr mklevel; apply/matrixP => i j; rewrite [LHS]mxE.
by case: j => -[|[|[|[|j]]]] hj //=; rewrite !mxE /=; flags; case: i => -[|[|[|i]]] hi.
Qed.
Definition cyc_d0 : 'cV[FR]_4 := vec 4 [:: -1/2; 0; 0; -1/2]%coqR.
Definition cyc_d1 : 'cV[FR]_4 := vec 4 [:: 3/4; 0; -1/4; 0]%coqR.
Lemma cyc_dir0 thr r : descends thr [:: at_lim cyc_lim cyc0 cyc_level] r -> r = cyc_d0.
Proof.
rewrite cyc_at0 => h; apply: (direction_is (l := mklevel cyc_J0 (vec 3 [:: -1/2; 0; 0]%coqR)) (w := vec 3 [:: 1; 2; -3/4]%coqR) h) => //=.
  have -> : cyc_J0 *m cyc_d0 + vec 3 [:: -1/2; 0; 0]%coqR = 0; last by rewrite mulmx0.
  by apply/matrixP => i j; rewrite ord1; move: i; ords; ents; req; field.
by apply/matrixP => i j; rewrite ord1; move: i; ords; ents; req; field.
Qed.
Lemma cyc_dir1 thr r : descends thr [:: at_lim cyc_lim cyc1 cyc_level] r -> r = cyc_d1.
Proof.
rewrite cyc_at1 => h; apply: (direction_is (l := mklevel cyc_J1 (vec 3 [:: 0; -1/2; -1]%coqR)) (w := vec 3 [:: 0; -1; 7/8]%coqR) h) => //=.
  have -> : cyc_J1 *m cyc_d1 + vec 3 [:: 0; -1/2; -1]%coqR = vec 3 [:: -1/4; -1/4; 0]%coqR.
    by apply/matrixP => i j; rewrite ord1; move: i; ords; ents; req; field.
  by apply/matrixP => i j; rewrite ord1; move: i; ords; ents; req; field.
by apply/matrixP => i j; rewrite ord1; move: i; ords; ents; req; field.
Qed.
Ltac clamped := rewrite saturated_cl; ents; toR; rewrite /cl; repeat (case: Rle_dec => /= ?; try lra); req; field.
Lemma cyc_step0 : lintegrate cyc_lim cyc0 cyc_d0 = cyc1.
Proof. apply/matrixP => i j; rewrite ord1 /lintegrate; move: i; ords; rewrite saturated_cl; ents; toR; rewrite /cl; repeat (case: Rle_dec => /= ?; try lra). Qed.
Lemma cyc_step1 : lintegrate cyc_lim cyc1 cyc_d1 = cyc0.
Proof. apply/matrixP => i j; rewrite ord1 /lintegrate; move: i; ords; rewrite saturated_cl; ents; toR; rewrite /cl; repeat (case: Rle_dec => /= ?; try lra). Qed.

Lemma cyc_res0 : nresidual [:: cyc_level] cyc0 = (1 / 4)%coqR.
Proof.
rewrite /nresidual /= cyc_err0 /seg_norm big_mkcond /= !big_ord_recl big_ord0 /= !mxE /= max_r //; first by rewrite !expr2; req; field.
by rewrite !expr2; apply/leR; toR; lra.
Qed.
Lemma cyc_res1 : nresidual [:: cyc_level] cyc1 = (5 / 4)%coqR.
Proof.
rewrite /nresidual /= cyc_err1 /seg_norm big_mkcond /= !big_ord_recl big_ord0 /= !mxE /= max_r //; first by rewrite !expr2; req; field.
by rewrite !expr2; apply/leR; toR; lra.
Qed.
Lemma cycles : exists (lm : limits FR 4) (A : 'M[FR]_(3, 4)) (b : 'cV[FR]_3) (q x : 'cV[FR]_4),
  (forall i, lo lm i 0 < hi lm i 0) /\ within (lo lm) (hi lm) q /\ within (lo lm) (hi lm) x /\ A *m x = b /\
  forall St (s : St) descent thr' (dmin thr inf : R) maxit rdim fuel,
    (forall s q, within (lo lm) (hi lm) q -> descends thr' [:: at_lim lm q (rows_level A b)] (descent s q).1) ->
    (dmin <= 1 / 2)%coqR -> (thr < 1 / 4)%coqR -> rdim <> Z0 -> Z.le Z0 maxit -> (Z.to_nat maxit <= fuel)%N ->
    exists q' past, hsolve (fun u v : FR => u < v) (nresidual [:: rows_level A b]) descent (@sqn FR 4) dmin thr maxit rdim (@lls_constant FR 4 lm St) inf fuel s q
      = Some (Some MAX_ITERATION_REACHED, q', past, maxit).
Proof.
have in0 : within (lo cyc_lim) (hi cyc_lim) cyc0 by rewrite /within; ords; rewrite !mxE /=; apply/andP; split; apply/leR => /=; lra.
have in1 : within (lo cyc_lim) (hi cyc_lim) cyc1 by rewrite /within; ords; rewrite !mxE /=; apply/andP; split; apply/leR => /=; lra.
exists cyc_lim, cyc_A, cyc_b, cyc0, (vec 4 [:: 1/2; 1/2; 1/2; 0]%coqR).
split; first by ords; rewrite !mxE /=; apply/ltR => /=; lra.
split=> //; split; first by rewrite /within; ords; rewrite !mxE /=; apply/andP; split; apply/leR => /=; lra.
split; first by apply/matrixP => i j; rewrite ord1; move: i; ords; ents; req; field.
move=> St s descent thr' dmin thr inf maxit rdim fuel hd h1 h2 hr hi hf.
apply: (@cycle _ _ [:: cyc_level] cyc_lim dmin thr inf maxit rdim descent cyc0 cyc1 cyc_d0 cyc_d1) => //.
- by move=> s'; apply: cyc_dir0 (hd s' _ in0).
- by move=> s'; apply: cyc_dir1 (hd s' _ in1).
- exact: cyc_step0.
- exact: cyc_step1.
- by rewrite sqn_norm2 /norm2 !big_ord_recl big_ord0 !mxE /= !expr2; apply/leR; toR; lra.
- by rewrite sqn_norm2 /norm2 !big_ord_recl big_ord0 !mxE /= !expr2; apply/leR; toR; lra.
- by rewrite cyc_res0; apply/ltR.
- by rewrite cyc_res1; apply/ltR; lra.
- by rewrite cyc_res0 cyc_res1; apply/ltR; lra.
Qed.

(** Equal bounds: 10 x + y = b with x = 0. *)
Definition fix_lim : limits FR 2 := mklim (vec 2 [:: 0; -2]%coqR) (vec 2 [:: 0; 2]%coqR).
Definition fix_a : 'rV[FR]_2 := mat 1 2 [:: [:: 10; 1]]%coqR.
Lemma fix_e b q : LimProofs.e fix_a b q = (10 * cx q + cy q - b)%coqR.
Proof. rewrite /LimProofs.e sum2 !mxE /= -/(cx q) -/(cy q); req; ring. Qed.
Definition rr : R := (100 / 101)%coqR.
Definition fix_at (k : nat) : 'cV[FR]_2 := pt 0%coqR (1 - rr ^ k)%coqR.
Lemma rr_range k : (0 < rr ^ k <= 1)%coqR.
Proof. split; first by apply: pow_lt; rewrite /rr; lra. rewrite -(pow1 k); apply: pow_incr; rewrite /rr; lra. Qed.
Lemma fix_in k : within (lo fix_lim) (hi fix_lim) (fix_at k).
Proof. by have := rr_range k; rewrite /within => ?; ords; rewrite !mxE /=; apply/andP; split; apply/leR => /=; lra. Qed.
Lemma fix_next thr k r : descends thr [:: at_lim fix_lim (fix_at k) (row_level fix_a (1%coqR : FR))] r ->
  sqn r = (rr ^ k * rr ^ k / 101)%coqR /\ lintegrate fix_lim (fix_at k) r = fix_at k.+1.
Proof.
move=> /stepE ->; have [r1 r2] := rr_range k.
have ev : LimProofs.e fix_a (1%coqR : FR) (fix_at k) = (- rr ^ k)%coqR by rewrite fix_e /fix_at pt_x pt_y; req; ring.
have ca0 : ca fix_lim fix_a (1%coqR : FR) (fix_at k) ord0 = 10%coqR.
  rewrite /ca /coef ev !mxE /= /fl; case: Rle_dec => /= ?; last by lra. case: Rlt_dec => // h; nra.
have ca1 : ca fix_lim fix_a (1%coqR : FR) (fix_at k) ord_max = 1%coqR.
  rewrite /ca /coef ev !mxE /= /fl; case: Rle_dec => /= ?; first by lra. case: Rle_dec => /= ?; first by lra. case: Rlt_dec => // h; nra.
have cnv : cn fix_lim fix_a (1%coqR : FR) (fix_at k) = 101%coqR.
  by rewrite /cn sum2 ca0 ca1 !expr2; req; ring.
have inv : (cn fix_lim fix_a (1%coqR : FR) (fix_at k))^-1 = (/ 101)%coqR.
  apply: (@mulfI _ (101%coqR : FR)); first by apply/eqP => h; have : (101 = 0)%coqR by []; lra.
  rewrite cnv divff; last by apply/eqP => h; have : (101 = 0)%coqR by []; lra.
  req; field.
have sx : cx (step fix_lim fix_a (1%coqR : FR) (fix_at k)) = (10 * (rr ^ k / 101))%coqR.
  by rewrite /cx mxE inv ev ca0; req; field.
have sy : cy (step fix_lim fix_a (1%coqR : FR) (fix_at k)) = (rr ^ k / 101)%coqR.
  by rewrite /cy mxE inv ev ca1; req; field.
split; first by rewrite sqn_norm2 norm2_2 sx sy; req; field.
apply: pt_eq.
  rewrite /cx /lintegrate saturated_cl (mxE _ (fun i j => fix_at k i j + step fix_lim fix_a (1%coqR : FR) (fix_at k) i j)) -/(cx (fix_at k)) -/(cx (step _ _ _ _)) sx /fix_at !pt_x !mxE /= /cl.
  by toR; case: Rle_dec => //= ?; case: Rle_dec => //= ?; lra.
rewrite /cy /lintegrate saturated_cl (mxE _ (fun i j => fix_at k i j + step fix_lim fix_a (1%coqR : FR) (fix_at k) i j)) -/(cy (fix_at k)) -/(cy (step _ _ _ _)) sy /fix_at !pt_y !mxE /= /cl.
have -> : (rr * rr ^ k = rr ^ k * rr)%coqR by ring.
by toR; rewrite /rr -/rr; set z := (rr ^ k)%coqR in r1 r2 *; case: Rle_dec => /= ?; [|case: Rle_dec => /= ?]; rewrite /rr; try lra.
Qed.
Lemma fix_res k : nresidual [:: row_level fix_a (1%coqR : FR)] (fix_at k) = (rr ^ k * rr ^ k)%coqR.
Proof. by rewrite residualE fix_e /fix_at pt_x pt_y expr2; req; ring. Qed.
Lemma fix_norm : row_norm fix_a = 101%coqR.
Proof. by rewrite /row_norm sum2 !mxE /= !expr2; req; ring. Qed.
Section Fix.
Variables (St : Type) (descent : St -> 'cV[FR]_2 -> 'cV[FR]_2 * St) (thr' dmin thr inf : R) (m : nat) (maxit rdim : Z).
Hypotheses (Desc : forall s q, within (lo fix_lim) (hi fix_lim) q -> descends thr' [:: at_lim fix_lim q (row_level fix_a (1%coqR : FR))] (descent s q).1)
  (Hd : (dmin * 101 <= thr)%coqR) (Ht : (thr < rr ^ m * rr ^ m)%coqR) (Hm : maxit = Z.of_nat m).
Notation loop := (hloop (fun u v : FR => u < v) (nresidual [:: row_level fix_a (1%coqR : FR)]) descent (@sqn FR 2) dmin thr maxit (@lls_constant FR 2 fix_lim St)).
Lemma rr_le k : (k <= m)%N -> (rr ^ m * rr ^ m <= rr ^ k * rr ^ k)%coqR.
Proof.
move=> h; rewrite -(subnK h) addnC -plusE pow_add; have [] := rr_range k; have [] := rr_range (m - k).
set a := (rr ^ k)%coqR; set c := (rr ^ (m - k))%coqR => ? ? ? ?.
have : (a * c <= a)%coqR by nra.
have : (0 < a * c)%coqR by nra.
nra.
Qed.
Lemma fix_loop j : forall k fuel s past prev st, (k + j)%N = m -> (j <= fuel)%N -> (rr ^ k * rr ^ k <= prev)%coqR ->
  exists past', loop fuel s (fix_at k) past (rr ^ k * rr ^ k)%coqR prev (Zpos 3) (Z.of_nat k) st = Some (st, fix_at m, past', (rr ^ m * rr ^ m)%coqR, maxit).
Proof.
elim: j => [|j IH] k fuel s past prev st hk hf hp.
  have <- : k = m by rewrite -hk addn0.
  have -> : maxit = Z.of_nat k by rewrite Hm -hk addn0.
  by case: fuel hf => [|fuel] _ /=; rewrite Z.ltb_irrefl ?andbF; eexists.
case: fuel hf => // fuel hf /=.
have km : (k <= m)%N by rewrite -hk leq_addr.
have -> : (Z.of_nat k <? maxit)%Z by apply/Z.ltb_lt; rewrite Hm -hk addnS; move: (leq_addr j k) => /ssrnat.leP; lia.
have -> : (thr : FR) < (rr ^ k * rr ^ k)%coqR by apply/ltR; have := rr_le km; lra.
rewrite /=; case Ed: (descent s (fix_at k)) => [d s1].
have := Desc s (fix_in k); rewrite Ed /= => /fix_next [nd ->].
have -> : sqn d < dmin = false.
  by apply/negP; rewrite nd => /ltR; have := rr_le km; lra.
rewrite fix_res; have -> : (rr ^ k.+1 * rr ^ k.+1)%coqR < (prev : FR).
  apply/ltR; have [? ?] := rr_range k; have -> : (rr ^ k.+1 = rr * rr ^ k)%coqR by []. rewrite {1 3}/rr; nra.
have -> : Z.add (Z.of_nat k) (Zpos 1) = Z.of_nat k.+1 by lia.
apply: IH => //; [by rewrite addSn -addnS|lra].
Qed.
Lemma fix_solve s fuel : rdim <> Z0 -> (m <= fuel)%N -> (1 <= inf)%coqR ->
  exists past, hsolve (fun u v : FR => u < v) (nresidual [:: row_level fix_a (1%coqR : FR)]) descent (@sqn FR 2) dmin thr maxit rdim (@lls_constant FR 2 fix_lim St) inf fuel s (fix_at 0)
    = Some (Some MAX_ITERATION_REACHED, fix_at m, past, maxit).
Proof.
move=> hr hf hi; rewrite /hsolve; have -> : (rdim =? 0)%Z = false by apply/Z.eqb_neq. rewrite andbF fix_res.
have [|past' ->] := @fix_loop m 0 fuel s [::] inf None (add0n m) hf; first by simpl; lra.
by have -> : (thr : FR) < (rr ^ m * rr ^ m)%coqR by [apply/ltR]; rewrite Z.leb_refl; eexists.
Qed.
End Fix.
Lemma equal_bounds : exists (lm : limits FR 2) (a : 'rV[FR]_2) (b : FR) (q x : 'cV[FR]_2),
  (forall i, lo lm i 0 <= hi lm i 0) /\ within (lo lm) (hi lm) q /\ within (lo lm) (hi lm) x /\ row_error a b x = 0 /\
  forall St (s : St) descent thr' (dmin thr inf : R) m rdim fuel,
    (forall s q, within (lo lm) (hi lm) q -> descends thr' [:: at_lim lm q (row_level a b)] (descent s q).1) ->
    0 < dmin -> dmin * row_norm a <= thr -> (thr < (100 / 101) ^ (2 * m))%coqR -> row_error a b q <= inf -> rdim <> Z0 -> (m <= fuel)%N ->
    exists q' past, hsolve (fun u v : FR => u < v) (nresidual [:: row_level a b]) descent (@sqn FR 2) dmin thr (Z.of_nat m) rdim (@lls_constant FR 2 lm St) inf fuel s q
      = Some (Some MAX_ITERATION_REACHED, q', past, Z.of_nat m).
Proof.
exists fix_lim, fix_a, (1%coqR : FR), (fix_at 0), (pt 0 1).
split; first by ords; rewrite !mxE /=; apply/leR => /=; lra.
split; first exact: fix_in.
split; first by rewrite /within; ords; rewrite !mxE /=; apply/andP; split; apply/leR => /=; toR; lra.
split; first by rewrite /row_error -/(LimProofs.e fix_a _ _) fix_e pt_x pt_y expr2; req; ring.
move=> St s descent thr' dmin thr inf m rdim fuel hD h0 h1 h2 h3 h4 h5.
have [|||past ->] := @fix_solve St descent thr' dmin thr inf m (Z.of_nat m) rdim hD _ _ (erefl _) s fuel h4 h5; last by do 2 eexists.
- by move: h1; rewrite fix_norm => /leR.
- by move: h2; rewrite /rr mul2n -addnn -plusE pow_add.
- by move: h3; rewrite /row_error -/(LimProofs.e fix_a _ _) fix_e /fix_at pt_x pt_y expr2 => /leR; toR => /=; lra.
Qed.

(** Two levels: x + y = 2 then x = -1, with x at most 0. *)
Definition pri_lim : limits FR 2 := mklim (vec 2 [:: -5; -5]%coqR) (vec 2 [:: 0; 5]%coqR).
Definition first : 'rV[FR]_2 := mat 1 2 [:: [:: 1; 0]]%coqR.
Lemma first_e b q : LimProofs.e first b q = (cx q - b)%coqR.
Proof. rewrite /LimProofs.e sum2 !mxE /= -/(cx q) -/(cy q); req; ring. Qed.
Lemma pri_at1 : at_lim pri_lim (pt 0 0) (row_level ones (2%coqR : FR)) = mklevel (mat 1 2 [:: [:: 0; 1]]%coqR) (const_mx (-2)%coqR).
Proof.
have ev : LimProofs.e ones (2%coqR : FR) (pt 0 0) = (-2)%coqR by rewrite ones_e pt_x pt_y; req; ring.
rewrite levelE ev; congr mklevel; apply/matrixP => i j; rewrite ord1 mxE /ca /coef ev.
by case: j => -[|[|j]] hj //; rewrite !mxE /= /fl; repeat (case: Rle_dec => /= ?; try lra); case: Rlt_dec => /= ?; lra.
Qed.
Lemma pri_at2 : at_lim pri_lim (pt 0 0) (row_level first ((-1)%coqR : FR)) = mklevel first (const_mx 1%coqR).
Proof.
have ev : LimProofs.e first ((-1)%coqR : FR) (pt 0 0) = 1%coqR by rewrite first_e pt_x; req; ring.
rewrite levelE ev; congr mklevel; apply/matrixP => i j; rewrite ord1 mxE /ca /coef ev.
by case: j => -[|[|j]] hj //; rewrite !mxE /= /fl; repeat (case: Rle_dec => /= ?; try lra); case: Rlt_dec => /= ?; lra.
Qed.
Lemma row_zero (J : 'rV[FR]_2) (c : R) r : cost (prob1 (mklevel J (const_mx c))) r = 0 -> (J ord0 ord0 * cx r + J ord0 ord_max * cy r + c)%coqR = R0.
Proof.
by rewrite /cost /= -sqn_norm2 => /sqn_eq0/matrixP/(_ ord0 ord0); rewrite !mxE sum2 -/(cx r) -/(cy r).
Qed.
Lemma zero_row (J : 'rV[FR]_2) (c : R) r : (J ord0 ord0 * cx r + J ord0 ord_max * cy r + c)%coqR = R0 -> cost (prob1 (mklevel J (const_mx c))) r = 0.
Proof.
move=> h; rewrite /cost /= (_ : _ + _ = 0); first by rewrite -sqn_norm2 sqn0.
by apply/matrixP => i j; rewrite !ord1 !mxE sum2 -/(cx r) -/(cy r).
Qed.
Lemma pri_one thr r : descends thr [:: at_lim pri_lim (pt 0 0) (row_level ones (2%coqR : FR))] r -> r = pt 0 2.
Proof.
rewrite pri_at1 => h; apply: (direction_is (l := mklevel (mat 1 2 [:: [:: 0; 1]]%coqR) (const_mx (-2)%coqR)) (w := const_mx (2%coqR : FR)) h) => //=.
  have -> : mat 1 2 [:: [:: 0; 1]]%coqR *m pt 0 2 + const_mx (-2)%coqR = 0; last by rewrite mulmx0.
  by apply/matrixP => i j; rewrite !ord1; ents; req; field.
by apply: pt_eq; rewrite /cx /cy; ents; req; field.
Qed.
Lemma pri_two thr r : descends thr [:: at_lim pri_lim (pt 0 0) (row_level ones (2%coqR : FR)); at_lim pri_lim (pt 0 0) (row_level first ((-1)%coqR : FR))] r -> r = pt (-1)%coqR 2%coqR.
Proof.
rewrite pri_at1 pri_at2 => /descends_lex /= hl.
have z pb : List.In pb [:: prob1 (mklevel (mat 1 2 [:: [:: 0; 1]]%coqR) (const_mx (-2)%coqR)); prob1 (mklevel first (const_mx 1%coqR))] -> cost pb (pt (-1)%coqR 2%coqR) = 0.
  by case=> [<-|[<-|//]]; apply: zero_row; rewrite !mxE /= pt_x pt_y; req; ring.
have zr := @foldl_zero FR 2 _ (fun _ => True) (pt (-1)%coqR 2%coqR) Logic.I z r hl.
have := row_zero (zr _ (or_introl (erefl _))); have := row_zero (zr _ (or_intror (or_introl (erefl _)))); rewrite !mxE /= => h1 h2.
by apply: pt_eq; rewrite ?pt_x ?pt_y; lra.
Qed.
Lemma pri_sat x y : (-5 < x <= 0)%coqR -> (-5 < y < 5)%coqR -> lintegrate pri_lim (pt 0 0) (pt x y) = pt x y.
Proof.
move=> hx hy; rewrite /lintegrate saturated_id; first by apply: pt_eq; rewrite ?add_x ?add_y ?pt_x ?pt_y; req; ring.
by rewrite /within; ords; rewrite !mxE /=; apply/andP; split; apply/leR; toR => /=; lra.
Qed.
Lemma priority : exists (lm : limits FR 2) (a1 a2 : 'rV[FR]_2) (b1 b2 : FR) (q : 'cV[FR]_2),
  (forall i, lo lm i 0 < hi lm i 0) /\ within (lo lm) (hi lm) q /\
  (forall thr d, descends thr [:: at_lim lm q (row_level a1 b1)] d -> row_error a1 b1 (lintegrate lm q d) = 0) /\
  (forall thr d, descends thr [:: at_lim lm q (row_level a1 b1); at_lim lm q (row_level a2 b2)] d -> row_error a1 b1 (lintegrate lm q d) = 1) /\
  (exists thr d, descends thr [:: at_lim lm q (row_level a1 b1); at_lim lm q (row_level a2 b2)] d).
Proof.
exists pri_lim, ones, first, (2%coqR : FR), ((-1)%coqR : FR), (pt 0 0).
split; first by ords; rewrite !mxE /=; apply/ltR => /=; lra.
split; first by rewrite /within; ords; rewrite !mxE /=; apply/andP; split; apply/leR => /=; toR; lra.
split; first by move=> thr d /pri_one ->; rewrite pri_sat; [|lra|lra]; rewrite /row_error -/(LimProofs.e ones _ _) ones_e pt_x pt_y expr2; req; ring.
split; first by move=> thr d /pri_two ->; rewrite pri_sat; [|lra|lra]; rewrite /row_error -/(LimProofs.e ones _ _) ones_e pt_x pt_y expr2; req; ring.
by exists 0; exact: descends_exists.
Qed.


(** One equation: the outcome tells whether it can be met within the bounds. *)
Lemma one_row_iff n St (lm : limits FR n) (a : 'rV[FR]_n) (b dmin thr thr' inf : FR) maxit rdim (descent : St -> 'cV[FR]_n -> 'cV[FR]_n * St) fuel s q :
  (forall i, lo lm i 0 < hi lm i 0) -> 0 < dmin -> dmin * row_norm a <= thr ->
  (forall s q, within (lo lm) (hi lm) q -> descends thr' [:: at_lim lm q (row_level a b)] (descent s q).1) ->
  within (lo lm) (hi lm) q -> rdim <> Z0 -> Z.lt (Z.of_nat n) maxit -> (n < fuel)%N -> row_error a b q <= inf ->
  exists st q' past it, hsolve (fun u v : FR => u < v) (nresidual [:: row_level a b]) descent (@sqn FR n) dmin thr maxit rdim (@lls_constant FR n lm St) inf fuel s q
      = Some (Some st, q', past, it) /\
    Z.le it (Z.of_nat n) /\ within (lo lm) (hi lm) q' /\
    (st = SUCCESS <-> exists x, within (lo lm) (hi lm) x /\ row_error a b x <= thr) /\
    (st = SUCCESS -> row_error a b q' <= thr) /\
    (st <> SUCCESS -> st = INFEASIBLE /\ forall x, within (lo lm) (hi lm) x -> row_error a b q' <= row_error a b x).
Proof.
move=> h1 h2 h3 h4 h5 h6 h7 h8 h9.
have [st [q' [past [it [e1 [e2 [e3 e4]]]]]]] := @one_row n St lm a b dmin thr thr' inf maxit rdim descent h1 h2 h3 h4 fuel s q h5 h6 h7 h8 h9.
exists st, q', past, it; split=> //; split=> //; split=> //; case: e4 => [[-> e4]|[-> [e4 e5]]].
  by split=> //; split=> // _; exists q'.
split=> //; split=> // -[x [hx1 hx2]]; by move: (lt_le_trans e4 (e5 x hx1)); rewrite ltNge hx2.
Qed.
(** x + y = 2 and x + y = 3 between 0 and 1, from (0, 0) *)
Lemma ones_norm : row_norm ones = 2%coqR.
Proof. by rewrite /row_norm sum2 !mxE /= !expr2; req; ring. Qed.
Lemma square_case : exists (d2 d3 : unit -> 'cV[FR]_2 -> 'cV[FR]_2 * unit),
  (forall s q, descends 0 [:: at_lim square q (row_level ones (2%coqR : FR))] (d2 s q).1) /\
  (forall s q, descends 0 [:: at_lim square q (row_level ones (3%coqR : FR))] (d3 s q).1) /\
  (exists q' past it, hsolve (fun u v : FR => u < v) (nresidual [:: row_level ones (2%coqR : FR)]) d2 (@sqn FR 2) (1 / 100)%coqR (1 / 50)%coqR (Zpos 40) (Zpos 2) (@lls_constant FR 2 square unit) (1000%coqR : FR) 40 tt (pt 0 0)
     = Some (Some SUCCESS, q', past, it)) /\
  (exists q' past it, hsolve (fun u v : FR => u < v) (nresidual [:: row_level ones (3%coqR : FR)]) d3 (@sqn FR 2) (1 / 100)%coqR (1 / 50)%coqR (Zpos 40) (Zpos 2) (@lls_constant FR 2 square unit) (1000%coqR : FR) 40 tt (pt 0 0)
     = Some (Some INFEASIBLE, q', past, it)).
Proof.
have [d2 h2] := @descent_function 2 0 unit _ (fun q => [:: at_lim square q (row_level ones (2%coqR : FR))]).
have [d3 h3] := @descent_function 2 0 unit _ (fun q => [:: at_lim square q (row_level ones (3%coqR : FR))]).
exists d2, d3; split=> //; split=> //.
have hl : forall i, lo square i 0 < hi square i 0 by ords; rewrite !mxE /=; apply/ltR => /=; lra.
have hd : (0 : FR) < (1 / 100)%coqR by apply/ltR; toR; lra.
have ht : (1 / 100)%coqR * row_norm ones <= (1 / 50)%coqR :> FR by rewrite ones_norm; apply/leR; toR; lra.
have hq : within (lo square) (hi square) (pt 0 0) by rewrite /within; ords; rewrite !mxE /=; apply/andP; split; apply/leR => /=; toR; lra.
have hi b : (0 <= b <= 3)%coqR -> row_error ones (b : FR) (pt 0 0) <= (1000%coqR : FR).
  by move=> hb; rewrite /row_error -/(LimProofs.e ones _ _) ones_e !pt_x !pt_y expr2; apply/leR; toR; nra.
split.
  have [st [q' [past [it [-> [_ [_ [[_ h] _]]]]]]]] := @one_row_iff 2 unit square ones (2%coqR : FR) (1 / 100)%coqR (1 / 50)%coqR 0 (1000%coqR : FR) (Zpos 40) (Zpos 2) d2 40 tt (pt 0 0) hl hd ht (fun s q _ => h2 s q) hq ltac:(by []) ltac:(simpl; lia) (erefl _) (hi 2%coqR ltac:(lra)).
  do 3 eexists; rewrite h //; exists (pt 1 1); split; first by rewrite /within; ords; rewrite !mxE /=; apply/andP; split; apply/leR => /=; toR; lra.
  by rewrite /row_error -/(LimProofs.e ones _ _) ones_e !pt_x !pt_y expr2; apply/leR; toR; lra.
have [st [q' [past [it [-> [_ [_ [[h _] [_ h']]]]]]]]] := @one_row_iff 2 unit square ones (3%coqR : FR) (1 / 100)%coqR (1 / 50)%coqR 0 (1000%coqR : FR) (Zpos 40) (Zpos 2) d3 40 tt (pt 0 0) hl hd ht (fun s q _ => h3 s q) hq ltac:(by []) ltac:(simpl; lia) (erefl _) (hi 3%coqR ltac:(lra)).
do 3 eexists; rewrite (h' _).1 //; move=> /h [x [hx]].
have [/andP[/leR a1 /leR a2] /andP[/leR b1 /leR b2]] := (hx ord0, hx ord_max); move: a2 b2; rewrite !mxE /= -/(cx x) -/(cy x) => a2 b2.
rewrite /row_error -/(LimProofs.e ones _ _) ones_e expr2 => /leR; toR; nra.
Qed.

Lemma hsolve_within (F : realFieldType) n (lm : limits F n) St (lsearch : St -> 'cV[F]_n -> 'cV[F]_n -> 'cV[F]_n * 'cV[F]_n * St)
    ltb (E : 'cV[F]_n -> F) descent dnorm dmin thr maxit rdim inf :
  (forall s q d, exists x, (lsearch s q d).1.1 = lintegrate lm q x) -> (forall i, lo lm i 0 <= hi lm i 0) ->
  forall fuel s q st' q' past' iter',
  hsolve ltb E descent dnorm dmin thr maxit rdim lsearch inf fuel s q = Some (st', q', past', iter') ->
  (q' = q /\ past' = [::]) \/
  (within (lo lm) (hi lm) q' /\ exists rest, past' = rest ++ [:: q] /\ forall x, List.In x rest -> within (lo lm) (hi lm) x).
Proof. by move=> h hl; apply: hsolve_sat => // s q d; have [x ->] := h s q d; eexists. Qed.
