(** Property C85: affine inequality constraints. *)
From Coq Require Import Reals ZArith.
From mathcomp Require Import all_ssreflect all_algebra.
From Verif Require Import EcsModel SolveModel SolveSpec DescentModel DescentSpec RField RReal AffModel AffSpec AffExamples NewtModel NewtExamples IneqModel IneqSpec IneqProofs IneqMain IneqBounds IneqExamples IneqCases.
Set Implicit Arguments. Unset Strict Implicit. Unset Printing Implicit Defensive.
Import GRing.Theory Num.Theory.
Open Scope ring_scope.

(** a step towards rows that agree comes closer to all feasible points *)
Theorem C85_closer : forall (F : realFieldType) n tau (ls : seq (ilevel F n)) thr', (exists l t, ls = l :: t /\ il_rows l <> 0%N) ->
  forall q d z a, descends thr' [seq at_n q l | l <- [seq compared tau l | l <- ls]] d -> agree tau ls q -> ifeasible tau ls z -> 0 <= a ->
  norm2 (q + a *: d - z) <= norm2 (q - z) - a * (2%:R - a) * norm2 d.
Proof. exact closer. Qed.
Print Assumptions C85_closer.

(** and reaches the closest one if it reaches any *)
Theorem C85_closest : forall (F : realFieldType) n tau (ls : seq (ilevel F n)) thr', (exists l t, ls = l :: t /\ il_rows l <> 0%N) ->
  forall q d, descends thr' [seq at_n q l | l <- [seq compared tau l | l <- ls]] d -> agree tau ls q -> ifeasible tau ls (q + d) ->
  closest (ifeasible tau ls) q (q + d).
Proof. exact closest_step. Qed.
Print Assumptions C85_closest.

(** if the rows agree at all iterates, neither MAX_ITERATION_REACHED nor INFEASIBLE *)
Theorem C85_ends : forall (F : realFieldType) n tau (ls : seq (ilevel F n)) thr', (exists l t, ls = l :: t /\ il_rows l <> 0%N) ->
  forall St (I : St -> Prop) m L dmin thr inf maxit rdim (descent : St -> 'cV[F]_n -> 'cV[F]_n * St) lsearch p fuel z,
  let it := iterate descent lsearch in let res := nresidual [seq compared tau l | l <- ls] in
  moves_by (@along F n) (fun a d => a *: d) I m descent lsearch -> I p.1 ->
  (forall j, thr < res (it j p).2 ->
     descends thr' [seq at_n (it j p).2 l | l <- [seq compared tau l | l <- ls]] (descent (it j p).1 (it j p).2).1 /\ agree tau ls (it j p).2) ->
  ifeasible tau ls z -> istretch ls L -> 0 < m -> 0 <= thr -> L * dmin <= thr -> (Z.to_nat maxit <= fuel)%N -> rdim <> Z0 ->
  L * norm2 (p.2 - z) <= (Z.to_nat maxit)%:R * (m * thr) ->
  exists k st, isolve tau ls descent lsearch dmin thr inf maxit rdim fuel p.1 p.2 =
      Some (Some st, (it k p).2, [seq (it j p).2 | j <- rev (iota 0 k)], Z.of_nat k) /\ (k <= Z.to_nat maxit)%N /\
    (st = SUCCESS /\ res (it k p).2 <= thr \/ st = ERROR_INCREASED /\ thr < res (it k p).2) /\
    forall j y, (j < k)%N -> ifeasible tau ls y -> norm2 ((it j.+1 p).2 - y) < norm2 ((it j p).2 - y).
Proof. exact ineq_ends. Qed.
Print Assumptions C85_ends.

(** lower and upper bounds of orthogonal directions: they agree everywhere, one full step *)
Theorem C85_bounds : forall (F : realFieldType) n tau (l : ilevel F n), (forall i, exists k, il_A l i k != 0) ->
  (forall i j : 'I_(il_rows l), i != j -> orthogonal i j \/ opposite i j) -> forall z, ifeasible tau [:: l] z ->
  (forall q, agree tau [:: l] q) /\
  forall thr', il_rows l <> 0%N -> forall St (I : St -> Prop) L dmin thr inf maxit rdim fuel (descent : St -> 'cV[F]_n -> 'cV[F]_n * St) lsearch s q,
  moves_by (@along F n) (fun a d => a *: d) I 1 descent lsearch -> I s ->
  descends thr' [seq at_n q l | l <- [seq compared tau l | l <- [:: l]]] (descent s q).1 ->
  istretch [:: l] L -> 0 <= thr -> L * dmin <= thr -> (Z.to_nat maxit <= fuel)%N -> rdim <> Z0 -> Z.lt Z0 maxit ->
  thr < nresidual [:: compared tau l] q ->
  isolve tau [:: l] descent lsearch dmin thr inf maxit rdim fuel s q = Some (Some SUCCESS, q + (descent s q).1, [:: q], Z.of_nat 1) /\
  closest (ifeasible tau [:: l]) q (q + (descent s q).1).
Proof. exact (fun F n tau l Nz Rows z Fe => conj (bounds_agree Nz Rows Fe) (bounds_success Nz Rows Fe)). Qed.
Print Assumptions C85_bounds.

Delimit Scope R_scope with coqR.
Notation FR := R_realFieldType.
(** 63 x - 16 y >= 300, -4 x + 3 y >= 0, 84 x + 12 y >= 300 from (0, 0): back at (0, 0) after two steps,
    whatever the number of iterations, though there are points satisfying the three strictly *)
Theorem C85_feasible_refuted : exists (l : ilevel FR 2) (q0 q1 z : 'cV[FR]_2),
  (forall i : 'I_(il_rows l), il_cmp i = Superior) /\ (forall i, 0 < @value FR 2 l z i) /\
  forall (thr' dmin thr inf : R) maxit rdim fuel (descent : unit -> 'cV[FR]_2 -> 'cV[FR]_2 * unit),
  (forall q, q = q0 \/ q = q1 -> descends (thr' : FR) [seq at_n q l | l <- [seq compared 0 l | l <- [:: l]]] (descent tt q).1) ->
  (thr < 625)%coqR -> (dmin <= 25)%coqR -> (Z.to_nat maxit <= fuel)%N -> Z.lt Z0 maxit -> rdim <> Z0 ->
  isolve 0 [:: l] descent (@full FR 2) dmin thr inf maxit rdim fuel tt q0 =
    Some (Some MAX_ITERATION_REACHED, if odd (Z.to_nat maxit) then q1 else q0, [seq (if odd j then q1 else q0) | j <- rev (iota 0 (Z.to_nat maxit))], maxit).
Proof.
exists circle, (pt 0 0), (pt 4 (-3)), (pt 12 17). split=> //; split; first exact: circle_inside.
move=> thr' dmin thr inf maxit rdim fuel descent H. apply: (@circle_turns thr'); apply: H; [by left|by right].
Qed.
Print Assumptions C85_feasible_refuted.
Example C85_feasible_case : forall thr' : R, exists descent : unit -> 'cV[FR]_2 -> 'cV[FR]_2 * unit, forall q, q = pt 0 0 \/ q = pt 4 (-3) ->
  descends (thr' : FR) [seq at_n q l | l <- [seq compared 0 l | l <- [:: circle]]] (descent tt q).1.
Proof. move=> thr'. exists circle_descent => q [->|->]; [exact: circle_D0|exact: circle_D1]. Qed.

(** 1 <= x <= 5, y <= -1 from (0, 0) *)
Example C85_bounds_case : forall (inf : R) fuel, (100 <= fuel)%N ->
  (forall i, exists k, il_A box i k != 0) /\ (forall i j : 'I_(il_rows box), i != j -> orthogonal i j \/ opposite i j) /\
  ifeasible 0 [:: box] (pt 3 (-2)) /\ istretch [:: box] (2%coqR : FR) /\ 2%coqR * dmin12R <= thr8R :> FR /\
  descends (thr8R : FR) [seq at_n (pt 0 0) l | l <- [seq compared 0 l | l <- [:: box]]] (box_descent tt (pt 0 0)).1 /\
  thr8R < nresidual [:: compared 0 box] (pt 0 0) /\
  isolve 0 [:: box] box_descent (@full FR 2) dmin12R thr8R inf (Z.of_nat 40) (Z.of_nat 3) fuel tt (pt 0 0) = Some (Some SUCCESS, pt 1 (-1), [:: pt 0 0], Z.of_nat 1).
Proof. exact case_box. Qed.
(** x >= 1, -4 x + 3 y >= 0 from (0, 0): one row after the other *)
Example C85_ends_case : let it := iterate wedge_descent (@full FR 2) in let res := nresidual [seq compared 0 l | l <- [:: wedge]] in
  (forall (thr' : R) j, (thrw : FR) < res (it j (tt, pt 0 0)).2 ->
    descends (thr' : FR) [seq at_n (it j (tt, pt 0 0)).2 l | l <- [seq compared 0 l | l <- [:: wedge]]] (wedge_descent (it j (tt, pt 0 0)).1 (it j (tt, pt 0 0)).2).1 /\
    agree 0 [:: wedge] (it j (tt, pt 0 0)).2) /\
  ifeasible 0 [:: wedge] (pt 1 (4 / 3)) /\ istretch [:: wedge] (26%coqR : FR) /\ 26%coqR * dminw <= thrw :> FR /\
  26%coqR * norm2 (pt 0 0 - pt 1 (4 / 3)) <= 100%N%:R * (1 * thrw) :> FR /\ (thrw : FR) < res (pt 0 0).
Proof. exact case_wedge. Qed.
