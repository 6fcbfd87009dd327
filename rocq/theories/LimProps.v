(** Property C88: resolution under bounds on the configuration variables. *)
From Coq Require Import Reals ZArith.
From mathcomp Require Import all_ssreflect all_algebra.
From Verif Require Import SolveModel LineModel DescentModel RField RReal AffModel NewtModel NearExamples LimModel LimSpec LimProofs LimExamples.
Set Implicit Arguments. Unset Strict Implicit. Unset Printing Implicit Defensive.
Import GRing.Theory Num.Theory.
Delimit Scope R_scope with coqR.
Open Scope ring_scope.

(** A line search that ends with integrate never leaves the bounds: solve returns the starting point after no
    iteration, or a configuration within bounds, as are all those visited after the starting point. *)
Theorem C88_within : forall (F : realFieldType) n (lm : limits F n) St (lsearch : St -> 'cV[F]_n -> 'cV[F]_n -> 'cV[F]_n * 'cV[F]_n * St)
    ltb (E : 'cV[F]_n -> F) descent dnorm dmin thr maxit rdim inf,
  (forall s q d, exists x, (lsearch s q d).1.1 = lintegrate lm q x) -> (forall i, lo lm i 0 <= hi lm i 0) ->
  forall fuel s q st' q' past' iter',
  hsolve ltb E descent dnorm dmin thr maxit rdim lsearch inf fuel s q = Some (st', q', past', iter') ->
  (q' = q /\ past' = [::]) \/
  (within (lo lm) (hi lm) q' /\ exists rest, past' = rest ++ [:: q] /\ forall x, List.In x rest -> within (lo lm) (hi lm) x).
Proof. exact @hsolve_within. Qed.
Print Assumptions C88_within.

(** The four line searches of the code do, and backtracking ends. *)
Theorem C88_searches : forall n (lm : limits R_realFieldType n) St,
  (forall (s : St) q d, exists x, (lls_constant lm s q d).1.1 = lintegrate lm q x) /\
  (forall s q d, exists x, (lls_fixed lm s q d).1.1 = lintegrate lm q x) /\
  (forall ls p thr (s : St) q d, exists x, (lls_error_norm lm ls p thr s q d).1.1 = lintegrate lm q x) /\
  (forall ls (s : St) q d, exists r, lls_backtracking lm ls s q d = Some r /\ exists x, r.1.1 = lintegrate lm q x).
Proof. exact @searches_saturate. Qed.
Print Assumptions C88_searches.

(** The starting point is not put within bounds: where it meets the constraints it is returned. *)
Theorem C88_start_refuted : exists (n : nat) (lm : limits R_realFieldType n) (a : 'rV[R_realFieldType]_n) (b : R_realFieldType) (q : 'cV[R_realFieldType]_n),
  (forall i, lo lm i 0 < hi lm i 0) /\ ~ within (lo lm) (hi lm) q /\
  (exists x, within (lo lm) (hi lm) x /\ row_error a b x = 0) /\
  forall St (s : St) descent dmin thr maxit rdim lsearch inf fuel, 0 <= thr ->
   hsolve (fun x y : R_realFieldType => x < y) (nresidual [:: row_level a b]) descent (@sqn R_realFieldType n) dmin thr maxit rdim lsearch inf fuel s q
     = Some (Some SUCCESS, q, [::], Z0).
Proof. exact start_kept. Qed.
Print Assumptions C88_start_refuted.

(** One equation, full steps, from within the bounds: at most n iterations, SUCCESS exactly when some
    configuration within bounds meets the equation up to the threshold, otherwise INFEASIBLE at a
    configuration of least error among those within bounds. *)
Theorem C88_one_row : forall n St (lm : limits R_realFieldType n) (a : 'rV[R_realFieldType]_n) (b dmin thr thr' inf : R_realFieldType) maxit rdim
    (descent : St -> 'cV[R_realFieldType]_n -> 'cV[R_realFieldType]_n * St) fuel s q,
  (forall i, lo lm i 0 < hi lm i 0) -> 0 < dmin -> dmin * row_norm a <= thr ->
  (forall s q, within (lo lm) (hi lm) q -> descends thr' [:: at_lim lm q (row_level a b)] (descent s q).1) ->
  within (lo lm) (hi lm) q -> rdim <> Z0 -> Z.lt (Z.of_nat n) maxit -> (n < fuel)%N -> row_error a b q <= inf ->
  exists st q' past it, hsolve (fun u v : R_realFieldType => u < v) (nresidual [:: row_level a b]) descent (@sqn R_realFieldType n) dmin thr maxit rdim
      (@lls_constant R_realFieldType n lm St) inf fuel s q = Some (Some st, q', past, it) /\
    Z.le it (Z.of_nat n) /\ within (lo lm) (hi lm) q' /\
    (st = SUCCESS <-> exists x, within (lo lm) (hi lm) x /\ row_error a b x <= thr) /\
    (st = SUCCESS -> row_error a b q' <= thr) /\
    (st <> SUCCESS -> st = INFEASIBLE /\ forall x, within (lo lm) (hi lm) x -> row_error a b q' <= row_error a b x).
Proof. exact @one_row_iff. Qed.
Print Assumptions C88_one_row.

(** both outcomes, x + y = 2 and x + y = 3 in the unit square *)
Example C88_one_row_case : exists (d2 d3 : unit -> 'cV[R_realFieldType]_2 -> 'cV[R_realFieldType]_2 * unit),
  (forall s q, descends 0 [:: at_lim square q (row_level ones (2%coqR : R_realFieldType))] (d2 s q).1) /\
  (forall s q, descends 0 [:: at_lim square q (row_level ones (3%coqR : R_realFieldType))] (d3 s q).1) /\
  (exists q' past it, hsolve (fun u v : R_realFieldType => u < v) (nresidual [:: row_level ones (2%coqR : R_realFieldType)]) d2 (@sqn R_realFieldType 2)
     (1 / 100)%coqR (1 / 50)%coqR (Zpos 40) (Zpos 2) (@lls_constant R_realFieldType 2 square unit) (1000%coqR : R_realFieldType) 40 tt (pt 0 0)
     = Some (Some SUCCESS, q', past, it)) /\
  (exists q' past it, hsolve (fun u v : R_realFieldType => u < v) (nresidual [:: row_level ones (3%coqR : R_realFieldType)]) d3 (@sqn R_realFieldType 2)
     (1 / 100)%coqR (1 / 50)%coqR (Zpos 40) (Zpos 2) (@lls_constant R_realFieldType 2 square unit) (1000%coqR : R_realFieldType) 40 tt (pt 0 0)
     = Some (Some INFEASIBLE, q', past, it)).
Proof. exact square_case. Qed.

(** Not so for several equations: all hypotheses but that one met, a solution within the bounds, and the
    iterations go for ever between two configurations. *)
Theorem C88_several_rows_refuted : exists (lm : limits R_realFieldType 4) (A : 'M[R_realFieldType]_(3, 4)) (b : 'cV[R_realFieldType]_3) (q x : 'cV[R_realFieldType]_4),
  (forall i, lo lm i 0 < hi lm i 0) /\ within (lo lm) (hi lm) q /\ within (lo lm) (hi lm) x /\ A *m x = b /\
  forall St (s : St) descent thr' (dmin thr inf : R) maxit rdim fuel,
    (forall s q, within (lo lm) (hi lm) q -> descends thr' [:: at_lim lm q (rows_level A b)] (descent s q).1) ->
    (dmin <= 1 / 2)%coqR -> (thr < 1 / 4)%coqR -> rdim <> Z0 -> Z.le Z0 maxit -> (Z.to_nat maxit <= fuel)%N ->
    exists q' past, hsolve (fun u v : R_realFieldType => u < v) (nresidual [:: rows_level A b]) descent (@sqn R_realFieldType 4) dmin thr maxit rdim
        (@lls_constant R_realFieldType 4 lm St) inf fuel s q = Some (Some MAX_ITERATION_REACHED, q', past, maxit).
Proof. exact cycles. Qed.
Print Assumptions C88_several_rows_refuted.

(** Nor when a variable has equal bounds: its flag is that of the lower bound only. *)
Theorem C88_equal_bounds_refuted : exists (lm : limits R_realFieldType 2) (a : 'rV[R_realFieldType]_2) (b : R_realFieldType) (q x : 'cV[R_realFieldType]_2),
  (forall i, lo lm i 0 <= hi lm i 0) /\ within (lo lm) (hi lm) q /\ within (lo lm) (hi lm) x /\ row_error a b x = 0 /\
  forall St (s : St) descent thr' (dmin thr inf : R) m rdim fuel,
    (forall s q, within (lo lm) (hi lm) q -> descends thr' [:: at_lim lm q (row_level a b)] (descent s q).1) ->
    0 < dmin -> dmin * row_norm a <= thr -> (thr < (100 / 101) ^ (2 * m))%coqR -> row_error a b q <= inf -> rdim <> Z0 -> (m <= fuel)%N ->
    exists q' past, hsolve (fun u v : R_realFieldType => u < v) (nresidual [:: row_level a b]) descent (@sqn R_realFieldType 2) dmin thr (Z.of_nat m) rdim
        (@lls_constant R_realFieldType 2 lm St) inf fuel s q = Some (Some MAX_ITERATION_REACHED, q', past, Z.of_nat m).
Proof. exact equal_bounds. Qed.
Print Assumptions C88_equal_bounds_refuted.

(** Nor is priority kept at bounds: a step that alone meets the equation of the first level no longer does
    when a second level is added, the variable withdrawn from the first level being moved by the second. *)
Theorem C88_priority_refuted : exists (lm : limits R_realFieldType 2) (a1 a2 : 'rV[R_realFieldType]_2) (b1 b2 : R_realFieldType) (q : 'cV[R_realFieldType]_2),
  (forall i, lo lm i 0 < hi lm i 0) /\ within (lo lm) (hi lm) q /\
  (forall thr d, descends thr [:: at_lim lm q (row_level a1 b1)] d -> row_error a1 b1 (lintegrate lm q d) = 0) /\
  (forall thr d, descends thr [:: at_lim lm q (row_level a1 b1); at_lim lm q (row_level a2 b2)] d -> row_error a1 b1 (lintegrate lm q d) = 1) /\
  (exists thr d, descends thr [:: at_lim lm q (row_level a1 b1); at_lim lm q (row_level a2 b2)] d).
Proof. exact priority. Qed.
Print Assumptions C88_priority_refuted.
