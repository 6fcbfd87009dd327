(** C86: BySubstitution::solve with optimisation of the last, optional level.  Models: OptModel.v over
    SolveModel.v and DescentModel.v; specification: OptSpec.v. *)
From Coq Require Import Reals ZArith.
From mathcomp Require Import all_ssreflect all_algebra.
From Verif Require Import RField RReal SolveModel LineModel DescentModel DescentSpec DescentExamples AffModel AffSpec AffExamples NewtModel NewtSpec NewtExamples OptModel OptSpec OptProofs OptLoop OptExamples OptCases.
Set Implicit Arguments. Unset Strict Implicit. Unset Printing Implicit Defensive.
Import GRing.Theory Num.Theory.
Delimit Scope R_scope with coqR.
Open Scope ring_scope.

(** affine constraints, full steps; c1: the start after resolution of the explicit constraints, c2: the
    optimum closest to it *)
Theorem C86_full_step : forall (F : realFieldType) n p St (req : seq (blevel F n p)) (o : blevel F n p) (G : 'M[F]_(p, n)) (h : 'cV[F]_p) (I : St -> Prop)
    dmin thr thr' maxit rdim descent lsearch,
  (exists c, bsolution G h req c) ->
  (forall s c, computed G h c -> descends thr' [seq at_c G l c | l <- req ++ [:: o]] (descent s c).1) ->
  bmoves_by G h I 1 descent lsearch -> 0 <= thr -> rdim <> Z0 -> (exists l t, req ++ [:: o] = l :: t /\ bl_rows l <> 0%N) -> 0 < dmin ->
  forall s c0 fuel, I s -> (Z.to_nat maxit <= fuel)%N -> Z.lt (Zpos 1) maxit ->
  let c1 := (c0.1, G *m c0.1 + h) in let d := (descent s c1).1 in let c2 := (c0.1 + d, G *m (c0.1 + d) + h) in
  optimum G h req o c2 /\ (forall c', optimum G h req o c' -> norm2 (c2.1 - c1.1) <= norm2 (c'.1 - c1.1)) /\
  exists b, aosolve req o G h descent lsearch dmin thr maxit rdim fuel s c0 = Done INFEASIBLE
    (if norm2 d < dmin then c1 else if (4%:R^-1 * thr < bresidual req c1) || (norm2 (berr o c2) < norm2 (berr o c1)) then c2 else c1) b.
Proof. exact full_step. Qed.
Print Assumptions C86_full_step.

(** x1 = 1 required, y = x2 computed, y = 3 wished, from (0, 0) *)
Example C86_full_step_case : forall (F : realFieldType) y fuel, (100 <= fuel)%N ->
  (exists c, bsolution (e2 F) 0 [:: ox_req F] c) /\
  (forall s c, computed (e2 F) 0 c -> descends (thr8 F) [seq at_c (e2 F) l c | l <- [:: ox_req F] ++ [:: ox_opt F]] (@ox_descent F unit s c).1) /\
  bmoves_by (e2 F) 0 (fun _ => True) 1 (@ox_descent F unit) (@ox_full F) /\
  exists b, aosolve [:: ox_req F] (ox_opt F) (e2 F) 0 (@ox_descent F unit) (@ox_full F) (dmin12 F) (thr8 F) (Z.of_nat 100) (Z.of_nat 1) fuel tt (0, y) =
    Done INFEASIBLE (p2 1 3%:R, const_mx 3%:R) b.
Proof. exact case_full. Qed.

(** affine constraints, the start satisfies the required ones: all the configurations do and the cost
    goes to the least one *)
Theorem C86_from_solution : forall (F : realFieldType) n p St (req : seq (blevel F n p)) (o : blevel F n p) (G : 'M[F]_(p, n)) (h : 'cV[F]_p) (I : St -> Prop)
    m L dmin thr thr' maxit rdim descent lsearch,
  (exists c, bsolution G h req c) ->
  (forall s c, computed G h c -> descends thr' [seq at_c G l c | l <- req ++ [:: o]] (descent s c).1) ->
  bmoves_by G h I m descent lsearch -> 0 <= thr ->
  forall s c0 fuel best, 0 <= m -> bstretch G [:: o] L -> I s -> (Z.to_nat maxit <= fuel)%N -> optimum G h req o best ->
  let c1 := (c0.1, G *m c0.1 + h) in bsolution G h req c1 ->
  exists st c b, aosolve req o G h descent lsearch dmin thr maxit rdim fuel s c0 = Done st c b /\ bsolution G h req c /\ norm2 (berr o c) <= norm2 (berr o c1) /\
    (st = MAX_ITERATION_REACHED /\ norm2 (berr o c) - norm2 (berr o best) <= (1 - m) ^+ (2 * Z.to_nat maxit) * (norm2 (berr o c1) - norm2 (berr o best)) \/
     st = INFEASIBLE /\ norm2 (berr o c) - norm2 (berr o best) <= L * dmin).
Proof. exact steps_solve. Qed.
Print Assumptions C86_from_solution.

(** the default line search moves by a factor of at least 2 / 10 *)
Theorem C86_fixed_sequence : forall n p (G : 'M[FR]_(p, n)) (h : 'cV[FR]_p) (descent : fixed -> conf FR n p -> 'cV[FR]_n * fixed),
  (forall s c, (descent s c).2 = s) ->
  exists I : fixed -> Prop, I fixed_new /\ bmoves_by G h I (2 / 10)%coqR descent (on_x (p := p) (@ls_fixed n)).
Proof. exact moves_default. Qed.
Print Assumptions C86_fixed_sequence.

(** the same constraints from (1, 0) with the default line search *)
Example C86_from_solution_case : forall y fuel, (100 <= fuel)%N ->
  let c0 : conf FR 2 1 := (p2 (1 : FR) 0, y) in let best : conf FR 2 1 := (p2 1 3%:R, const_mx 3%:R) in
  bsolution (e2 FR) 0 [:: ox_req FR] (go (e2 FR) 0 c0.1) /\ optimum (e2 FR) 0 [:: ox_req FR] (ox_opt FR) best /\ bstretch (e2 FR) [:: ox_opt FR] 1 /\
  (forall s c, computed (e2 FR) 0 c -> descends (thr8R : FR) [seq at_c (e2 FR) l c | l <- [:: ox_req FR] ++ [:: ox_opt FR]] (@ox_descent FR fixed s c).1) /\
  (forall s c, (@ox_descent FR fixed s c).2 = s) /\
  exists st c b, aosolve [:: ox_req FR] (ox_opt FR) (e2 FR) 0 (@ox_descent FR fixed) (on_x (p := 1) (@ls_fixed 2)) dmin12R thr8R (Z.of_nat 100) (Z.of_nat 1) fuel fixed_new c0 =
      Done st c b /\
    c.1 0 0 = 1 /\ c.2 0 0 = c.1 1 0 /\ let v : R := c.2 0 0 in (- (1 / 1000000) <= v - 3 <= 1 / 1000000)%coqR.
Proof. exact case_steps. Qed.

(** any constraints: from a start that does not satisfy them, the configuration stays on a segment of
    the line of the first direction unless it meets a satisfying configuration there *)
Theorem C86_line : forall (F : realFieldType) n p St (E C : conf F n p -> F) (g : 'cV[F]_n -> 'cV[F]_p) descent lsearch dmin thr maxit rdim (I : St -> Prop) M s x y fuel,
  let c1 := (x, g x) in let d := (descent s c1).1 in
  0 < M -> bsteps I M lsearch (descent s c1).2 c1 d -> (forall s c d, I s -> bsteps I 1 lsearch s c d) ->
  (forall t, 0 <= t < 2%:R * M -> 4%:R^-1 * thr < E (on_line g x d t)) -> (Z.to_nat maxit <= fuel)%N -> rdim <> Z0 ->
  exists st b t, osolve E C g descent lsearch dmin thr maxit rdim fuel s (x, y) = Done st (on_line g x d t) b /\
    0 <= t < 2%:R * M /\ (st = MAX_ITERATION_REACHED /\ Z.le maxit (b_iter b) \/ st = INFEASIBLE) /\ Z.le (b_nd b) (Zpos 1).
Proof. exact line_within. Qed.
Print Assumptions C86_line.

(** the default line search makes 2 / 10 of the first step: from a start whose residual is above
    25 / 36 of the threshold no system of affine equations is solved, however many iterations are
    allowed; more than 3 / 5 of the error of each required constraint remains *)
Theorem C86_default_refuted : forall n p (req : seq (blevel FR n p)) (o : blevel FR n p) (G : 'M[FR]_(p, n)) (h : 'cV[FR]_p) (dmin thr thr' : R) maxit rdim
    (descent : fixed -> conf FR n p -> 'cV[FR]_n * fixed), (forall s c, (descent s c).2 = s) ->
  forall c0 fuel, let c1 := (c0.1, G *m c0.1 + h) in
  (exists c, bsolution G h req c) ->
  (forall s c, computed G h c -> descends (thr' : FR) [seq at_c G l c | l <- req ++ [:: o]] (descent s c).1) ->
  4%:R^-1 * (thr : FR) < (9 / 25)%coqR * bresidual req c1 -> (Z.to_nat maxit <= fuel)%N -> rdim <> Z0 ->
  exists st c b t, aosolve req o G h descent (on_x (p := p) (@ls_fixed n)) dmin thr maxit rdim fuel fixed_new c0 = Done st c b /\
    (st = MAX_ITERATION_REACHED \/ st = INFEASIBLE) /\ 0 <= t < ((2 / 5)%coqR : FR) /\
    (forall l, List.In l req -> berr l c = (1 - t) *: berr l c1) /\ 4%:R^-1 * (thr : FR) < bresidual req c.
Proof. exact default_solve. Qed.
Print Assumptions C86_default_refuted.

(** the system of C86_full_step_case from the same start *)
Example C86_default_case : forall y fuel, (100 <= fuel)%N ->
  let c0 : conf FR 2 1 := (p2 (0 : FR) 0, y) in
  (exists c, bsolution (e2 FR) 0 [:: ox_req FR] c) /\
  (forall s c, computed (e2 FR) 0 c -> descends (thr8R : FR) [seq at_c (e2 FR) l c | l <- [:: ox_req FR] ++ [:: ox_opt FR]] (@ox_descent FR fixed s c).1) /\
  (forall s c, (@ox_descent FR fixed s c).2 = s) /\
  4%:R^-1 * (thr8R : FR) < (9 / 25)%coqR * bresidual [:: ox_req FR] (c0.1, (e2 FR) *m c0.1 + 0) /\
  exists st c b, aosolve [:: ox_req FR] (ox_opt FR) (e2 FR) 0 (@ox_descent FR fixed) (on_x (p := 1) (@ls_fixed 2)) dmin12R thr8R (Z.of_nat 100) (Z.of_nat 1) fuel fixed_new c0 =
      Done st c b /\ st <> SUCCESS /\
    let x1 : R := c.1 0 0 in (0 <= x1 < 2 / 5)%coqR.
Proof. exact case_default. Qed.

(** y = x^2 computed, y = 2 required, x = 5 wished, from 3 / 2 with full steps: never solved, whereas
    without optimisation it is (C83_by_substitution_case) *)
Theorem C86_regular_refuted : forall (y : 'cV[FR]_1) maxit fuel, (Z.to_nat maxit <= fuel)%N ->
  let q0 : 'cV[FR]_1 := const_mx (3 / 2)%coqR in
  (forall s c, on_graph sub_g c -> ball q0 (1 / 4)%coqR c.1 -> descends (thr8R : FR) [seq at_nb sub_G c l | l <- [:: sub_level] ++ [:: sub_opt]] (sub_descent s c).1) /\
  exists st c b, nosolve [:: sub_level] sub_opt sub_g sub_descent sub_full dmin12R thr8R maxit (Z.of_nat 1) fuel tt (q0, y) = Done st c b /\
    st <> SUCCESS /\ let v : R := c.2 0 0 in (v - 2 <= - (7 / 64) \/ 1 / 144 <= v - 2)%coqR.
Proof. exact case_regular. Qed.
Print Assumptions C86_regular_refuted.
