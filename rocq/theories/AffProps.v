(** Property C82: affine constraints in a vector space. *)
From Coq Require Import Reals ZArith.
From mathcomp Require Import all_ssreflect all_algebra.
From Verif Require Import SolveModel SolveSpec LineModel DescentModel DescentSpec RField RReal AffModel AffSpec AffProofs AffMain AffBySub AffLine AffBack AffExamples.
Set Implicit Arguments. Unset Strict Implicit. Unset Printing Implicit Defensive.
Import GRing.Theory Num.Theory.
Open Scope ring_scope.

(** req: levels that are required, opt: the optional last level or none *)
Theorem C82_solved : forall (F : realFieldType) n St (req opt : seq (alevel F n)) (I : St -> Prop) m L dmin thr thr' inf maxit rdim
    (descent : St -> 'cV[F]_n -> 'cV[F]_n * St) lsearch,
  feasible req -> (forall s q, descends thr' [seq at_q l q | l <- req ++ opt] (descent s q).1) ->
  moves_by (@along F n) (fun a d => a *: d) I m descent lsearch ->
  forall p, I p.1 -> 0 < m -> stretch req L -> L * dmin <= thr -> forall fuel, (Z.to_nat maxit <= fuel)%N -> rdim <> Z0 ->
  (1 - m) ^+ (2 * Z.to_nat maxit) * aresidual req p.2 <= thr ->
  exists k, asolve req descent lsearch dmin thr inf maxit rdim fuel p.1 p.2 =
      Some (Some SUCCESS, (iterate descent lsearch k p).2, [seq (iterate descent lsearch j p).2 | j <- rev (iota 0 k)], Z.of_nat k) /\
    (k <= Z.to_nat maxit)%N /\ aresidual req (iterate descent lsearch k p).2 <= thr /\
    (forall j, (j < k)%N -> thr < aresidual req (iterate descent lsearch j p).2) /\
    exists c, 0 <= c <= (1 - m) ^+ k /\ forall l, List.In l req -> aerr l (iterate descent lsearch k p).2 = c *: aerr l p.2.
Proof. exact affine_success. Qed.
Print Assumptions C82_solved.

Theorem C82_full_step : forall (F : realFieldType) n St (req opt : seq (alevel F n)) (I : St -> Prop) L dmin thr thr' inf maxit rdim
    (descent : St -> 'cV[F]_n -> 'cV[F]_n * St) lsearch,
  (forall s q, descends thr' [seq at_q l q | l <- req ++ opt] (descent s q).1) ->
  moves_by (@along F n) (fun a d => a *: d) I 1 descent lsearch ->
  forall s q, I s -> forall fuel, feasible req -> stretch req L -> L * dmin <= thr -> 0 <= thr -> (Z.to_nat maxit <= fuel)%N -> rdim <> Z0 ->
  Z.lt Z0 maxit -> thr < aresidual req q ->
  asolve req descent lsearch dmin thr inf maxit rdim fuel s q = Some (Some SUCCESS, q + (descent s q).1, [:: q], Z.of_nat 1) /\
  solution req (q + (descent s q).1) /\
  (opt = [::] -> (exists l t, req = l :: t /\ al_rows l <> 0%N) -> closest (solution req) q (q + (descent s q).1)).
Proof. exact one_step. Qed.
Print Assumptions C82_full_step.

Example C82_full_step_case : forall (F : realFieldType) fuel inf, (100 <= fuel)%N ->
  let req := [:: row_level 1 1] in let ds := row_descent 1 (@ltr01 F) in
  feasible req /\ (forall s q, descends (thr8 F) [seq at_q l q | l <- req ++ [::]] (ds s q).1) /\
  moves_by (@along F 2) (fun a d => a *: d) (fun _ => True) 1 ds (@full F 2) /\ stretch req 1 /\ 1 * dmin12 F <= thr8 F /\ 0 <= thr8 F /\
  thr8 F < aresidual req 0 /\
  asolve req ds (@full F 2) (dmin12 F) (thr8 F) inf (Z.of_nat 100) (Z.of_nat 1) fuel tt 0 = Some (Some SUCCESS, (DescentExamples.e1 F)^T, [:: 0], Z.of_nat 1).
Proof. exact case_one. Qed.

(** the first level has a row; the residual is still above the threshold after the first step *)
Theorem C82_infeasible : forall (F : realFieldType) n St (req opt : seq (alevel F n)) (I : St -> Prop) dmin thr thr' inf maxit rdim
    (descent : St -> 'cV[F]_n -> 'cV[F]_n * St) lsearch,
  (forall s q, descends thr' [seq at_q l q | l <- req ++ opt] (descent s q).1) ->
  moves_by (@along F n) (fun a d => a *: d) I 1 descent lsearch ->
  forall s q, I s -> forall fuel, (exists l t, req ++ opt = l :: t /\ al_rows l <> 0%N) -> (Z.to_nat maxit <= fuel)%N -> Z.lt (Z.of_nat 1) maxit -> 0 < dmin ->
  thr < aresidual req q -> thr < aresidual req (q + (descent s q).1) ->
  least_violation (req ++ opt) (q + (descent s q).1) /\
  (asolve req descent lsearch dmin thr inf maxit rdim fuel s q = Some (Some INFEASIBLE, q + (descent s q).1, [:: q], Z.of_nat 1) \/
   asolve req descent lsearch dmin thr inf maxit rdim fuel s q = Some (Some INFEASIBLE, q, [::], Z0) /\ (rdim = Z0 \/ norm2 (descent s q).1 < dmin)).
Proof. exact infeasible. Qed.
Print Assumptions C82_infeasible.

Example C82_infeasible_case : forall (F : realFieldType) fuel inf, (100 <= fuel)%N ->
  asolve [:: two_level F] (@two_descent F) (@full F 1) (dmin12 F) (thr8 F) inf (Z.of_nat 100) (Z.of_nat 1) fuel tt 0 =
    Some (Some INFEASIBLE, const_mx (3%:R / 5%:R), [:: 0], Z.of_nat 1) /\
  least_violation [:: two_level F] (const_mx (3%:R / 5%:R)) /\ ~ feasible [:: two_level F].
Proof. exact case_infeasible. Qed.

Theorem C82_by_substitution : forall (F : realFieldType) n p St (req opt : seq (blevel F n p)) (G : 'M[F]_(p, n)) (h : 'cV[F]_p) (I : St -> Prop)
    m L dmin thr thr' maxit rdim descent lsearch s c0 fuel, let c1 := (c0.1, G *m c0.1 + h) in
  (exists c, bsolution G h req c) ->
  (forall s c, computed G h c -> descends thr' [seq at_c G l c | l <- req ++ opt] (descent s c).1) ->
  bmoves_by G h I m descent lsearch -> I s -> 0 < m -> bstretch G req L -> L * dmin <= 4%:R^-1 * thr -> 0 <= thr ->
  (Z.to_nat maxit <= fuel)%N -> rdim <> Z0 -> (1 - m) ^+ (2 * Z.to_nat maxit) * bresidual req c1 <= 4%:R^-1 * thr ->
  exists c b, absolve req G h descent lsearch dmin thr maxit rdim fuel s c0 = Done SUCCESS c b /\
    computed G h c /\ bresidual req c <= thr /\ (thr <= bresidual req c1 -> bresidual req c <= 4%:R^-1 * thr) /\
    (exists a, 0 <= a <= 1 /\ forall l, List.In l req -> berr l c = a *: berr l c1) /\
    (m = 1 -> Z.lt Z0 maxit -> 4%:R^-1 * thr < bresidual req c1 -> bsolution G h req c).
Proof. exact affine_by_substitution. Qed.
Print Assumptions C82_by_substitution.

Example C82_by_substitution_case : forall (F : realFieldType) y fuel, (100 <= fuel)%N ->
  (exists c, bsolution (bs_G F) (const_mx 1) [:: bs_level F] c) /\
  (forall s c, computed (bs_G F) (const_mx 1) c -> descends (thr8 F) [seq at_c (bs_G F) l c | l <- [:: bs_level F] ++ [::]] (bs_descent s c).1) /\
  bmoves_by (bs_G F) (const_mx 1) (fun _ => True) 1 (@bs_descent F) (@bs_full F) /\ bstretch (bs_G F) [:: bs_level F] 1 /\
  1 * dmin12 F <= 4%:R^-1 * thr8 F /\ 4%:R^-1 * thr8 F < bresidual [:: bs_level F] (0, bs_G F *m 0 + const_mx 1) /\
  exists x b, absolve [:: bs_level F] (bs_G F) (const_mx 1) (@bs_descent F) (@bs_full F) (dmin12 F) (thr8 F) (Z.of_nat 100) (Z.of_nat 1) fuel tt (0, y) =
    Done SUCCESS (x, const_mx 3%:R) b /\ x 0 0 = 2%:R.
Proof. exact case_by_substitution. Qed.

(** dqMinSquaredNorm is 10^-12 whatever the scale of the equations: 1000 x1 = 1 / 2000 from 0, with
    squared threshold 10^-8; the step is not taken though it leads to a solution *)
Theorem C82_scale_refuted : forall (F : realFieldType) fuel inf lsearch, (100 <= fuel)%N ->
  let req := [:: row_level 1000%:R 2000%:R^-1] in let ds := row_descent 2000%:R^-1 (ltr0n F 1000) in
  (forall s q, descends (thr8 F) [seq at_q l q | l <- req ++ [::]] (ds s q).1) /\
  asolve req ds lsearch (dmin12 F) (thr8 F) inf (Z.of_nat 100) (Z.of_nat 1) fuel tt 0 = Some (Some INFEASIBLE, 0, [::], Z0) /\
  thr8 F < aresidual req 0 /\ solution req (0 + (ds tt 0).1).
Proof. exact case_scale. Qed.
Print Assumptions C82_scale_refuted.

(** the line searches of the code *)
Delimit Scope R_scope with coqR.
Theorem C82_constant : forall n St (descent : St -> 'cV[R]_n -> 'cV[R]_n * St),
  moves_by (F := R_realFieldType) (@along R_realFieldType n) (fun a (d : 'cV[R]_n) => (a : R) *: d) (fun _ => True) 1 descent (@ls_constant n St).
Proof. exact moves_constant. Qed.
Print Assumptions C82_constant.

(** a new FixedSequence; the descent leaves it alone *)
Theorem C82_fixed_sequence : forall n (descent : fixed -> 'cV[R]_n -> 'cV[R]_n * fixed), (forall s q, (descent s q).2 = s) ->
  exists I : fixed -> Prop, I fixed_new /\
  moves_by (F := R_realFieldType) (@along R_realFieldType n) (fun a (d : 'cV[R]_n) => (a : R) *: d) I (2 / 10)%coqR descent (@ls_fixed n).
Proof. exact moves_fixed_new. Qed.
Print Assumptions C82_fixed_sequence.

Theorem C82_error_norm : forall n St (req : seq (alevel R_realFieldType n)) m a b thr (descent : St -> 'cV[R]_n -> 'cV[R]_n * St), (m < 1)%coqR ->
  moves_by (F := R_realFieldType) (@along R_realFieldType n) (fun a (d : 'cV[R]_n) => (a : R) *: d) (fun _ => True) m descent
    (@ls_error_norm n St req (enb_new3 m a b) thr).
Proof. exact moves_error_norm. Qed.
Print Assumptions C82_error_norm.

Theorem C82_backtracking : forall n St (ls : seq (alevel R_realFieldType n)) (descent : St -> 'cV[R]_n -> 'cV[R]_n * St),
  moves_by (F := R_realFieldType) (@along R_realFieldType n) (fun a (d : 'cV[R]_n) => (a : R) *: d) (fun _ => True) (2 / 10)%coqR descent
    (fun s q d => odflt (q, d, s) (ls_backtracking ls s q d)) /\
  forall (s : St) q d, ls_backtracking ls s q d <> None.
Proof. exact moves_backtracking. Qed.
Print Assumptions C82_backtracking.

(** Backtracking makes the full step, so that C82_full_step holds, for systems of at most 500 constraints. *)
Theorem C82_backtracking_full : forall n St (ls : seq (alevel R_realFieldType n)) thr (descent : St -> 'cV[R]_n -> 'cV[R]_n * St),
  (forall s q, descends thr [seq at_q l q | l <- ls ++ [::]] (descent s q).1) -> feasible ls ->
  (forall l, List.In l ls -> sumn (al_sizes l) = al_rows l) -> (sumn [seq size (al_sizes l) | l <- ls] <= 500)%N ->
  moves_by (F := R_realFieldType) (@along R_realFieldType n) (fun a (d : 'cV[R]_n) => (a : R) *: d) (fun _ => True) 1 descent
    (fun s q d => odflt (q, d, s) (ls_backtracking ls s q d)).
Proof. exact moves_few. Qed.
Print Assumptions C82_backtracking_full.

(** Not for more: the decrease of the largest squared error is compared with a bound that grows with their
    sum.  n constraints q_i = 0 from q = (1, ..., 1): the full step is exact, a shorter one is made, of .2 from 880
    constraints on. *)
Theorem C82_backtracking_refuted : forall n St (s : St), (500 < n)%N -> let q := const_mx 1 : 'cV[R_realFieldType]_n in
  aerr (many n) (q + - q) = 0 /\
  exists a : R, (2 / 10 <= a <= 7 / 10)%coqR /\ ls_backtracking [:: many n] s q (- q) = Some (q + a *: - q, a *: - q, s) /\
   ((880 <= n)%N -> a = (2 / 10)%coqR).
Proof. exact back_many. Qed.
Print Assumptions C82_backtracking_refuted.
