(** Property C83: constraints that are not affine, near a configuration where they are regular. *)
From Coq Require Import Reals ZArith.
From mathcomp Require Import all_ssreflect all_algebra.
From Verif Require Import SolveModel SolveSpec LineModel DescentModel DescentSpec RField RReal AffModel AffSpec AffExamples NewtModel NewtSpec NewtProofs NewtBySub NewtLine NewtExamples.
Set Implicit Arguments. Unset Strict Implicit. Unset Printing Implicit Defensive.
Import GRing.Theory Num.Theory.
Open Scope ring_scope.

(** r: radius of the ball, B: bound of the inverse of the linearised equations, K: curvature, L: stretch,
    s0: square root of the initial residual (or above), m: least factor of the line search *)
Theorem C83_converges : forall (F : realFieldType) n St (ls : seq (nlevel F n)) (I : St -> Prop) r B K L s0 m dmin thr thr' inf maxit rdim
    (descent : St -> 'cV[F]_n -> 'cV[F]_n * St) lsearch p fuel, let gain := m * (1 - (K * B ^+ 2 * s0) ^+ 2) in
  well_behaved ls p.2 r B K L -> (exists l t, ls = l :: t /\ nl_rows l <> 0%N) ->
  (forall s q, ball p.2 r q -> descends thr' [seq at_n q l | l <- ls] (descent s q).1) ->
  moves_by (@along F n) (fun a d => a *: d) I m descent lsearch -> I p.1 -> 0 <= B -> 0 <= s0 -> 0 <= L -> 0 < m ->
  nresidual ls p.2 <= s0 ^+ 2 -> (K * B ^+ 2 * s0) ^+ 2 < 1 -> B * s0 * 2%:R <= r * gain ->
  L * dmin <= thr -> (Z.to_nat maxit <= fuel)%N -> rdim <> Z0 -> (1 - gain) ^+ (Z.to_nat maxit) * nresidual ls p.2 <= thr ->
  exists k, nsolve ls descent lsearch dmin thr inf maxit rdim fuel p.1 p.2 =
      Some (Some SUCCESS, (iterate descent lsearch k p).2, [seq (iterate descent lsearch j p).2 | j <- rev (iota 0 k)], Z.of_nat k) /\
    (k <= Z.to_nat maxit)%N /\ nresidual ls (iterate descent lsearch k p).2 <= thr /\
    (forall j, (j < k)%N -> thr < nresidual ls (iterate descent lsearch j p).2) /\
    forall j, ball p.2 r (iterate descent lsearch j p).2 /\
      nresidual ls (iterate descent lsearch j.+1 p).2 <= (1 - gain) * nresidual ls (iterate descent lsearch j p).2 /\
      (m = 1 -> nresidual ls (iterate descent lsearch j.+1 p).2 <= (K * B ^+ 2 * nresidual ls (iterate descent lsearch j p).2) ^+ 2).
Proof. exact newton_success. Qed.
Print Assumptions C83_converges.

Delimit Scope R_scope with coqR.
Notation FR := R_realFieldType.
(** x^2 = 2 from 3 / 2, full steps, threshold 10^-4 *)
Example C83_converges_case : forall (inf : R) fuel, (100 <= fuel)%N ->
  let ls := [:: @eqn FR sq2 sq2'] in let q0 := const_mx (3 / 2)%coqR in
  well_behaved ls q0 (1 / 4)%coqR (2 / 5)%coqR 1%coqR (49 / 4)%coqR /\
  (forall s q, ball q0 (1 / 4)%coqR q -> descends (thr8R : FR) [seq at_n q l | l <- ls] (@eqn_descent FR sq2 sq2' s q).1) /\
  nresidual ls q0 <= (1 / 4)%coqR ^+ 2 /\ (1 * (2 / 5)%coqR ^+ 2 * (1 / 4)%coqR) ^+ 2 < 1 :> FR /\
  (2 / 5)%coqR * (1 / 4)%coqR * 2%:R <= (1 / 4)%coqR * (1 * (1 - (1 * (2 / 5)%coqR ^+ 2 * (1 / 4)%coqR) ^+ 2)) :> FR /\
  (49 / 4)%coqR * dmin12R <= thr8R :> FR /\ thr8R < nresidual ls q0 /\
  exists k q past, nsolve ls (@eqn_descent FR sq2 sq2') (@full FR 1) dmin12R thr8R inf (Z.of_nat 100) (Z.of_nat 1) fuel tt q0 =
     Some (Some SUCCESS, q, past, Z.of_nat k) /\ (0 < k)%N /\ let y := sq2 (q 0 0) in (- (1 / 10000) <= y <= 1 / 10000)%coqR.
Proof. exact case_sqrt. Qed.

(** explicit constraint y = g x of Jacobian G x *)
Theorem C83_by_substitution : forall (F : realFieldType) n p St (ls : seq (nblevel F n p)) (g : 'cV[F]_n -> 'cV[F]_p) (G : 'cV[F]_n -> 'M[F]_(p, n)) (I : St -> Prop)
    r B K L s0 m dmin thr thr' maxit rdim descent lsearch s c0 fuel, let gain := m * (1 - (K * B ^+ 2 * s0) ^+ 2) in let c1 := (c0.1, g c0.1) in
  well_behaved [seq substituted g G l | l <- ls] c0.1 r B K L -> (exists l t, ls = l :: t /\ nb_rows l <> 0%N) ->
  (forall s c, on_graph g c -> ball c0.1 r c.1 -> descends thr' [seq at_nb G c l | l <- ls] (descent s c).1) ->
  nbmoves_by g I m descent lsearch -> I s -> 0 <= B -> 0 <= s0 -> 0 <= L -> 0 < m ->
  nbresidual ls c1 <= s0 ^+ 2 -> (K * B ^+ 2 * s0) ^+ 2 < 1 -> B * s0 * 2%:R <= r * gain ->
  L * dmin <= 4%:R^-1 * thr -> 0 <= thr -> (Z.to_nat maxit <= fuel)%N -> rdim <> Z0 ->
  (1 - gain) ^+ (Z.to_nat maxit) * nbresidual ls c1 <= 4%:R^-1 * thr ->
  exists c b, nbsolve ls g descent lsearch dmin thr maxit rdim fuel s c0 = Done SUCCESS c b /\
    on_graph g c /\ ball c0.1 r c.1 /\ nbresidual ls c <= thr /\ (thr <= nbresidual ls c1 -> nbresidual ls c <= 4%:R^-1 * thr) /\
    nbresidual ls c <= nbresidual ls c1.
Proof. exact newton_by_substitution. Qed.
Print Assumptions C83_by_substitution.

(** y = x^2 computed, y = 2 to solve *)
Example C83_by_substitution_case : forall (y : 'cV[FR]_1) fuel, (100 <= fuel)%N ->
  let q0 : 'cV[FR]_1 := const_mx (3 / 2)%coqR in
  well_behaved [seq substituted sub_g sub_G l | l <- [:: sub_level]] q0 (1 / 4)%coqR (2 / 5)%coqR 1%coqR (49 / 4)%coqR /\
  (forall s c, on_graph sub_g c -> ball q0 (1 / 4)%coqR c.1 -> descends (thr8R : FR) [seq at_nb sub_G c l | l <- [:: sub_level]] (sub_descent s c).1) /\
  nbmoves_by sub_g (fun _ => True) 1 sub_descent sub_full /\ thr8R < nbresidual [:: sub_level] (q0, sub_g q0) /\
  exists c b, nbsolve [:: sub_level] sub_g sub_descent sub_full dmin12R thr8R (Z.of_nat 100) (Z.of_nat 1) fuel tt (q0, y) = Done SUCCESS c b /\
    c.2 = sub_g c.1 /\ let y := c.2 0 0 in (- (1 / 20000) <= y - 2 <= 1 / 20000)%coqR.
Proof. exact case_substitution. Qed.

(** away from a solution: x^3 = 5 x from 1 with full steps goes back and forth, though 0 is a solution *)
Theorem C83_cycle_refuted : forall (inf : R) fuel, (16 < inf)%coqR -> (100 <= fuel)%N ->
  let ls := [:: @eqn FR cub cub'] in let one : 'cV[FR]_1 := const_mx 1%coqR in let mone : 'cV[FR]_1 := const_mx (- (1))%coqR in
  (forall s q, (q = one \/ q = mone) -> descends (thr8R : FR) [seq at_n q l | l <- ls] (@eqn_descent FR cub cub' s q).1) /\
  nsolve ls (@eqn_descent FR cub cub') (@full FR 1) dmin12R thr8R inf (Z.of_nat 100) (Z.of_nat 1) fuel tt one =
    Some (Some ERROR_INCREASED, one, [:: mone; one; mone; one], Z.of_nat 4) /\
  nresidual ls 0 = 0.
Proof. exact case_cycle. Qed.
Print Assumptions C83_cycle_refuted.

(** the line searches of the code that use the residual; for the others, C82_constant and C82_fixed_sequence *)
Theorem C83_error_norm : forall n St (ls : seq (nlevel FR n)) m a b thr (descent : St -> 'cV[R]_n -> 'cV[R]_n * St), (m < 1)%coqR ->
  moves_by (F := FR) (@along FR n) (fun a (d : 'cV[R]_n) => (a : R) *: d) (fun _ => True) m descent
    (@nls_error_norm n St ls (enb_new3 m a b) thr).
Proof. exact nmoves_error_norm. Qed.
Print Assumptions C83_error_norm.

Theorem C83_backtracking : forall n St (ls : seq (nlevel FR n)) (descent : St -> 'cV[R]_n -> 'cV[R]_n * St),
  moves_by (F := FR) (@along FR n) (fun a (d : 'cV[R]_n) => (a : R) *: d) (fun _ => True) (2 / 10)%coqR descent
    (fun s q d => odflt (q, d, s) (nls_backtracking ls s q d)) /\
  forall (s : St) q d, nls_backtracking ls s q d <> None.
Proof. exact nmoves_backtracking. Qed.
Print Assumptions C83_backtracking.
