(** Property C87: solutions where the constraints are smooth and independent attract the solvers. *)
From Coq Require Import Reals ZArith.
From mathcomp Require Import all_ssreflect all_algebra.
From Verif Require Import RField RReal SolveModel SolveSpec DescentSpec AffModel AffSpec AffExamples NewtModel NewtSpec NewtExamples NearSpec NearSolve NearExamples.
Set Implicit Arguments. Unset Strict Implicit. Unset Printing Implicit Defensive.
Import GRing.Theory Num.Theory.
Delimit Scope R_scope with coqR.
Open Scope ring_scope.

(** qs: the solution, rho: radius of the ball where the constraints are smooth, m: least factor of the line search *)
Theorem C87_attracts : forall n (ls : seq (nlevel FR n)) (qs : 'cV[FR]_n) (rho a m : FR),
  smooth ls qs rho a -> 0 < rho -> covered ls -> independent ls qs -> root ls qs -> (exists l t, ls = l :: t /\ nl_rows l <> 0%N) -> 0 < m <= 1 ->
  exists delta D : FR, 0 < delta /\ 0 <= D /\ forall thr, 0 < thr -> exists dm (M : nat), 0 < dm /\
  forall St (I : St -> Prop) (descent : St -> 'cV[FR]_n -> 'cV[FR]_n * St) lsearch dmin thr' inf maxit rdim fuel s q0,
  (forall s q, ball qs rho q -> descends thr' [seq at_n q l | l <- ls] (descent s q).1) ->
  moves_by (@along FR n) (fun a d => a *: d) I m descent lsearch -> I s -> ball qs delta q0 -> dmin <= dm ->
  (M <= Z.to_nat maxit)%N -> (Z.to_nat maxit <= fuel)%N -> rdim <> Z0 ->
  exists q past k, nsolve ls descent lsearch dmin thr inf maxit rdim fuel s q0 = Some (Some SUCCESS, q, past, k) /\
    nresidual ls q <= thr /\ norm2 (q - q0) <= D * norm2 (q0 - qs).
Proof. exact near_solve. Qed.
Print Assumptions C87_attracts.

(** x^2 + y^2 = 2 around (1, 1), full steps *)
Example C87_attracts_case : smooth [:: round_level] (pt 1 1) (1 / 2)%coqR 2%coqR /\ covered [:: round_level] /\ independent [:: round_level] (pt 1 1) /\ root [:: round_level] (pt 1 1) /\
  (forall thr s q, ball (F := FR) (pt 1 1) (1 / 2)%coqR q -> descends thr [seq at_n q l | l <- [:: round_level]] (round_descent s q).1) /\
  moves_by (@along FR 2) (fun a d => a *: d) (fun _ => True) 1 round_descent (@full FR 2) /\
  exists delta D : FR, 0 < delta /\ 0 <= D /\ forall thr, 0 < thr -> exists dm (M : nat), 0 < dm /\
  forall inf fuel x y, ((x - 1) * (x - 1) + (y - 1) * (y - 1) <= delta * delta)%coqR -> (M <= fuel)%N -> exists q past k,
    nsolve [:: round_level] round_descent (@full FR 2) dm thr inf (Z.of_nat M) (Z.of_nat 1) fuel tt (pt x y) = Some (Some SUCCESS, q, past, k) /\
    (circ q * circ q <= thr)%coqR /\ norm2 (q - pt x y) <= D * norm2 (pt x y - pt 1 1).
Proof. exact round_case. Qed.

(** explicit constraint y = g x of Jacobian G x *)
Theorem C87_by_substitution : forall n p (ls : seq (nblevel FR n p)) (g : 'cV[FR]_n -> 'cV[FR]_p) (G : 'cV[FR]_n -> 'M[FR]_(p, n)) (xs : 'cV[FR]_n) (rho a m : FR),
  let rs := [seq substituted g G l | l <- ls] in
  smooth rs xs rho a -> 0 < rho -> covered rs -> independent rs xs -> root rs xs -> (exists l t, ls = l :: t /\ nb_rows l <> 0%N) -> 0 < m <= 1 ->
  exists delta D : FR, 0 < delta /\ 0 <= D /\ forall thr, 0 < thr -> exists dm (M : nat), 0 < dm /\
  forall St (I : St -> Prop) (descent : St -> conf FR n p -> 'cV[FR]_n * St) lsearch dmin thr' maxit rdim fuel s c0,
  (forall s c, on_graph g c -> ball xs rho c.1 -> descends thr' [seq at_nb G c l | l <- ls] (descent s c).1) ->
  nbmoves_by g I m descent lsearch -> I s -> ball xs delta c0.1 -> dmin <= dm ->
  (M <= Z.to_nat maxit)%N -> (Z.to_nat maxit <= fuel)%N -> rdim <> Z0 ->
  exists c b, nbsolve ls g descent lsearch dmin thr maxit rdim fuel s c0 = Done SUCCESS c b /\
    on_graph g c /\ nbresidual ls c <= thr /\ norm2 (c.1 - c0.1) <= D * norm2 (c0.1 - xs).
Proof. exact near_by_substitution. Qed.
Print Assumptions C87_by_substitution.

(** y = x^2 computed, y = 2 to solve, around the square root of 2 *)
Example C87_by_substitution_case : let rs := [seq substituted sub_g sub_G l | l <- [:: sub_level]] in
  smooth rs (const_mx s2) (1 / 2)%coqR 2%coqR /\ covered rs /\ independent rs (const_mx s2) /\ root rs (const_mx s2) /\
  (forall thr s c, on_graph sub_g c -> ball (F := FR) (const_mx s2) (1 / 2)%coqR c.1 -> descends thr [seq at_nb sub_G c l | l <- [:: sub_level]] (sub_descent s c).1) /\
  nbmoves_by sub_g (fun _ => True) 1 sub_descent sub_full /\
  exists delta : FR, 0 < delta /\ forall thr, 0 < thr -> exists dm (M : nat), 0 < dm /\
  forall fuel (x y : 'cV[FR]_1), ball (const_mx s2) delta x -> (M <= fuel)%N -> exists c b,
    nbsolve [:: sub_level] sub_g sub_descent sub_full dm thr (Z.of_nat M) (Z.of_nat 1) fuel tt (x, y) = Done SUCCESS c b /\ on_graph sub_g c /\ nbresidual [:: sub_level] c <= thr.
Proof. exact subs_case. Qed.
