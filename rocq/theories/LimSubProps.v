(** Property C89: resolution by substitution under bounds. *)
From Coq Require Import Reals ZArith.
From mathcomp Require Import all_ssreflect all_algebra.
From Verif Require Import SolveModel LineModel DescentModel RField RReal AffModel NewtModel NearExamples LimModel LimSpec LimExamples LimSub LimSubEx.
Set Implicit Arguments. Unset Strict Implicit. Unset Printing Implicit Defensive.
Import GRing.Theory Num.Theory.
Delimit Scope R_scope with coqR.
Open Scope ring_scope.

(** With a line search that ends with integrate: in the result and in every configuration visited, with or without
    optimisation, the free variables are those of the start or within bounds, and the explicit ones are the value
    of the explicit function. *)
Theorem C89_within : forall (F : realFieldType) n p (lm : limits F n) (g : 'cV[F]_n -> option 'cV[F]_p) St
    (lsearch : St -> conf F n p -> 'cV[F]_n -> option (conf F n p * 'cV[F]_n * St))
    ltb (E C : conf F n p -> F) descent dnorm dmin thr maxit rdim quarter half dbl below_half one zero dmul ddiv,
  (forall s c d c' d' s', lsearch s c d = Some (c', d', s') -> exists x, c'.1 = lintegrate lm c.1 x) -> (forall i, lo lm i 0 <= hi lm i 0) ->
  forall fuel s opt c st c' b,
  bsolve ltb E descent dnorm dmin thr maxit rdim C lsearch (psolve g) quarter half dbl below_half one zero dmul ddiv fuel s opt c = Done st c' b ->
  forall v, v = c' \/ List.In v (b_past b) -> (v.1 = c.1 \/ within (lo lm) (hi lm) v.1) /\ g v.1 = Some v.2.
Proof. exact @bsolve_within. Qed.
Print Assumptions C89_within.

(** The four line searches of the code do: free variables moved and saturated, then the explicit function. *)
Theorem C89_searches : forall n p (lm : limits R_realFieldType n) (lmy : limits R_realFieldType p) (g : 'cV[R_realFieldType]_n -> 'cV[R_realFieldType]_p) St,
  (forall (s : St) c d, exists x d' s', bls_constant lm lmy g s c d = Some (bintegrate lm lmy g c x, d', s')) /\
  (forall s c d, exists x d' s', bls_fixed lm lmy g s c d = Some (bintegrate lm lmy g c x, d', s')) /\
  (forall res e thr (s : St) c d, exists x d' s', bls_error_norm lm lmy g res e thr s c d = Some (bintegrate lm lmy g c x, d', s')) /\
  (forall res sl (s : St) c d, exists x d' s', bls_backtracking lm lmy g res sl s c d = Some (bintegrate lm lmy g c x, d', s')) /\
  (forall c x, bintegrate lm lmy g c x = (lintegrate lm c.1 x, g (lintegrate lm c.1 x))).
Proof. exact @bsearches. Qed.
Print Assumptions C89_searches.

(** One equation u x + v y = w, y = G x + h, full steps, from free variables within bounds: SUCCESS exactly when the
    start is below the threshold or some x within bounds is below a quarter of it, the bounds of y playing no part;
    otherwise INFEASIBLE at an x of least error among those within bounds.  At most n iterations from a start
    that is not below the threshold. *)
Theorem C89_one_row : forall n p St (lm : limits R_realFieldType n) (lmy : limits R_realFieldType p) (G : 'M[R_realFieldType]_(p, n)) (h : 'cV[R_realFieldType]_p)
    (u : 'rV[R_realFieldType]_n) (v : 'rV[R_realFieldType]_p) (w dmin thr thr' : R_realFieldType) maxit rdim
    (descent : St -> conf R_realFieldType n p -> 'cV[R_realFieldType]_n * St),
  (forall i, lo lm i 0 < hi lm i 0) -> 0 < dmin -> dmin * row_norm (u + v *m G) <= 4%:R^-1 * thr ->
  (forall s x, within (lo lm) (hi lm) x -> descends thr' [:: at_blim lm G (row_blevel u v w) (x, G *m x + h)] (descent s (x, G *m x + h)).1) ->
  forall fuel s c, within (lo lm) (hi lm) c.1 -> rdim <> Z0 -> Z.lt (Z.of_nat n) maxit -> (n.+1 < fuel)%N -> 0 < thr ->
  exists st x b, absolve [:: row_blevel u v w] G h descent (@bls_constant R_realFieldType n p lm lmy St (fun x => G *m x + h)) dmin thr maxit rdim fuel s c
      = Done st (x, G *m x + h) b /\ within (lo lm) (hi lm) x /\
    (st = SUCCESS <-> pair_error u v w (c.1, G *m c.1 + h) < thr \/
       exists z, within (lo lm) (hi lm) z /\ pair_error u v w (z, G *m z + h) <= 4%:R^-1 * thr) /\
    (st = SUCCESS -> pair_error u v w (x, G *m x + h) < thr) /\
    (st <> SUCCESS -> st = INFEASIBLE /\ forall z, within (lo lm) (hi lm) z -> pair_error u v w (x, G *m x + h) <= pair_error u v w (z, G *m z + h)) /\
    (thr <= pair_error u v w (c.1, G *m c.1 + h) ->
       Z.le (b_iter b) (Z.of_nat n) /\ (st = SUCCESS -> pair_error u v w (x, G *m x + h) <= 4%:R^-1 * thr)).
Proof. exact @bone_row. Qed.
Print Assumptions C89_one_row.

(** y = x1 + x2 in the unit square, y = 2 and y = 3: both outcomes *)
Example C89_one_row_case : exists (d2 d3 : unit -> conf R_realFieldType 2 1 -> 'cV[R_realFieldType]_2 * unit),
  (forall s x, descends 0 [:: at_blim square ones (row_blevel 0 one1 (2%coqR : R_realFieldType)) (x, ones *m x + 0)] (d2 s (x, ones *m x + 0)).1) /\
  (forall s x, descends 0 [:: at_blim square ones (row_blevel 0 one1 (3%coqR : R_realFieldType)) (x, ones *m x + 0)] (d3 s (x, ones *m x + 0)).1) /\
  (exists c b, absolve [:: row_blevel 0 one1 (2%coqR : R_realFieldType)] ones 0 d2 (@bls_constant R_realFieldType 2 1 square o_lmy unit (fun x => ones *m x + 0))
     (1 / 100)%coqR (1 / 10)%coqR (Zpos 40) (Zpos 2) 40 tt (pt 0 0, 0) = Done SUCCESS c b) /\
  (exists c b, absolve [:: row_blevel 0 one1 (3%coqR : R_realFieldType)] ones 0 d3 (@bls_constant R_realFieldType 2 1 square o_lmy unit (fun x => ones *m x + 0))
     (1 / 100)%coqR (1 / 10)%coqR (Zpos 40) (Zpos 2) 40 tt (pt 0 0, 0) = Done INFEASIBLE c b).
Proof. exact sub_case. Qed.

(** The explicit variables leave their bounds: from a start within all bounds, and although a solution within all
    bounds exists, SUCCESS is returned with an explicit variable out of bounds. *)
Theorem C89_explicit_bounds_refuted : exists (lm : limits R_realFieldType 2) (lmy : limits R_realFieldType 1) (G : 'M[R_realFieldType]_(1, 2)) (h : 'cV[R_realFieldType]_1)
    (u : 'rV[R_realFieldType]_2) (v : 'rV[R_realFieldType]_1) (w : R_realFieldType) (c good bad : conf R_realFieldType 2 1),
  (forall i, lo lm i 0 < hi lm i 0) /\ (forall i, lo lmy i 0 < hi lmy i 0) /\
  (within (lo lm) (hi lm) c.1 /\ within (lo lmy) (hi lmy) c.2 /\ c.2 = G *m c.1 + h) /\
  (within (lo lm) (hi lm) good.1 /\ within (lo lmy) (hi lmy) good.2 /\ good.2 = G *m good.1 + h /\ pair_error u v w good = 0) /\
  ~ within (lo lmy) (hi lmy) bad.2 /\
  forall St (s : St) descent thr' (dmin thr : R_realFieldType) maxit rdim fuel,
   (forall s x, within (lo lm) (hi lm) x -> descends thr' [:: at_blim lm G (row_blevel u v w) (x, G *m x + h)] (descent s (x, G *m x + h)).1) ->
   (0 < dmin <= 8)%coqR -> (0 < thr <= 16)%coqR -> rdim <> Z0 -> Z.lt Z0 maxit -> (0 < fuel)%N ->
   exists b, absolve [:: row_blevel u v w] G h descent (@bls_constant R_realFieldType 2 1 lm lmy St (fun x => G *m x + h)) dmin thr maxit rdim fuel s c
     = Done SUCCESS bad b.
Proof. exact out_of_bounds. Qed.
Print Assumptions C89_explicit_bounds_refuted.
