(** Theorems about the descent direction and the projection on the kernel. *)
From mathcomp Require Import all_ssreflect all_algebra.
From Verif Require Import DescentModel DescentSpec DescentProofs DescentMain DescentExamples.
Set Implicit Arguments. Unset Strict Implicit. Unset Printing Implicit Defensive.
Import GRing.Theory Num.Theory.
Open Scope ring_scope.

(** All levels: each linearised residual is minimal among the minimisers of the previous ones,
    whatever the previous direction. *)
Theorem C38_lexicographic : forall (R : realFieldType) n thr (ls : seq (level R n * nat)) stale r mrs ok,
  direction false thr ls stale r mrs ok -> lex [seq mkproblem (jac x.1) (err x.1) | x <- ls] r.
Proof. exact lexicographic. Qed.
Print Assumptions C38_lexicographic.

(** Level by level: all levels, or a prefix whose last level has a residual above the
    threshold for a solution of the previous ones. *)
Theorem C38_level_by_level : forall (R : realFieldType) n thr (ls : seq (level R n * nat)) stale r mrs ok,
  direction true thr ls stale r mrs ok ->
  lex [seq mkproblem (jac x.1) (err x.1) | x <- ls] r \/
  exists l1 l l2 x, ls = l1 ++ l :: l2 /\ lex [seq mkproblem (jac x.1) (err x.1) | x <- rcons l1 l] r /\
    lex [seq mkproblem (jac x.1) (err x.1) | x <- l1] x /\ thr < cost (mkproblem (jac l.1) (err l.1)) x.
Proof. exact level_by_level. Qed.
Print Assumptions C38_level_by_level.

(** Lower levels do not change the linearised residuals of higher ones. *)
Theorem C38_priority : forall (R : realFieldType) n (qs qs' : seq (problem R n)) x y q,
  lex qs x -> lex (qs ++ qs') y -> List.In q qs -> p_J q *m x + p_e q = p_J q *m y + p_e q.
Proof. exact priority. Qed.
Print Assumptions C38_priority.

(** The direction has minimal norm when the first level has a row. *)
Theorem C38_minimal_norm : forall (R : realFieldType) n thr (ls : seq (level R n * nat)) stale r mrs ok,
  direction false thr ls stale r mrs ok -> 
  (exists l mr ls', ls = (l, mr) :: ls' /\ rows l <> 0%N) \/ stale = 0 ->
  least_norm (lex [seq mkproblem (jac x.1) (err x.1) | x <- ls]) r.
Proof. exact minimal_norm'. Qed.
Print Assumptions C38_minimal_norm.

Theorem C38_one_level : forall (R : realFieldType) n (l : level R n) (D : svd (jac l)) mr,
  least_norm (lex [:: mkproblem (jac l) (err l)]) (one_level D mr).1.1.
Proof. exact single. Qed.
Print Assumptions C38_one_level.

(** Otherwise the result depends on the previous call. *)
Theorem C38_previous_direction_refuted : forall R : realFieldType,
  exists (ls : seq (level R 2 * nat)) stale r mrs, direction false 0 ls stale r mrs true /\
  r <> 0 /\ r = stale /\ ~ least_norm (lex [seq mkproblem (jac x.1) (err x.1) | x <- ls]) r.
Proof. exact stale_refuted. Qed.
Print Assumptions C38_previous_direction_refuted.

(** With a decomposition of every matrix there is a result. *)
Theorem C38_total : forall (R : realFieldType) n lbl thr (ls : seq (level R n * nat)),
  (forall m k (M : 'M[R]_(m, k)), inhabited (svd M)) -> forall stale, exists r mrs ok, direction lbl thr ls stale r mrs ok.
Proof. exact total. Qed.
Print Assumptions C38_total.

(** Singular value read for sigma_: inside with one level (the bound on maxRank is preserved)... *)
Theorem C38_sigma_one_level : forall (R : realFieldType) n (l : level R n) (D : svd (jac l)) mr,
  (mr <= minn (rows l) n)%N -> (one_level D mr).2 /\ ((one_level D mr).1.2 <= minn (rows l) n)%N.
Proof. exact one_level_ok. Qed.
Print Assumptions C38_sigma_one_level.

(** ... but outside with two levels, after a first call at a configuration where the first
    level is singular. *)
Theorem C38_sigma_refuted : forall R : realFieldType,
  exists (l0 l0' l1 : level R 2) mr mr', (exists r, direction false 0 [:: (l0, 0%N); (l1, 0%N)] 0 r [:: mr; mr'] true) /\
  rows l0' = rows l0 /\ exists r mrs, direction false 0 [:: (l0', mr); (l1, mr')] 0 r mrs false.
Proof. exact sigma_refuted. Qed.
Print Assumptions C38_sigma_refuted.

Theorem C38_case : forall R : realFieldType,
  exists r, direction false 0 (two_levels R) 0 r [:: 1%N; 1%N] true /\ r 0 0 = 2%:R /\ r 1 0 = -3%:R.
Proof. exact two_run. Qed.
Print Assumptions C38_case.

(** Projection of a velocity: zero out of the free variables, free part in the kernel and
    closest to the free part of the argument, idempotent, not longer. *)
Theorem C46_projection : forall (R : realFieldType) n m (J : 'M[R]_(m, n)) (D : svd J) N (free : 'I_n -> 'I_N),
  injective free -> forall darg : 'cV[R]_N, let v := project_vector free false D darg in
  (forall j, (forall i, free i <> j) -> v j 0 = 0) /\
  J *m restrict free v = 0 /\
  (forall y, J *m y = 0 -> norm2 (restrict free darg - restrict free v) <= norm2 (restrict free darg - y)) /\
  project_vector free false D v = v /\ norm2 v <= norm2 darg.
Proof. exact projection. Qed.
Print Assumptions C46_projection.

Theorem C46_bypass : forall (R : realFieldType) n m (J : 'M[R]_(m, n)) (D : svd J) N (free : 'I_n -> 'I_N) (darg : 'cV[R]_N),
  project_vector free true D darg = darg.
Proof. exact bypass. Qed.
Print Assumptions C46_bypass.

(** The result is not a velocity along the constraints: even a velocity along them (implicit
    Jacobian J, explicit Jacobian Je) is projected onto one that is not. *)
Theorem C46_tangent_refuted : forall R : realFieldType, exists (free : 'I_2 -> 'I_3) (J : 'rV[R]_3) (Je : 'rV[R]_2)
  (D : svd (\row_j J 0 (free j) + J 0 ord_max *: Je)) (darg : 'cV[R]_3),
  injective free /\ (forall i, free i <> ord_max) /\
  J *m darg = 0 /\ darg ord_max 0 = (Je *m restrict free darg) 0 0 /\
  let v := project_vector free false D darg in
  v ord_max 0 <> (Je *m restrict free v) 0 0 /\ J *m v <> 0.
Proof. exact manifold_refuted. Qed.
Print Assumptions C46_tangent_refuted.

Theorem C46_case : forall R : realFieldType, project_kernel (svd_row (@ltr01 R)) (const_mx 1) = @c2 R.
Proof. exact project_case. Qed.
Print Assumptions C46_case.
