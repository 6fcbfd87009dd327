(** Descent direction of the hierarchical solver and projection on the kernel.

    Source: /repo/src/solver/hierarchical-iterative.cc:744-823 (computeDescentDirection),
            /repo/src/solver/by-substitution.cc:258-282 (projectVectorOnKernel),
            /repo/include/hpp/constraints/svd.hh:40-60 (getV1, getV2).

    Scalars: any ordered field.  Eigen::JacobiSVD is not modelled: its result is any
    decomposition satisfying [svd] (exact arithmetic, numerical rank equal to the rank);
    the descent is a relation because the decomposition is not unique. *)
From mathcomp Require Import all_ssreflect all_algebra.
Set Implicit Arguments. Unset Strict Implicit. Unset Printing Implicit Defensive.
Import GRing.Theory Num.Theory.
Open Scope ring_scope.

Section Descent.
Variable R : realFieldType.

(** M = U diag(S) V1^T with positive singular values S; the columns of V1 and V2 form an
    orthonormal basis (matrixV().leftCols(rank), rightCols(cols - rank)). *)
Record svd m k (M : 'M[R]_(m, k)) := mksvd {
  rk : nat; rk2 : nat;
  U : 'M[R]_(m, rk); S : 'rV[R]_rk; V1 : 'M[R]_(k, rk); V2 : 'M[R]_(k, rk2);
  svdE : M = U *m diag_mx S *m V1^T;
  S_pos : forall i, 0 < S 0 i;
  UU : U^T *m U = 1%:M;
  V11 : V1^T *m V1 = 1%:M; V22 : V2^T *m V2 = 1%:M; V12 : V1^T *m V2 = 0;
  V_full : V1 *m V1^T + V2 *m V2^T = 1%:M;
  rk_sum : (rk + rk2 = k)%N }.
(** JacobiSVD::solve: V1 diag(S)^-1 U^T b *)
Definition solve m k (M : 'M[R]_(m, k)) (D : svd M) (b : 'cV[R]_m) : 'cV[R]_k :=
  V1 D *m diag_mx (\row_i (S D 0 i)^-1) *m (U D)^T *m b.
(** squaredNorm *)
Definition sqn k (x : 'cV[R]_k) : R := (x^T *m x) 0 0.

Variable n : nat.  (** number of free variables *)
(** a level: active rows of the Jacobian and of the error *)
Record level := mklevel { rows : nat; jac : 'M[R]_(rows, n); err : 'cV[R]_rows }.
(** the projector; the null pointer is the identity *)
Record proj := mkproj { pcols : nat; pmat : 'M[R]_(n, pcols) }.
Definition null_proj : proj := mkproj 1%:M.

(** Lines 806-809, sigma_: maxRank is updated and the singular value of that index is
    read; the number of singular values is the minimum of the sizes of the matrix. *)
Definition max_rank (mr rank : nat) : nat := maxn mr rank.
Definition sigma_ok (mr rank m k : nat) : bool := (max_rank mr rank == 0)%N || (max_rank mr rank <= minn m k)%N.

(** Lines 752-762, one level only.  Result: dqSmall_, maxRank, whether the access to the
    singular values is inside the vector. *)
Definition one_level (l : level) (D : svd (jac l)) (mr : nat) : 'cV[R]_n * nat * bool :=
  (solve D (- err l), max_rank mr (rk D), sigma_ok mr (rk D) (rows l) n).

(** Lines 774-820, several levels.  [lbl]: solveLevelByLevel_; [thr]:
    squaredErrorThreshold_; [first]: i == 0; [dq]: dqSmall_ (before the loop, what the
    previous call left); levels carry their maxRank.  run ls first dq p dq' mr' ok. *)
Inductive run (lbl : bool) (thr : R) : seq (level * nat) -> bool -> 'cV[R]_n -> proj -> 'cV[R]_n -> seq nat -> bool -> Prop :=
| run_end first dq p : run lbl thr [::] first dq p dq [::] true
| run_skip l mr ls first dq p r mrs ok : rows l = 0%N -> run lbl thr ls false dq p r mrs ok ->
    run lbl thr ((l, mr) :: ls) first dq p r (mr :: mrs) ok
| run_stop l mr ls first dq p (D : svd (jac l *m pmat p)) : rows l <> 0%N ->
    let e := - err l - (if first then 0 else jac l *m dq) in
    (lbl && (thr < sqn e)) || nilp ls || (rk2 D == 0)%N ->
    run lbl thr ((l, mr) :: ls) first dq p ((if first then 0 else dq) + pmat p *m solve D e)
      (max_rank mr (rk D) :: [seq x.2 | x <- ls]) (sigma_ok mr (rk D) (rows l) (pcols p))
| run_next l mr ls first dq p (D : svd (jac l *m pmat p)) r mrs ok : rows l <> 0%N ->
    let e := - err l - (if first then 0 else jac l *m dq) in
    ~~ ((lbl && (thr < sqn e)) || nilp ls || (rk2 D == 0)%N) ->
    run lbl thr ls false ((if first then 0 else dq) + pmat p *m solve D e) (mkproj (pmat p *m V2 D)) r mrs ok ->
    run lbl thr ((l, mr) :: ls) first dq p r (max_rank mr (rk D) :: mrs)
      (sigma_ok mr (rk D) (rows l) (pcols p) && ok).
Definition direction lbl thr ls stale r mrs ok : Prop := run lbl thr ls true stale null_proj r mrs ok.

(** by-substitution.cc:272-276: free part of the velocity minus its projection on the span
    of the rows *)
Definition project_kernel m (J : 'M[R]_(m, n)) (D : svd J) (x : 'cV[R]_n) : 'cV[R]_n :=
  x - V1 D *m ((V1 D)^T *m x).
(** lines 258-282; [free] is the map from free variables to velocity variables, [none] the
    test of line 261 (no constraint, or reduced dimension 0). *)
Definition restrict N (free : 'I_n -> 'I_N) (x : 'cV[R]_N) : 'cV[R]_n := \col_i x (free i) 0.
Definition expand N (free : 'I_n -> 'I_N) (y : 'cV[R]_n) : 'cV[R]_N :=
  \col_j (if [pick i | free i == j] is Some i then y i 0 else 0).
Definition project_vector N (free : 'I_n -> 'I_N) (none : bool) m (J : 'M[R]_(m, n)) (D : svd J) (darg : 'cV[R]_N) : 'cV[R]_N :=
  if none then darg else expand free (project_kernel D (restrict free darg)).
End Descent.
