(** The iterative solvers on affine constraints.

    Source: /repo/include/hpp/constraints/solver/impl/hierarchical-iterative.hh lines 39-181
    (line searches, solve), /repo/src/solver/hierarchical-iterative.cc lines 692-719 (computeError,
    integrate) and 744-823 (computeDescentDirection),
    /repo/include/hpp/constraints/solver/impl/by-substitution.hh lines 38-168.

    The loops are hsolve and bsolve of SolveModel.v, the descent direction is the one of
    DescentModel.v, the line searches are those of LineModel.v.  What is set here: the configuration
    space is a vector space without bounds, all variables are free, the comparison types are Equality
    so that every row is active. *)
From Coq Require Import Reals ZArith.
From mathcomp Require Import all_ssreflect all_algebra.
From Verif Require Import SolveModel LineModel DescentModel RField RReal.
Set Implicit Arguments. Unset Strict Implicit. Unset Printing Implicit Defensive.
Import GRing.Theory Num.Theory.
Open Scope ring_scope.

Section Aff.
Variables (F : realFieldType) (n : nat).
(** a level: value A q, right hand side b, numbers of rows of its constraints *)
Record alevel := mkal { al_rows : nat; al_A : 'M[F]_(al_rows, n); al_b : 'cV[F]_al_rows; al_sizes : seq nat }.
Definition aerr (l : alevel) (q : 'cV[F]_n) : 'cV[F]_(al_rows l) := al_A l *m q - al_b l.
(** lines 698-709, d.error.segment (iv, nv).squaredNorm () *)
Definition seg_norm r (e : 'cV[F]_r) (iv nv : nat) : F := \sum_(i < r | (iv <= i < iv + nv)%N) e i 0 ^+ 2.
Fixpoint seg_max r (e : 'cV[F]_r) (iv : nat) (sizes : seq nat) (m : F) : F :=
  if sizes is nv :: t then seg_max e (iv + nv) t (Num.max m (seg_norm e iv nv)) else m.
(** lines 692-709, computeError; [req]: all levels but the last one if it is optional *)
Definition aresidual (req : seq alevel) (q : 'cV[F]_n) : F :=
  foldl (fun m l => seg_max (aerr l q) 0 (al_sizes l) m) 0 req.
(** data of computeDescentDirection at q *)
Definition at_q (l : alevel) (q : 'cV[F]_n) : level F n := mklevel (al_A l) (aerr l q).
(** lines 752-762 with one level, 774-820 with several, solveLevelByLevel_ not set; [ls]: the levels
    with their maxRank, [stale]: what the previous call left *)
Inductive descends (thr : F) (ls : seq (level F n)) (r : 'cV[F]_n) : Prop :=
| desc_one l (D : svd (jac l)) mr : ls = [:: l] -> r = (one_level D mr).1.1 -> descends thr ls r
| desc_many lms stale mrs ok : ls = [seq x.1 | x <- lms] -> direction false thr lms stale r mrs ok -> descends thr ls r.

(** HierarchicalIterative::solve, dnorm is squaredNorm *)
Definition asolve (St : Type) (req : seq alevel) (descent : St -> 'cV[F]_n -> 'cV[F]_n * St)
    (lsearch : St -> 'cV[F]_n -> 'cV[F]_n -> 'cV[F]_n * 'cV[F]_n * St) (dmin thr inf : F) (maxit rdim : Z) (fuel : nat) (s : St) (q : 'cV[F]_n) :=
  hsolve (fun a b : F => a < b) (aresidual req) descent (@sqn F n) dmin thr maxit rdim lsearch inf fuel s q.

(** BySubstitution::impl_solve without optimisation.  Configurations (x, y), explicit constraint
    y = G x + h.  A level is given on (x, y); the descent direction moves x only and its Jacobian is the
    reduced one (updateJacobian), A_x + A_y G. *)
Variable p : nat.
Record blevel := mkbl { bl_rows : nat; bl_A : 'M[F]_(bl_rows, n); bl_B : 'M[F]_(bl_rows, p); bl_b : 'cV[F]_bl_rows; bl_sizes : seq nat }.
Definition conf : Type := ('cV[F]_n * 'cV[F]_p)%type.
Definition berr (l : blevel) (c : conf) : 'cV[F]_(bl_rows l) := bl_A l *m c.1 + bl_B l *m c.2 - bl_b l.
Definition bresidual (req : seq blevel) (c : conf) : F := foldl (fun m l => seg_max (berr l c) 0 (bl_sizes l) m) 0 req.
Definition at_c (G : 'M[F]_(p, n)) (l : blevel) (c : conf) : level F n := mklevel (bl_A l + bl_B l *m G) (berr l c).
Definition explicit_solve (G : 'M[F]_(p, n)) (h : 'cV[F]_p) (c : conf) : option conf := Some (c.1, G *m c.1 + h).
Definition absolve (St : Type) (req : seq blevel) G h (descent : St -> conf -> 'cV[F]_n * St)
    (lsearch : St -> conf -> 'cV[F]_n -> option (conf * 'cV[F]_n * St)) (dmin thr : F) (maxit rdim : Z) (fuel : nat) (s : St) (c : conf) :=
  bsolve (fun a b : F => a < b) (bresidual req) descent (@sqn F n) dmin thr maxit rdim (bresidual req) lsearch (explicit_solve G h)
    (fun x => 4%:R^-1 * x) (fun x => x / 2%:R) (fun x => x * 2%:R) (fun x => x < 2%:R^-1) 1 0 (fun d x => x *: d) (fun d x => x^-1 *: d) fuel s false c.
End Aff.

(** The line searches of the code on a vector space *)
Section Searches.
Variables (n : nat).
Notation vec := 'cV[R]_n.
Definition vadd (q d : vec) : vec := q + d.
Definition vscale (a : R) (d : vec) : vec := a *: d.
Definition ls_constant (St : Type) (s : St) (q d : vec) : vec * vec * St := let '(_, q', d') := constant vadd q d in (q', d', s).
Definition ls_fixed (s : fixed) (q d : vec) : vec * vec * fixed := let '(s', (_, q', d')) := fixed_step vadd vscale s q d in (q', d', s').
Definition ls_error_norm (St : Type) (req : seq (alevel R_realFieldType n)) (e : enb) (thr : R) (s : St) (q d : vec) : vec * vec * St :=
  let '(_, q', d') := enb_step vadd vscale (aresidual req) e thr q d in (q', d', s).
(** lines 88-101, computeLocalSlope *)
Definition aslope (ls : seq (alevel R_realFieldType n)) (q d : vec) : R := foldl (fun s l => s + ((al_A l *m d)^T *m aerr l q) 0 0) 0 ls.
(** five trials at most (C35_backtracking_trials); no result: the loop did not end *)
Definition ls_backtracking (St : Type) (ls : seq (alevel R_realFieldType n)) (s : St) (q d : vec) : option (vec * vec * St) :=
  if bt_step vadd vscale (aresidual ls) 6 bt_new (aslope ls q d) q d is Some (_, q', d') then Some (q', d', s) else None.
End Searches.
