(** The iterative solvers on constraints that are not affine.

    Source: /repo/include/hpp/constraints/solver/impl/hierarchical-iterative.hh lines 39-181
    (line searches, solve), /repo/src/solver/hierarchical-iterative.cc lines 692-719 (computeError,
    integrate) and 744-823 (computeDescentDirection),
    /repo/include/hpp/constraints/solver/impl/by-substitution.hh lines 38-168.

    As AffModel.v, the error and the Jacobian of a level being any functions of the configuration. *)
From Coq Require Import Reals ZArith.
From mathcomp Require Import all_ssreflect all_algebra.
From Verif Require Import SolveModel LineModel DescentModel RField RReal AffModel.
Set Implicit Arguments. Unset Strict Implicit. Unset Printing Implicit Defensive.
Import GRing.Theory Num.Theory.
Open Scope ring_scope.

Section Newt.
Variables (F : realFieldType) (n : nat).
(** a level: error (value minus right hand side), Jacobian, numbers of rows of its constraints *)
Record nlevel := mknl { nl_rows : nat; nl_err : 'cV[F]_n -> 'cV[F]_nl_rows; nl_jac : 'cV[F]_n -> 'M[F]_(nl_rows, n); nl_sizes : seq nat }.
(** hierarchical-iterative.cc:692-709, computeError *)
Definition nresidual (ls : seq nlevel) (q : 'cV[F]_n) : F :=
  foldl (fun m l => seg_max (nl_err l q) 0 (nl_sizes l) m) 0 ls.
(** data of computeDescentDirection at q *)
Definition at_n (q : 'cV[F]_n) (l : nlevel) : level F n := mklevel (nl_jac l q) (nl_err l q).
(** HierarchicalIterative::solve, dnorm is squaredNorm *)
Definition nsolve (St : Type) (ls : seq nlevel) (descent : St -> 'cV[F]_n -> 'cV[F]_n * St)
    (lsearch : St -> 'cV[F]_n -> 'cV[F]_n -> 'cV[F]_n * 'cV[F]_n * St) (dmin thr inf : F) (maxit rdim : Z) (fuel : nat) (s : St) (q : 'cV[F]_n) :=
  hsolve (fun a b : F => a < b) (nresidual ls) descent (@sqn F n) dmin thr maxit rdim lsearch inf fuel s q.

(** BySubstitution::impl_solve without optimisation.  Configurations (x, y), explicit constraint y = g x
    of Jacobian G x.  The descent direction moves x only and its Jacobian is the reduced one
    (updateJacobian), A + B (G x) with A, B the derivatives with respect to x and y. *)
Variable p : nat.
Record nblevel := mknb { nb_rows : nat; nb_err : conf F n p -> 'cV[F]_nb_rows;
  nb_A : conf F n p -> 'M[F]_(nb_rows, n); nb_B : conf F n p -> 'M[F]_(nb_rows, p); nb_sizes : seq nat }.
Definition nbresidual (ls : seq nblevel) (c : conf F n p) : F := foldl (fun m l => seg_max (nb_err l c) 0 (nb_sizes l) m) 0 ls.
Definition at_nb (G : 'cV[F]_n -> 'M[F]_(p, n)) (c : conf F n p) (l : nblevel) : level F n :=
  mklevel (nb_A l c + nb_B l c *m G c.1) (nb_err l c).
Definition nesolve (g : 'cV[F]_n -> 'cV[F]_p) (c : conf F n p) : option (conf F n p) := Some (c.1, g c.1).
Definition nbsolve (St : Type) (ls : seq nblevel) g (descent : St -> conf F n p -> 'cV[F]_n * St)
    (lsearch : St -> conf F n p -> 'cV[F]_n -> option (conf F n p * 'cV[F]_n * St)) (dmin thr : F) (maxit rdim : Z) (fuel : nat) (s : St) (c : conf F n p) :=
  bsolve (fun a b : F => a < b) (nbresidual ls) descent (@sqn F n) dmin thr maxit rdim (nbresidual ls) lsearch (nesolve g)
    (fun x => 4%:R^-1 * x) (fun x => x / 2%:R) (fun x => x * 2%:R) (fun x => x < 2%:R^-1) 1 0 (fun d x => x *: d) (fun d x => x^-1 *: d) fuel s false c.
End Newt.

(** The line searches of the code that use the residual *)
Section Searches.
Variables (n : nat).
Notation vec := 'cV[R]_n.
Definition nls_error_norm (St : Type) (ls : seq (nlevel R_realFieldType n)) (e : enb) (thr : R) (s : St) (q d : vec) : vec * vec * St :=
  let '(_, q', d') := enb_step (@vadd n) (@vscale n) (nresidual ls) e thr q d in (q', d', s).
(** lines 88-101, computeLocalSlope *)
Definition nslope (ls : seq (nlevel R_realFieldType n)) (q d : vec) : R := foldl (fun s l => s + ((nl_jac l q *m d)^T *m nl_err l q) 0 0) 0 ls.
(** five trials at most (C35_backtracking_trials); no result: the loop did not end *)
Definition nls_backtracking (St : Type) (ls : seq (nlevel R_realFieldType n)) (s : St) (q d : vec) : option (vec * vec * St) :=
  if bt_step (@vadd n) (@vscale n) (nresidual ls) 6 bt_new (nslope ls q d) q d is Some (_, q', d') then Some (q', d', s) else None.
End Searches.
