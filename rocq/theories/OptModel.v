(** BySubstitution::solve with optimisation.

    Source: /repo/include/hpp/constraints/solver/impl/by-substitution.hh lines 38-168, with _optimize and
    lastIsOptional_ true; /repo/src/solver/hierarchical-iterative.cc lines 692-719 (computeError,
    integrate) and 744-823 (computeDescentDirection).

    The loop is bsolve of SolveModel.v, the descent direction is the one of DescentModel.v (descends of
    AffModel.v), the line searches are those of LineModel.v.  As in AffModel.v and NewtModel.v the
    configuration space is a vector space without bounds and the comparison types are Equality. *)
From Coq Require Import Reals ZArith.
From mathcomp Require Import all_ssreflect all_algebra.
From Verif Require Import SolveModel DescentModel AffModel NewtModel.
Set Implicit Arguments. Unset Strict Implicit. Unset Printing Implicit Defensive.
Import GRing.Theory Num.Theory.
Open Scope ring_scope.

Section Opt.
Variables (F : realFieldType) (n p : nat) (St : Type).
(** [E]: squaredNorm_, [C]: datas_.back().error.squaredNorm(), explicit constraint y = g x *)
Definition osolve (E C : conf F n p -> F) (g : 'cV[F]_n -> 'cV[F]_p) (descent : St -> conf F n p -> 'cV[F]_n * St)
    (lsearch : St -> conf F n p -> 'cV[F]_n -> option (conf F n p * 'cV[F]_n * St)) (dmin thr : F) (maxit rdim : Z) (fuel : nat) (s : St) (c : conf F n p) :=
  bsolve (fun a b : F => a < b) E descent (@sqn F n) dmin thr maxit rdim C lsearch (nesolve g)
    (fun x => 4%:R^-1 * x) (fun x => x / 2%:R) (fun x => x * 2%:R) (fun x => x < 2%:R^-1) 1 0 (fun d x => x *: d) (fun d x => x^-1 *: d) fuel s true c.
(** required levels [req], optional last level [o] *)
Definition nosolve (req : seq (nblevel F n p)) (o : nblevel F n p) := osolve (nbresidual req) (fun c => sqn (nb_err o c)).
Definition aosolve (req : seq (blevel F n p)) (o : blevel F n p) (G : 'M[F]_(p, n)) (h : 'cV[F]_p) :=
  osolve (bresidual req) (fun c => sqn (berr o c)) (fun x => G *m x + h).
(** the line search acts on x; y, of velocity 0, is left as it is *)
Definition on_x (ls : St -> 'cV[F]_n -> 'cV[F]_n -> 'cV[F]_n * 'cV[F]_n * St) (s : St) (c : conf F n p) (d : 'cV[F]_n) : option (conf F n p * 'cV[F]_n * St) :=
  let '(x, d', s') := ls s c.1 d in Some ((x, c.2), d', s').
End Opt.
