(** The iterative solver on affine inequality constraints.

    Source: /repo/src/solver/hierarchical-iterative.cc lines 53-83 (compare, applyComparison), 616-646
    (computeValue), 692-719 (computeError, integrate), 744-823 (computeDescentDirection),
    /repo/include/hpp/constraints/solver/impl/hierarchical-iterative.hh lines 104-181 (solve).

    As AffModel.v with comparison types: a level gives the error and the Jacobian left by
    applyComparison, the loop is nsolve of NewtModel.v.  Simplification: the right hand side is
    subtracted in every row, that of an inequality row being part of [il_b] (in the code the right hand
    side of an inequality is 0 and the constant is in the function). *)
From Coq Require Import Reals ZArith.
From mathcomp Require Import all_ssreflect all_algebra.
From Verif Require Import EcsModel AffModel NewtModel.
From Verif Require HierModel.
Set Implicit Arguments. Unset Strict Implicit. Unset Printing Implicit Defensive.
Import GRing.Theory Num.Theory.
Open Scope ring_scope.

Section Ineq.
Variables (F : realFieldType) (n : nat).
(** a level: value A q - b, comparison type of each row, numbers of rows of its constraints *)
Record ilevel := mkil { il_rows : nat; il_A : 'M[F]_(il_rows, n); il_b : 'cV[F]_il_rows; il_cmp : 'I_il_rows -> cmp; il_sizes : seq nat }.
(** lines 70-81: one row; error, and true if the row of the Jacobian is set to zero *)
Definition icompare (tau : F) (k : cmp) (x : F) : F * bool :=
  match k with
  | Superior => HierModel.compare 0 +%R (fun a b => a - b) -%R (fun a b => a < b) true x tau
  | Inferior => HierModel.compare 0 +%R (fun a b => a - b) -%R (fun a b => a < b) false x tau
  | _ => (x, false)
  end.
Variable tau : F.
Definition ierr (l : ilevel) (q : 'cV[F]_n) : 'cV[F]_(il_rows l) :=
  \col_i (icompare tau (il_cmp i) ((il_A l *m q - il_b l) i 0)).1.
Definition ijac (l : ilevel) (q : 'cV[F]_n) : 'M[F]_(il_rows l, n) :=
  \matrix_(i, j) if (icompare tau (il_cmp i) ((il_A l *m q - il_b l) i 0)).2 then 0 else il_A l i j.
Definition compared (l : ilevel) : nlevel F n := mknl (ierr l) (ijac l) (il_sizes l).
(** HierarchicalIterative::solve *)
Definition isolve (St : Type) (ls : seq ilevel) (descent : St -> 'cV[F]_n -> 'cV[F]_n * St)
    (lsearch : St -> 'cV[F]_n -> 'cV[F]_n -> 'cV[F]_n * 'cV[F]_n * St) (dmin thr inf : F) (maxit rdim : Z) (fuel : nat) (s : St) (q : 'cV[F]_n) :=
  nsolve [seq compared l | l <- ls] descent lsearch dmin thr inf maxit rdim fuel s q.
End Ineq.
