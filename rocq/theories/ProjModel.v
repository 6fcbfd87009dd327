(** Projection of a configuration on the kernel of the Jacobian.

    Source: /repo/src/solver/by-substitution.cc:283-303 (projectOnKernel).

    The configuration space is a vector space: M - O and O + OP are those of vectors
    (for other spaces they are computed by pinocchio).  Every variable goes through
    clamp, as in Bounds::saturate and Device::saturate (SatModel.v).  Decomposition of
    the Jacobian at [from]: see DescentModel.v. *)
From Coq Require Import ZArith.
From mathcomp Require Import all_ssreflect all_algebra.
From Verif Require Import SatModel DescentModel.
Set Implicit Arguments. Unset Strict Implicit. Unset Printing Implicit Defensive.
Open Scope ring_scope.

Section Proj.
Variables (R : realFieldType) (n N : nat).
(** saturate_->saturate: the values written *)
Definition saturate (lb ub q : 'cV[R]_N) : 'cV[R]_N :=
  \col_i fst (fst (clamp (fun x y : R => x <= y) (lb i 0) (ub i 0) (q i 0))).
(** lines 283-303; [empty]: constraints_.empty(), [none]: reducedDimension() == 0 *)
Definition project_on_kernel (lb ub : 'cV[R]_N) (empty none : bool) (free : 'I_n -> 'I_N) m (J : 'M[R]_(m, n)) (D : svd J)
  (from to : 'cV[R]_N) : 'cV[R]_N :=
  if empty then to
  else saturate lb ub (from + project_vector free (empty || none) D (to - from)).
End Proj.
