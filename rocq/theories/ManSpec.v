(** Singular values. *)
From Coq Require Import Reals.
From mathcomp Require Import all_ssreflect all_algebra.
From Verif Require Import RField.
Set Implicit Arguments. Unset Strict Implicit. Unset Printing Implicit Defensive.
Import GRing.Theory.
Delimit Scope R_scope with coqR.
Local Open Scope ring_scope.

Definition rect_diag m k (sv : seq R) : 'M[R]_(m, k) := \matrix_(i, j) (if i == j :> nat then nth 0 sv i else 0).
Definition singular_values m k (A : 'M[R]_(m, k)) (sv : seq R) : Prop :=
  size sv = minn m k /\ (forall s, s \in sv -> (0 <= s)%coqR) /\
  exists (U : 'M[R]_m) (V : 'M[R]_k), U^T *m U = 1%:M /\ V^T *m V = 1%:M /\ A = U *m rect_diag m k sv *m V^T.
(** the columns that [act] does not enumerate are zero *)
Definition only_active m n k (act : 'I_k -> 'I_n) (J : 'M[R]_(m, n)) : Prop :=
  injective act /\ forall i j, (forall a, act a <> j) -> J i j = 0.
Definition product (l : seq R) : R := foldr Rmult 1%coqR l.
