(** Configurations within bounds, equations in them. *)
From mathcomp Require Import all_ssreflect all_algebra.
Set Implicit Arguments. Unset Strict Implicit. Unset Printing Implicit Defensive.
Import GRing.Theory Num.Theory.
Open Scope ring_scope.

Section Spec.
Variables (F : realFieldType) (n : nat).
Definition within (lo hi q : 'cV[F]_n) : Prop := forall i, lo i 0 <= q i 0 <= hi i 0.
(** squared error of the equation a q = b *)
Definition row_error (a : 'rV[F]_n) (b : F) (q : 'cV[F]_n) : F := (\sum_i a 0 i * q i 0 - b) ^+ 2.
Definition row_norm (a : 'rV[F]_n) : F := \sum_i a 0 i ^+ 2.
(** squared error of the equation u x + v y = w *)
Definition pair_error (p : nat) (u : 'rV[F]_n) (v : 'rV[F]_p) (w : F) (c : 'cV[F]_n * 'cV[F]_p) : F :=
  (\sum_i u 0 i * c.1 i 0 + \sum_j v 0 j * c.2 j 0 - w) ^+ 2.
End Spec.
