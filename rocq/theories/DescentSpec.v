(** Hierarchy of least squares problems. *)
From mathcomp Require Import all_ssreflect all_algebra.
Set Implicit Arguments. Unset Strict Implicit. Unset Printing Implicit Defensive.
Import GRing.Theory Num.Theory.
Open Scope ring_scope.

Section Spec.
Variables (R : realFieldType) (n : nat).
Definition norm2 k (x : 'cV[R]_k) : R := \sum_i x i 0 ^+ 2.
(** a problem: minimise |J x + e|^2 *)
Record problem := mkproblem { p_rows : nat; p_J : 'M[R]_(p_rows, n); p_e : 'cV[R]_p_rows }.
Definition cost (p : problem) (x : 'cV[R]_n) : R := norm2 (p_J p *m x + p_e p).
(** elements of A of minimal cost *)
Definition best (A : 'cV[R]_n -> Prop) (p : problem) : 'cV[R]_n -> Prop :=
  fun x => A x /\ forall y, A y -> cost p x <= cost p y.
(** each problem is solved among the solutions of the previous ones *)
Definition lex (ps : seq problem) : 'cV[R]_n -> Prop := foldl best (fun _ => True) ps.
Definition least_norm (A : 'cV[R]_n -> Prop) (x : 'cV[R]_n) : Prop := A x /\ forall y, A y -> norm2 x <= norm2 y.
End Spec.
