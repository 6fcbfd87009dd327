(** Least squares under linear equations; points of a line. *)
From Coq Require Import ZArith.
From mathcomp Require Import all_ssreflect all_algebra.
From Verif Require Import DescentSpec AffModel AffSpec.
Set Implicit Arguments. Unset Strict Implicit. Unset Printing Implicit Defensive.
Import GRing.Theory Num.Theory.
Open Scope ring_scope.

Section Spec.
Variables (F : realFieldType) (n p : nat).
(** x + t d, y computed from it *)
Definition on_line (g : 'cV[F]_n -> 'cV[F]_p) (x d : 'cV[F]_n) (t : F) : conf F n p := (x + t *: d, g (x + t *: d)).
(** a solution of the equations req whose violation of o is the least *)
Definition optimum (G : 'M[F]_(p, n)) (h : 'cV[F]_p) (req : seq (blevel F n p)) (o : blevel F n p) (c : conf F n p) : Prop :=
  bsolution G h req c /\ forall c', bsolution G h req c' -> norm2 (berr o c) <= norm2 (berr o c').
(** the line search moves x along any direction given by a factor in [0, M] *)
Definition bsteps (St : Type) (I : St -> Prop) (M : F) (lsearch : St -> conf F n p -> 'cV[F]_n -> option (conf F n p * 'cV[F]_n * St))
    (s : St) (c : conf F n p) (d : 'cV[F]_n) : Prop :=
  exists a s' y, lsearch s c d = Some ((c.1 + a *: d, y), a *: d, s') /\ (0 <= a <= M) /\ I s'.
(** it takes the step given *)
Definition bfull (St : Type) (lsearch : St -> conf F n p -> 'cV[F]_n -> option (conf F n p * 'cV[F]_n * St)) : Prop :=
  forall s c d, exists s' y, lsearch s c d = Some ((c.1 + d, y), d, s').
End Spec.
