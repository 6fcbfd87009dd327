(** Specification of the resolution loops, independent of the loops themselves. *)
From Coq Require Import ZArith List Bool.
From Verif Require Import SolveModel.
Import ListNotations.
Open Scope Z_scope.

Section Spec.
Context {Q D St V : Type}.
Variables (ltb : V -> V -> bool) (E : Q -> V).
Variables (descent : St -> Q -> D * St) (lsearch : St -> Q -> D -> Q * D * St) (dnorm : D -> V) (dmin thr inf : V) (maxit : Z).

(** the unlimited sequence of iterates: descent direction, then line search *)
Definition next (p : St * Q) : St * Q :=
  let '(dq, s1) := descent (fst p) (snd p) in
  let '(q', _, s2) := lsearch s1 (snd p) dq in (s2, q').
Fixpoint iterate (n : nat) (p : St * Q) : St * Q :=
  match n with O => p | S m => next (iterate m p) end.
(** value to which the residual of iterate n+1 is compared: infinity at first *)
Definition reference (p : St * Q) (n : nat) : V := match n with O => inf | S _ => E (snd (iterate n p)) end.
Definition decreased (p : St * Q) (n : nat) : bool := ltb (E (snd (iterate (S n) p))) (reference p n).

(** conditions on iterate n *)
Definition above (p : St * Q) (n : nat) : Prop := ltb thr (E (snd (iterate n p))) = true.
Definition three_increases (p : St * Q) (n : nat) : Prop :=
  (3 <= n)%nat /\ forall k, (n - 3 <= k < n)%nat -> decreased p k = false.
Definition small_step (p : St * Q) (n : nat) : Prop :=
  ltb (dnorm (fst (descent (fst (iterate n p)) (snd (iterate n p))))) dmin = true.
Definition stops (p : St * Q) (n : nat) : Prop :=
  ~ above p n \/ three_increases p n \/ maxit <= Z.of_nat n \/ small_step p n.
End Spec.

(** the first k values of l are each not smaller than the following one *)
Fixpoint no_decrease {V} (ltb : V -> V -> bool) (k : nat) (l : list V) : Prop :=
  match k, l with
  | O, _ => True
  | S j, a :: ((b :: _) as t) => ltb a b = false /\ no_decrease ltb j t
  | _, _ => False
  end.
