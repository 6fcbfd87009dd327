(** Solutions where the equations are smooth and independent. *)
From Coq Require Import Reals.
From mathcomp Require Import all_ssreflect all_algebra.
From Verif Require Import RField RReal DescentSpec NewtModel NewtSpec.
Set Implicit Arguments. Unset Strict Implicit. Unset Printing Implicit Defensive.
Import GRing.Theory Num.Theory.
Delimit Scope R_scope with coqR.
Open Scope ring_scope.
Notation FR := R_realFieldType.

Section Stack.
Variables (F : realFieldType) (n : nat).
Implicit Type ls : seq (nlevel F n).
Fixpoint all_rows ls : nat := if ls is l :: t then (nl_rows l + all_rows t)%N else 0%N.
(** the Jacobians of all the levels on top of each other *)
Fixpoint stacked ls (q : 'cV[F]_n) : 'M[F]_(all_rows ls, n) :=
  match ls return 'M[F]_(all_rows ls, n) with [::] => 0 | l :: t => col_mx (nl_jac l q) (stacked t q) end.
(** the rows of the Jacobians at q are linearly independent *)
Definition independent ls (q : 'cV[F]_n) : Prop := forall y : 'rV[F]_(all_rows ls), y *m stacked ls q = 0 -> y = 0.
(** q satisfies the equations *)
Definition root ls (q : 'cV[F]_n) : Prop := forall l, List.In l ls -> nl_err l q = 0.
(** every row belongs to a constraint *)
Definition covered ls : Prop := forall l, List.In l ls -> (nl_rows l <= sumn (nl_sizes l))%N.
End Stack.

(** in a ball of radius r around q0 the Jacobian is the derivative of the error and varies at most a times as much as q *)
Definition smooth n (ls : seq (nlevel FR n)) (q0 : 'cV[FR]_n) (r a : R) : Prop :=
  forall l q, List.In l ls -> ball (F := FR) q0 r q ->
  (forall d i, derivable_pt_lim (fun t => nl_err l (q + (t : FR) *: d) i 0) 0%coqR ((nl_jac l q *m d) i 0)) /\
  (forall q' i j, ball (F := FR) q0 r q' -> (nl_jac l q' i j - nl_jac l q i j) ^+ 2 <= (a : FR) ^+ 2 * norm2 (q' - q)).
