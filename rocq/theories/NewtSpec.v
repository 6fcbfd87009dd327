(** Regular systems of equations around a configuration. *)
From Coq Require Import ZArith.
From mathcomp Require Import all_ssreflect all_algebra.
From Verif Require Import DescentSpec AffModel NewtModel.
Set Implicit Arguments. Unset Strict Implicit. Unset Printing Implicit Defensive.
Import GRing.Theory Num.Theory.
Open Scope ring_scope.

Section Spec.
Variables (F : realFieldType) (n : nat).
Implicit Types (ls : seq (nlevel F n)) (q d : 'cV[F]_n).
(** a vector for each level; the squared norm of its part for each constraint is at most M.  Constraint c
    of a level has the rows from sumn (take c sizes) to sumn (take (c + 1) sizes) excluded. *)
Definition each ls (b : forall l : nlevel F n, 'cV[F]_(nl_rows l)) (M : F) : Prop :=
  forall l c, List.In l ls -> (c < size (nl_sizes l))%N ->
    \sum_(i < nl_rows l | (sumn (take c (nl_sizes l)) <= i < sumn (take c.+1 (nl_sizes l)))%N) b l i 0 ^+ 2 <= M.
(** configurations at distance at most r from q0 *)
Definition ball q0 (r : F) q : Prop := norm2 (q - q0) <= r ^+ 2.
(** the linearised equations have solutions for all right hand sides, at most B times as large *)
Definition regular ls (B : F) q : Prop := forall b M, 0 <= M -> each ls b M ->
  exists x, norm2 x <= B ^+ 2 * M /\ forall l, List.In l ls -> nl_jac l q *m x = b l.
(** the linearisation at q is exact up to K times the squared length of the move d *)
Definition curved ls (K : F) q d : Prop := each ls (fun l => nl_err l (q + d) - nl_err l q - nl_jac l q *m d) ((K * norm2 d) ^+ 2).
(** the linearised equations stretch squared lengths by at most L *)
Definition nstretch ls (L : F) q : Prop := forall x, each ls (fun l => nl_jac l q *m x) (L * norm2 x).
(** all this in a ball *)
Definition well_behaved ls q0 r B K L : Prop :=
  (forall q, ball q0 r q -> regular ls B q /\ nstretch ls L q) /\
  (forall q d, ball q0 r q -> ball q0 r (q + d) -> curved ls K q d).

(** the levels as equations in x once y = g x is substituted *)
Variable p : nat.
Definition substituted (g : 'cV[F]_n -> 'cV[F]_p) (G : 'cV[F]_n -> 'M[F]_(p, n)) (l : nblevel F n p) : nlevel F n :=
  mknl (fun x => nb_err l (x, g x)) (fun x => nb_A l (x, g x) + nb_B l (x, g x) *m G x) (nb_sizes l).
Definition on_graph (g : 'cV[F]_n -> 'cV[F]_p) (c : conf F n p) : Prop := c.2 = g c.1.
(** the line search moves x along the direction by a factor in [m, 1], whatever it does to y *)
Definition nbmoves_by (St : Type) g (I : St -> Prop) (m : F) (descent : St -> conf F n p -> 'cV[F]_n * St)
    (lsearch : St -> conf F n p -> 'cV[F]_n -> option (conf F n p * 'cV[F]_n * St)) : Prop :=
  forall s c, I s -> on_graph g c -> exists a d s1 s2 y, descent s c = (d, s1) /\
    lsearch s1 c d = Some ((c.1 + a *: d, y), a *: d, s2) /\ (m <= a <= 1) /\ I s2.
End Spec.
