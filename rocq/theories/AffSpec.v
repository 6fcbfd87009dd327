(** Systems of affine equations and solvers that follow a descent direction. *)
From Coq Require Import ZArith.
From mathcomp Require Import all_ssreflect all_algebra.
From Verif Require Import DescentSpec AffModel.
Set Implicit Arguments. Unset Strict Implicit. Unset Printing Implicit Defensive.
Import GRing.Theory Num.Theory.
Open Scope ring_scope.

Section Spec.
Variables (F : realFieldType) (n : nat).
Definition solution (ls : seq (alevel F n)) (x : 'cV[F]_n) : Prop := forall l, List.In l ls -> al_A l *m x = al_b l.
Definition feasible (ls : seq (alevel F n)) : Prop := exists x, solution ls x.
(** the equations stretch squared lengths by at most L *)
Definition stretch (ls : seq (alevel F n)) (L : F) : Prop :=
  0 <= L /\ forall l x, List.In l ls -> norm2 (al_A l *m x) <= L * norm2 x.
(** x is the element of S closest to q *)
Definition closest (S : 'cV[F]_n -> Prop) (q x : 'cV[F]_n) : Prop := S x /\ forall y, S y -> norm2 (x - q) <= norm2 (y - q).
(** least squares in order of priority: the violation A y - b of each level is minimal among the points
    minimal for the previous levels *)
Definition violation (l : alevel F n) : problem F n := mkproblem (al_A l) (- al_b l).
Definition least_violation (ls : seq (alevel F n)) (x : 'cV[F]_n) : Prop := lex [seq violation l | l <- ls] x.
(** the line search moves along the direction computed by a factor in [m, 1]; I: an invariant of the
    state of the solver *)
Definition moves_by (St Q D : Type) (move : Q -> F -> D -> Q) (cut : F -> D -> D) (I : St -> Prop) (m : F)
    (descent : St -> Q -> D * St) (lsearch : St -> Q -> D -> Q * D * St) : Prop :=
  forall s q, I s -> exists a d s1 s2, descent s q = (d, s1) /\ lsearch s1 q d = (move q a d, cut a d, s2) /\ (m <= a <= 1) /\ I s2.
Definition along (q : 'cV[F]_n) (a : F) (d : 'cV[F]_n) : 'cV[F]_n := q + a *: d.

(** with variables y computed from the others, y = G x + h *)
Variables (p : nat) (G : 'M[F]_(p, n)) (h : 'cV[F]_p).
Definition computed (c : conf F n p) : Prop := c.2 = G *m c.1 + h.
Definition bsolution (ls : seq (blevel F n p)) (c : conf F n p) : Prop :=
  computed c /\ forall l, List.In l ls -> bl_A l *m c.1 + bl_B l *m c.2 = bl_b l.
(** moving x and y by G times as much stretches the squared length of the step of x by at most L *)
Definition bstretch (ls : seq (blevel F n p)) (L : F) : Prop :=
  0 <= L /\ forall l x, List.In l ls -> norm2 (bl_A l *m x + bl_B l *m (G *m x)) <= L * norm2 x.
(** the line search moves x along the direction by a factor in [m, 1], whatever it does to y *)
Definition bmoves_by (St : Type) (I : St -> Prop) (m : F) (descent : St -> conf F n p -> 'cV[F]_n * St)
    (lsearch : St -> conf F n p -> 'cV[F]_n -> option (conf F n p * 'cV[F]_n * St)) : Prop :=
  forall s c, I s -> computed c -> exists a d s1 s2 y, descent s c = (d, s1) /\
    lsearch s1 c d = Some ((c.1 + a *: d, y), a *: d, s2) /\ (m <= a <= 1) /\ I s2.
End Spec.
