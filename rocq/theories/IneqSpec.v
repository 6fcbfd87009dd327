(** Affine inequalities. *)
From Coq Require Import ZArith.
From mathcomp Require Import all_ssreflect all_algebra.
From Verif Require Import EcsModel DescentSpec AffModel IneqModel.
Set Implicit Arguments. Unset Strict Implicit. Unset Printing Implicit Defensive.
Import GRing.Theory Num.Theory.
Open Scope ring_scope.

Section Spec.
Variables (F : realFieldType) (n : nat) (tau : F).
Implicit Types (ls : seq (ilevel F n)) (q d z : 'cV[F]_n) (l : ilevel F n).
Definition value l q (i : 'I_(il_rows l)) : F := \sum_j il_A l i j * q j 0 - il_b l i 0.
(** what a row asks for: x = 0, x >= tau or x <= - tau *)
Definition holds (k : cmp) (x : F) : Prop :=
  match k with Equality | EqualToZero => x = 0 | Superior => tau <= x | Inferior => x <= - tau end.
Definition ifeasible ls z : Prop := forall l (i : 'I_(il_rows l)), List.In l ls -> holds (il_cmp i) (value z i).
(** the rows that take part in a step: equalities, and inequalities that are violated *)
Definition taking l q (i : 'I_(il_rows l)) : bool :=
  match il_cmp i with Equality | EqualToZero => true | Superior => value q i < tau | Inferior => - tau < value q i end.
(** amount by which they fail *)
Definition lack l q (i : 'I_(il_rows l)) : F :=
  match il_cmp i with Equality | EqualToZero => value q i | Superior => value q i - tau | Inferior => value q i + tau end.
(** pushing along the rows taking part by lam, in the direction each one asks for *)
Definition inwards (k : cmp) (a : F) : Prop := match k with Superior => 0 <= a | Inferior => a <= 0 | _ => True end.
Definition push ls q (lam : forall l, 'cV[F]_(il_rows l)) : 'cV[F]_n :=
  \col_j \sum_(l <- ls) \sum_(i | taking q i) lam l i 0 * il_A l i j.
(** the rows taking part can be met all at once by pushing inwards along each of them *)
Definition agree ls q : Prop := exists lam : forall l, 'cV[F]_(il_rows l), (forall l i, List.In l ls -> inwards (il_cmp i) (lam l i 0)) /\
  forall l (i : 'I_(il_rows l)), List.In l ls -> taking q i -> \sum_j il_A l i j * push ls q lam j 0 = - lack q i.
(** the rows stretch squared lengths by at most L *)
Definition istretch ls (L : F) : Prop := 0 <= L /\ forall l x, List.In l ls -> norm2 (il_A l *m x) <= L * norm2 x.
(** two rows of a level: orthogonal, or inequalities in opposite directions *)
Definition orthogonal l (i j : 'I_(il_rows l)) : Prop := \sum_k il_A l i k * il_A l j k = 0.
Definition upper (k : cmp) : option bool := match k with Superior => Some false | Inferior => Some true | _ => None end.
Definition opposite l (i j : 'I_(il_rows l)) : Prop := exists bi bj c, upper (il_cmp i) = Some bi /\ upper (il_cmp j) = Some bj /\
  c != 0 /\ (0 < c) = (bi != bj) /\ forall k, il_A l i k = c * il_A l j k.
End Spec.
