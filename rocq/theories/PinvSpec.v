(** Specification: pseudo-inverses in the sense of Penrose, and derivatives of matrices that depend
    on a parameter. *)
From mathcomp Require Import all_ssreflect all_algebra.
Set Implicit Arguments. Unset Strict Implicit. Unset Printing Implicit Defensive.
Import GRing.Theory Num.Theory.
Open Scope ring_scope.

Section Spec.
Variable R : realFieldType.
Definition penrose m n (A : 'M[R]_(m, n)) (B : 'M[R]_(n, m)) : Prop :=
  [/\ A *m B *m A = A, B *m A *m B = B, (A *m B)^T = A *m B & (B *m A)^T = B *m A].
(** a norm *)
Definition mnorm m n (A : 'M[R]_(m, n)) : R := \sum_i \sum_j `|A i j|.
(** what holds for all nonzero numbers close to 0 *)
Definition near0 (P : R -> Prop) : Prop := exists2 e, 0 < e & forall h, h != 0 -> `|h| < e -> P h.
Definition has_derivative m n (F : R -> 'M[R]_(m, n)) (t : R) (L : 'M[R]_(m, n)) : Prop :=
  forall e, 0 < e -> near0 (fun h => mnorm (F (t + h) - F t - h *: L) <= e * `|h|).
Definition bounded_near m n (F : R -> 'M[R]_(m, n)) (t : R) : Prop := exists K, near0 (fun h => mnorm (F (t + h)) <= K).
(** combination of matrices *)
Definition along m n d (D : 'I_d -> 'M[R]_(m, n)) (q : 'cV[R]_d) : 'M[R]_(m, n) := \sum_k q k 0 *: D k.
End Spec.
