(** Motions in the plane and on the circle. *)
From Coq Require Import Reals List ZArith.
From Verif Require Import Geo.
Import ListNotations.
Local Open Scope R_scope.

(** (cos, sin) at rank [k] of a configuration *)
Definition unit_at (k : nat) (x : list R) : Prop := nth k x 0 * nth k x 0 + nth (S k) x 0 * nth (S k) x 0 = 1.
Definition spins (k : nat) (x : R -> list R) (w : R) : Prop :=
  deriv (fun s => nth k (x s) 0) 0 (- nth (S k) (x 0) 0 * w) /\ deriv (fun s => nth (S k) (x s) 0) 0 (nth k (x 0) 0 * w).
(** linear velocity (u, v) in the fixed frame, or in the moving frame *)
Definition slides (x : R -> list R) (u v : R) : Prop := deriv (fun s => nth 0 (x s) 0) 0 u /\ deriv (fun s => nth 1 (x s) 0) 0 v.
Definition slides_body (x : R -> list R) (u v : R) : Prop :=
  let c := nth 2 (x 0) 0 in let s := nth 3 (x 0) 0 in slides x (c * u - s * v) (s * u + c * v).
(** the two rotations are opposite *)
Definition opposite (k : nat) (a b : list R) : Prop := nth k a 0 = - nth k b 0 /\ nth (S k) a 0 = - nth (S k) b 0.
