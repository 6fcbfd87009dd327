(** Convex polygons in space: convex hull of the vertices, distances. *)
From Coq Require Import Reals List.
From Verif Require Import Geo Rigid.
Import ListNotations.
Local Open Scope R_scope.

Fixpoint total (l : list R) : R := match l with [] => 0 | x :: l => x + total l end.
(** convex combinations *)
Definition hull (pts : list v3) (x : v3) : Prop :=
  exists w, length w = length pts /\ Forall (fun a => 0 <= a) w /\ total w = 1 /\ x = vapp pts w.
Definition on_segment (p q x : v3) : Prop := exists s, 0 <= s <= 1 /\ x = vadd p (vscale s (vsub q p)).
Definition vertex (pts : list v3) (i : nat) : v3 := nth i pts v0.
Definition follow (n i : nat) : nat := if Nat.eqb (S i) n then 0%nat else S i.
(** the oriented area of a triangle, up to a factor, seen from the side of [n] *)
Definition area (n a b c : v3) : R := vdot n (vcross (vsub b a) (vsub c a)).
(** vertices in a plane, turning in the same direction at each vertex *)
Definition turning (n : v3) (pts : list v3) : Prop :=
  (3 <= length pts)%nat /\
  let P := vertex pts in let nxt := follow (length pts) in
  (forall i, (i < length pts)%nat -> vdot n (vsub (P i) (P 0%nat)) = 0) /\
  (forall i, (i < length pts)%nat -> 0 < area n (P i) (P (nxt i)) (P (nxt (nxt i)))).
(** and on the same side of each edge *)
Definition convex_polygon (n : v3) (pts : list v3) : Prop :=
  turning n pts /\
  forall i j, (i < length pts)%nat -> (j < length pts)%nat -> 0 <= area n (vertex pts i) (vertex pts (follow (length pts) i)) (vertex pts j).
Definition in_plane (n : v3) (pts : list v3) (a : v3) : Prop := vdot n (vsub a (vertex pts 0)) = 0.
(** sides of the polygon *)
Definition boundary (pts : list v3) (x : v3) : Prop :=
  exists i, (i < length pts)%nat /\ on_segment (vertex pts i) (vertex pts (follow (length pts) i)) x.
Definition distance_to (S : v3 -> Prop) (a : v3) (r : R) : Prop :=
  (exists x, S x /\ norm (vsub a x) = r) /\ forall x, S x -> r <= norm (vsub a x).
(** points of a joint, in the world *)
Definition placed (joint : option se3) (p : v3) : v3 := match joint with None => p | Some M => act M p end.
Definition rigid (joint : option se3) : Prop := match joint with None => True | Some M => rotation (rot M) end.
Definition turned (joint : option se3) (v : v3) : v3 := match joint with None => v | Some M => mulv (rot M) v end.
(** positive outside, negative inside; the distance to the sides, that is the distance to the
    polygon for points outside *)
Definition signed_distance (pts : list v3) (a : v3) (r : R) : Prop :=
  (0 < r <-> ~ hull pts a) /\ distance_to (boundary pts) a (Rabs r) /\ (0 < r -> distance_to (hull pts) a r).
