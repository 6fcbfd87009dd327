(** Specification of contacts: polygons in the world, closest pairs, rest position. *)
From Coq Require Import Reals List Bool Arith.
From Verif Require Import Geo Rigid LogModel GTModel GTSpec ShapeSpec ContactJacModel.
Import ListNotations.
Local Open Scope R_scope.

(** A surface is given by a joint, or none for the world, and vertices in the frame of the joint. *)
Definition joint_at (k : kins) (j : option nat) : option se3 := option_map (place k) j.
Definition world (k : kins) (s : option nat * list v3) : list v3 := map (placed (joint_at k (fst s))) (snd s).
Definition mean (pts : list v3) : v3 := vscale (/ INR (length pts)) (vapp pts (repeat 1 (length pts))).
Definition polygon (s : option nat * list v3) : Prop := fst s <> Some 0%nat /\ exists n, convex_polygon n (snd s).
Definition single (s : option nat * list v3) : Prop := fst s <> Some 0%nat /\ exists p, snd s = [p].
Definition segment (s : option nat * list v3) : Prop := fst s <> Some 0%nat /\ exists p q, p <> q /\ snd s = [p; q].
Definition placed_well (k : kins) (s : option nat * list v3) : Prop := rigid (joint_at k (fst s)).

(** Distance in space of a floor and the center of an object. *)
Definition apart (k : kins) (f o : option nat * list v3) (r : R) : Prop := distance_to (hull (world k f)) (mean (world k o)) r.
Definition closest (k : kins) (fl ob : list (option nat * list v3)) (j i : nat) : Prop :=
  exists f o, nth_error fl j = Some f /\ nth_error ob i = Some o /\
  forall j' i' f' o' r r', nth_error fl j' = Some f' -> nth_error ob i' = Some o' -> apart k f o r -> apart k f' o' r' -> r <= r'.
Definition strictly_closest (k : kins) (fl ob : list (option nat * list v3)) (j i : nat) : Prop :=
  exists f o, nth_error fl j = Some f /\ nth_error ob i = Some o /\
  forall j' i' f' o' r r', nth_error fl j' = Some f' -> nth_error ob i' = Some o' -> (j', i') <> (j, i) -> apart k f o r -> apart k f' o' r' -> r < r'.
(** The normal through the center of the object does not meet the sides of the floor. *)
Definition off_sides (k : kins) (f o : option nat * list v3) : Prop :=
  forall n l, convex_polygon n (snd f) -> ~ boundary (world k f) (vadd (mean (world k o)) (vscale l (turned (joint_at k (fst f)) n))).
(** It meets the floor, not on its sides. *)
Definition over (k : kins) (f o : option nat * list v3) : Prop :=
  exists n l, convex_polygon n (snd f) /\ let x := vadd (mean (world k o)) (vscale l (turned (joint_at k (fst f)) n)) in
  hull (world k f) x /\ ~ boundary (world k f) x.
(** The center of the object is at distance [m] above a point inside the floor, and the normals are opposite. *)
Definition unit (n : v3) : v3 := vscale (/ norm n) n.
Definition above_inside (m : R) (k : kins) (f o : option nat * list v3) : Prop :=
  exists n x, convex_polygon n (snd f) /\ hull (world k f) x /\ ~ boundary (world k f) x /\
  mean (world k o) = vadd x (vscale m (turned (joint_at k (fst f)) (unit n))).
Definition opposite (k : kins) (f o : option nat * list v3) : Prop :=
  exists n n', convex_polygon n (snd f) /\ convex_polygon n' (snd o) /\
  turned (joint_at k (fst o)) (unit n') = vopp (turned (joint_at k (fst f)) (unit n)).

(** Frame of a surface: first axis along the normal, last axis along the first side, origin at the center. *)
Definition frame (k : kins) (s : option nat * list v3) (A : se3) : Prop :=
  rotation (rot A) /\ tra A = mean (world k s) /\
  (forall n, convex_polygon n (snd s) -> mulv (rot A) (V3 1 0 0) = turned (joint_at k (fst s)) (unit n)) /\
  ((2 <= length (snd s))%nat -> mulv (rot A) (V3 0 0 1) = turned (joint_at k (fst s)) (unit (vsub (vertex (snd s) 1) (vertex (snd s) 0)))) /\
  (length (snd s) = 1%nat -> rot A = rot (joint_place (fst s) k)).
(** floors are turned over *)
Definition over_turned (f : option nat * list v3) : option nat * list v3 := (fst f, rev (snd f)).
Definition surface (s : option nat * list v3) : Prop := polygon s \/ single s \/ segment s.

Definition row (r : nat) (x : res (list R)) : R := match x with Done v => nth r v 0 | _ => 0 end.
(** The logarithm of the relative rotation is differentiable: its angle is zero, or above 1e-6 and below pi. *)
Definition turn_fine (k : kins) (f o : option nat * list v3) : Prop :=
  forall A B, frame k (over_turned f) A -> frame k o B -> log_ok (fst (logSO3 (mul (mtr (rot A)) (rot B)))).
