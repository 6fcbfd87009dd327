(** C58: convex contact surfaces. *)
From Coq Require Import Reals List.
From Verif Require Import ContactModel.
From Verif Require Import Geo Rigid ShapeModel ShapeSpec ShapeMain ShapeCases ShapeLine.
Import ListNotations.
Local Open Scope R_scope.

(** a convex polygon passes the assertions; the frame is a rotation whose first axis is the normal,
    at a point of the polygon *)
Theorem C58_polygon_frame n pts : convex_polygon n pts -> exists s, create pts = Some s /\ asserted s /\ s_N s = normalize n /\ s_C s = tra (s_M s) /\ s_pts s = pts /\
  rotation (rot (s_M s)) /\ mulv (rot (s_M s)) (V3 1 0 0) = normalize n /\ hull pts (tra (s_M s)).
Proof. exact (create_polygon n pts). Qed.
Print Assumptions C58_polygon_frame.

(** the inside test decides membership in the convex hull of the vertices *)
Theorem C58_inside_test n pts s a : convex_polygon n pts -> create pts = Some s -> in_plane n pts a ->
  exists b, isInsideLocal s a = Some b /\ (b = true <-> hull pts a).
Proof. exact (inside_right n pts s a). Qed.
Print Assumptions C58_inside_test.

(** the signed distance is positive exactly outside, its absolute value is the distance to the
    sides and outside the distance to the polygon *)
Theorem C58_signed_distance n pts s a : convex_polygon n pts -> create pts = Some s -> in_plane n pts a ->
  exists r, distanceLocal s a = Val r /\ signed_distance pts a r.
Proof. exact (distance_right n pts s a). Qed.
Print Assumptions C58_signed_distance.

(** reverse() turns the normal and nothing else *)
Theorem C58_reverse n pts s : convex_polygon n pts -> create pts = Some s -> exists s', reverse s = Some s' /\ create (rev pts) = Some s' /\ s_N s' = vopp (s_N s) /\
  (forall a, in_plane n pts a -> isInsideLocal s' a = isInsideLocal s a /\ distanceLocal s' a = distanceLocal s a).
Proof. exact (reverse_right n pts s). Qed.
Print Assumptions C58_reverse.

(** the same in the world, when the joint moves *)
Theorem C58_inside_test_in_world joint n pts s a : rigid joint -> convex_polygon n pts -> create pts = Some s -> in_plane (turned joint n) (map (placed joint) pts) a ->
  exists b, isInside (update joint s) joint s a = Some b /\ (b = true <-> hull (map (placed joint) pts) a).
Proof. exact (fun R => world_inside joint R n pts s a). Qed.
Print Assumptions C58_inside_test_in_world.
Theorem C58_signed_distance_in_world joint n pts s a : rigid joint -> convex_polygon n pts -> create pts = Some s -> in_plane (turned joint n) (map (placed joint) pts) a ->
  exists r, distance (update joint s) joint s a = Val r /\ signed_distance (map (placed joint) pts) a r.
Proof. exact (fun R => world_distance joint R n pts s a). Qed.
Print Assumptions C58_signed_distance_in_world.

(** the intersection with a line that is not parallel to the plane is the only point of both *)
Theorem C58_intersection : forall joint n pts s A u, rigid joint -> convex_polygon n pts -> create pts = Some s -> vdot (turned joint n) u <> 0 ->
  let P := intersection (update joint s) A u in let plane := in_plane (turned joint n) (map (placed joint) pts) in
  plane P /\ (exists t, P = vadd A (vscale t u)) /\ (forall t, plane (vadd A (vscale t u)) -> vadd A (vscale t u) = P) /\
  (joint = None -> intersectionLocal s A u = P).
Proof. exact intersection_right. Qed.
Print Assumptions C58_intersection.

(** the pair selected by a contact constraint has the smallest distance between the center of the
    object and the floor in space *)
Theorem C58_closest_pair floors objects d : (forall f, In f floors -> rigid (fst f) /\ exists n, convex_polygon n (s_pts (snd f)) /\ create (s_pts (snd f)) = Some (snd f)) ->
  (forall j i, (j < length floors)%nat -> fst (pair_dist (nth j floors d) (nth i objects d)) = Val (floor_dp floors objects d j i)) /\
  match select (floor_dp floors objects d) (floor_dn floors objects d) (length floors) (length objects) with
  | None => floors = [] \/ objects = []
  | Some (j, i, _) => (j < length floors)%nat /\ (i < length objects)%nat /\
     forall j' i' r r', (j' < length floors)%nat -> (i' < length objects)%nat ->
      let surface j := hull (map (placed (fst (nth j floors d))) (s_pts (snd (nth j floors d)))) in
      distance_to (surface j) (center (nth i objects d)) r -> distance_to (surface j') (center (nth i' objects d)) r' -> r <= r'
  end.
Proof. exact (closest_pair floors objects d). Qed.
Print Assumptions C58_closest_pair.

(** frames of points and segments: the third axis of a segment is its direction *)
Theorem C58_point_frame p : exists s, create [p] = Some s /\ rotation (rot (s_M s)) /\ tra (s_M s) = p /\ mulv (rot (s_M s)) (V3 1 0 0) = s_N s.
Proof. exact (one_point p). Qed.
Print Assumptions C58_point_frame.
Theorem C58_segment_frame p q : p <> q -> exists s, create [p; q] = Some s /\ rotation (rot (s_M s)) /\ tra (s_M s) = vscale (/ 2) (vadd p q) /\
  mulv (rot (s_M s)) (V3 1 0 0) = s_N s /\ s_Ls s = [norm (vsub q p)] /\ vscale (norm (vsub q p)) (mulv (rot (s_M s)) (V3 0 0 1)) = vsub q p.
Proof. exact (two_points p q). Qed.
Print Assumptions C58_segment_frame.

(** the signed distance to a segment reads out of bounds though its assertion accepts two points *)
Theorem C58_segment_distance_refuted p q s a : create [p; q] = Some s -> distanceLocal s a = OutOfBounds.
Proof. exact (segment_distance p q s a). Qed.
Print Assumptions C58_segment_distance_refuted.
(** reverse() on a segment *)
Theorem C58_segment_reverse_refuted : exists p q s s', create [p; q] = Some s /\ reverse s = Some s' /\ s_pts s' = [q; p] /\
  s_Ls s' <> [norm (vsub p q)] /\ vdot (mulv (rot (s_M s')) (V3 0 0 1)) (vsub p q) < 0.
Proof. exact reversed_segment_wrong. Qed.
Print Assumptions C58_segment_reverse_refuted.
(** the assertions accept vertices that are not those of a convex polygon *)
Theorem C58_assertions_check_convexity_refuted : exists s, create star = Some s /\ asserted s /\ isInsideLocal s (vertex star 0) = Some false.
Proof. exact star_wrong. Qed.
Print Assumptions C58_assertions_check_convexity_refuted.
Theorem C58_closest_point_refuted : exists P A v, let B := closestPointToSegment P A v in on_segment A (vadd A v) (vadd A v) /\ norm (vsub P (vadd A v)) < norm (vsub P B).
Proof. exact closest_wrong. Qed.
Print Assumptions C58_closest_point_refuted.
(** what it returns: the point of the segment closest to the image of P through A *)
Theorem C58_closest_point : forall P A v, let B := closestPointToSegment P A v in let M := vsub (vscale 2 A) P in
  on_segment A (vadd A v) B /\ forall X, on_segment A (vadd A v) X -> norm (vsub M B) <= norm (vsub M X).
Proof. exact closest_mirror. Qed.
Print Assumptions C58_closest_point.
Theorem C58_aligned_frame_refuted : exists pts n s y, convex_polygon n pts /\ create pts = Some s /\ ~ rotation (rot (alignedPositionInJoint (update None s) s y)).
Proof. exact aligned_wrong. Qed.
Print Assumptions C58_aligned_frame_refuted.
