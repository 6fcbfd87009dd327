(** The intersection of a line with the plane of a polygon. *)
From Coq Require Import Reals List Lra Lia.
From Verif Require Import Geo GeoLemmas Rigid ShapeModel ShapeSpec ShapeGeo ShapeProofs ShapeMain.
Import ListNotations.
Local Open Scope R_scope.

Lemma line_plane_spec N C A u : vdot N u <> 0 ->
  let P := linePlaneIntersection A u C N in
  vdot N (vsub P C) = 0 /\ (exists t, P = vadd A (vscale t u)) /\
  forall t, vdot N (vsub (vadd A (vscale t u)) C) = 0 -> vadd A (vscale t u) = P.
Proof.
  intros Z P. unfold P, linePlaneIntersection.
  assert (G : forall t, vdot N (vsub (vadd A (vscale t u)) C) = t * vdot N u - vdot N (vsub C A)) by (intros; unfold vdot, vsub, vadd, vscale; cbn; ring).
  split; [|split].
  - rewrite G. field. exact Z.
  - eexists; reflexivity.
  - intros t H. rewrite G in H. f_equal. f_equal. apply (Rmult_eq_reg_r (vdot N u)); [|exact Z]. unfold Rdiv. rewrite Rmult_assoc, Rinv_l by exact Z. lra.
Qed.
Lemma intersection_right joint n pts s A u : rigid joint -> convex_polygon n pts -> create pts = Some s -> vdot (turned joint n) u <> 0 ->
  let P := intersection (update joint s) A u in let plane := in_plane (turned joint n) (map (placed joint) pts) in
  plane P /\ (exists t, P = vadd A (vscale t u)) /\ (forall t, plane (vadd A (vscale t u)) -> vadd A (vscale t u) = P) /\
  (joint = None -> intersectionLocal s A u = P).
Proof.
  intros RJ H E Z P plane. destruct (create_polygon _ _ H) as (s0 & E0 & _ & N0 & C0 & _ & _ & _ & Hc). rewrite E in E0. injection E0 as <-. rewrite <- C0 in Hc.
  pose proof (placed_polygon joint RJ _ _ H) as H'.
  assert (Dn : d_normal (update joint s) = turned joint (s_N s)) by (unfold update, turned; destruct joint; reflexivity).
  assert (Dc : d_center (update joint s) = placed joint (s_C s)) by (unfold update, placed; destruct joint; reflexivity).
  pose proof (norm_gt0 _ (poly_nz _ _ H)) as Pn. pose proof (Rinv_0_lt_compat _ Pn) as Pi.
  assert (PN : turned joint (s_N s) = vscale (/ Rigid.norm n) (turned joint n)).
  { rewrite N0, normalize_E by apply (poly_nz _ _ H). unfold turned. destruct joint; [apply mulv_scale|reflexivity]. }
  assert (Sc : forall x, vdot (turned joint (s_N s)) x = / Rigid.norm n * vdot (turned joint n) x) by (intros; rewrite PN; unfold vdot, vscale; cbn; ring).
  assert (IP : forall x, plane x <-> vdot (turned joint (s_N s)) (vsub x (placed joint (s_C s))) = 0).
  { intros x. assert (HC : plane (placed joint (s_C s))) by (apply (hull_plane _ _ (proj1 H')); now apply placed_hull).
    unfold plane, in_plane in *. rewrite Sc. replace (vdot (turned joint n) (vsub x (placed joint (s_C s)))) with (vdot (turned joint n) (vsub x (vertex (map (placed joint) pts) 0)) - vdot (turned joint n) (vsub (placed joint (s_C s)) (vertex (map (placed joint) pts) 0))) by (unfold vdot, vsub; cbn; ring).
    rewrite HC. split; intros K; [rewrite K; ring|]. apply Rmult_integral in K as [K|K]; lra. }
  destruct (line_plane_spec (turned joint (s_N s)) (placed joint (s_C s)) A u) as (L1 & L2 & L3).
  { rewrite Sc. intros K. apply Rmult_integral in K as [K|K]; lra. }
  assert (EP : P = linePlaneIntersection A u (placed joint (s_C s)) (turned joint (s_N s))) by (unfold P, intersection; now rewrite Dn, Dc).
  rewrite <- EP in *. split; [now apply IP|]. split; [exact L2|]. split; [intros t K; apply L3; now apply IP|].
  intros ->. reflexivity.
Qed.
