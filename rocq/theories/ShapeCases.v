(** Shapes with one and two points, and cases in which the code fails. *)
From Coq Require Import Reals Lra Lia List Arith.
From Verif Require Import Geo GeoLemmas Rigid ShapeModel ShapeSpec ShapeGeo ShapeProofs ShapeMain.
Import ListNotations.
Local Open Scope R_scope.

Lemma scale_inv k w : 0 < k -> vscale k (vscale (/ k) w) = w.
Proof. intros. destruct w. unfold vscale. cbn. f_equal; field; lra. Qed.
Lemma one_point p : exists s, create [p] = Some s /\ rotation (rot (s_M s)) /\ tra (s_M s) = p /\ mulv (rot (s_M s)) (V3 1 0 0) = s_N s.
Proof.
  eexists. split; [reflexivity|]. cbn [s_M s_N rot tra nth app]. split; [|split; [reflexivity|]].
  - unfold cols. apply rotation_mtr, rotation_1.
  - unfold cols, mulv, mtr, vdot. cbn. v3r.
Qed.
Lemma two_points p q : p <> q -> exists s, create [p; q] = Some s /\ rotation (rot (s_M s)) /\ tra (s_M s) = vscale (/ 2) (vadd p q) /\
  mulv (rot (s_M s)) (V3 1 0 0) = s_N s /\ s_Ls s = [norm (vsub q p)] /\ vscale (norm (vsub q p)) (mulv (rot (s_M s)) (V3 0 0 1)) = vsub q p.
Proof.
  intros H. set (w := vsub q p). assert (W : 0 < vdot w w).
  { apply vdot_pos0. intros E. apply H. unfold w in E. destruct p, q. unfold vsub, v0 in E. cbn in E. injection E as. f_equal; lra. }
  pose proof (normalize_unit w W) as U. set (u := normalize w) in *.
  set (t := if Req_EM_T (vx u) 0 then V3 0 (- vz u) (vy u) else V3 (- vy u) (vx u) 0).
  assert (T : 0 < vdot t t /\ vdot t u = 0).
  { unfold t. destruct (Req_EM_T (vx u) 0) as [Z|Z]; unfold vdot in *; cbn; [rewrite Z in U|]; split; try nra; ring. }
  destruct T as [T1 T2]. set (n := normalize t). assert (N1 : vdot n n = 1) by now apply normalize_unit.
  assert (N2 : vdot n u = 0). { unfold n. rewrite normalize_E by exact T1. replace (vdot (vscale (/ norm t) t) u) with (/ norm t * vdot t u) by (unfold vdot, vscale; cbn; ring). rewrite T2. ring. }
  assert (X : vdot (vcross u n) (vcross u n) = 1).
  { replace (vdot (vcross u n) (vcross u n)) with (vdot u u * vdot n n - vdot n u * vdot n u) by (unfold vdot, vcross; cbn; ring). rewrite U, N1, N2. ring. }
  eexists. split; [reflexivity|]. cbn [s_M s_N s_Ls rot tra nth app set0]. fold w u t n. rewrite (normalize_id _ X).
  split; [now apply cols_rotation|]. split; [reflexivity|]. split; [unfold cols, mulv, mtr, vdot; cbn; clear; v3r|]. split; [reflexivity|].
  assert (E : mulv (cols n (vcross u n) u) (V3 0 0 1) = u) by (generalize (vcross u n); clear; intros; unfold cols, mulv, mtr, vdot; cbn; v3r). rewrite E. unfold u. rewrite normalize_E by exact W.
  apply scale_inv. now apply norm_gt0.
Qed.
(** the signed distance to a surface with two points reads out of bounds *)
Lemma segment_distance p q s a : create [p; q] = Some s -> distanceLocal s a = OutOfBounds.
Proof.
  intros E. injection E as <-. unfold distanceLocal. cbn [s_dim length seq dist_loop s_pts s_Ls s_Us s_Ns nth_error app set0 nth].
  cbv zeta. destruct (Rlt_dec _ _); reflexivity.
Qed.
(** a segment turned by reverse keeps its direction, and its length becomes one *)
Lemma segment_reverse p q s : p <> q -> create [p; q] = Some s -> exists s', reverse s = Some s' /\ s_pts s' = [q; p] /\
  mulv (rot (s_M s')) (V3 0 0 1) = mulv (rot (s_M s)) (V3 0 0 1) /\ s_Ls s' = [1].
Proof.
  intros H E. set (w := vsub q p). assert (W : 0 < vdot w w).
  { apply vdot_pos0. intros K. apply H. unfold w in K. destruct p, q. unfold vsub, v0 in K. cbn in K. injection K as. f_equal; lra. }
  pose proof (normalize_unit w W) as U. injection E as <-. eexists. split; [reflexivity|]. cbn [s_pts rev app s_M rot s_Ls s_Us s_Ns set0 nth].
  fold w. rewrite (normalize_id _ U). split; [reflexivity|].
  assert (G : forall a b c, mulv (cols a b c) (V3 0 0 1) = c) by (clear; intros; unfold cols, mulv, mtr, vdot; cbn; v3r).
  rewrite !G. split; [reflexivity|]. f_equal. unfold norm. rewrite U. apply sqrt_1.
Qed.
Lemma reversed_segment_wrong : exists p q s s', create [p; q] = Some s /\ reverse s = Some s' /\ s_pts s' = [q; p] /\
  s_Ls s' <> [norm (vsub p q)] /\ vdot (mulv (rot (s_M s')) (V3 0 0 1)) (vsub p q) < 0.
Proof.
  assert (D : v0 <> V3 2 0 0) by (intros E; injection E; lra).
  destruct (two_points v0 (V3 2 0 0) D) as (s & E & _ & _ & _ & _ & Dir). destruct (segment_reverse _ _ s D E) as (s' & R & P & M & L).
  exists v0, (V3 2 0 0), s, s'. split; [exact E|]. split; [exact R|]. split; [exact P|].
  assert (N2 : norm (vsub (V3 2 0 0) v0) = 2). { unfold norm. replace (vdot _ _) with (2 * 2) by (unfold vdot, vsub, v0; cbn; ring). apply sqrt_square. lra. }
  assert (N2' : norm (vsub v0 (V3 2 0 0)) = 2). { unfold norm. replace (vdot _ _) with (2 * 2) by (unfold vdot, vsub, v0; cbn; ring). apply sqrt_square. lra. }
  split; [rewrite L, N2'; intros K; injection K; lra|]. rewrite M. rewrite N2 in Dir. destruct (mulv (rot (s_M s)) (V3 0 0 1)) as [x y z].
  unfold vscale, vsub, v0 in Dir. cbn in Dir. injection Dir as A B C. unfold vdot, vsub, v0. cbn. lra.
Qed.

(** the closest point to a segment is computed for the symmetric point *)
Lemma closest_wrong : exists P A v, let B := closestPointToSegment P A v in on_segment A (vadd A v) (vadd A v) /\ norm (vsub P (vadd A v)) < norm (vsub P B).
Proof.
  exists (V3 2 0 0), v0, (V3 1 0 0). cbv zeta. split; [exists 1; split; [lra|]; unfold vadd, vscale, vsub, v0; cbn; f_equal; ring|].
  unfold closestPointToSegment. cbv zeta. destruct (Rle_dec _ _) as [_|K]; [|exfalso; apply K; unfold vdot, vsub, v0; cbn; lra].
  apply sqrt_lt_1_alt. unfold vdot, vsub, vadd, v0. cbn. lra.
Qed.

(** a pentagram passes the assertions, and one of its vertices is outside *)
Definition star : list v3 := [V3 0 10 0; V3 (-6) (-8) 0; V3 10 3 0; V3 (-10) 3 0; V3 6 (-8) 0].
Lemma star_turns : turning (V3 0 0 1) star.
Proof.
  split; [cbn; lia|]. cbv zeta. split; intros i Hi; cbn in Hi; do 5 (destruct i as [|i]; [cbv [follow star length Nat.eqb vertex nth area vdot vcross vsub vx vy vz]; lra|]); lia.
Qed.
Lemma star_wrong : exists s, create star = Some s /\ asserted s /\ isInsideLocal s (vertex star 0) = Some false.
Proof.
  assert (U : vdot (V3 0 0 1) (V3 0 0 1) = 1) by (unfold vdot; cbn; ring). pose proof star_turns as T.
  exists (the_shape (V3 0 0 1) star). split; [now apply init_E|]. split; [now apply asserted_E|].
  destruct (inside_loop_E (V3 0 0 1) star T (vertex star 0) (seq 0 5)) as (b & E & B); [intros i Hi; apply in_seq in Hi; cbn; lia|].
  unfold isInsideLocal. cbn [the_shape s_dim]. change (length star) with 5%nat. rewrite E. f_equal. destruct b; [exfalso|reflexivity].
  assert (K := proj1 B eq_refl 2%nat ltac:(cbn; auto)). unfold side in K. cbv [follow star length Nat.eqb vertex nth area vdot vcross vsub vx vy vz] in K. lra.
Qed.

(** * A square *)
Definition square : list v3 := [V3 0 0 0; V3 2 0 0; V3 2 2 0; V3 0 2 0].
Example square_convex : convex_polygon (V3 0 0 5) square.
Proof.
  split; [split; [cbn; lia|]; cbv zeta; split|].
  - intros i Hi. cbn in Hi. do 4 (destruct i as [|i]; [cbv [square vertex nth vdot vsub vx vy vz]; lra|]). lia.
  - intros i Hi. cbn in Hi. do 4 (destruct i as [|i]; [cbv [follow square length Nat.eqb vertex nth area vdot vcross vsub vx vy vz]; lra|]). lia.
  - intros i j Hi Hj. cbn in Hi, Hj. do 4 (destruct i as [|i]; [do 4 (destruct j as [|j]; [cbv [follow square length Nat.eqb vertex nth area vdot vcross vsub vx vy vz]; lra|]); lia|]). lia.
Qed.
Lemma square_side a i : (i < 4)%nat -> 0 <= side (V3 0 0 1) square i a <-> match i with 0%nat => 0 <= vy a | 1%nat => vx a <= 2 | 2%nat => vy a <= 2 | _ => 0 <= vx a end.
Proof. intros Hi. do 4 (destruct i as [|i]; [unfold side; cbv [follow square length Nat.eqb vertex nth area vdot vcross vsub vx vy vz]; destruct a as [x y z]; cbn; split; lra|]). lia. Qed.
(** a point outside, closest to the corner: positive, and the distance to the corner *)
Example square_distance : exists s, create square = Some s /\ distanceLocal s (V3 5 6 0) = Val 5 /\ distanceLocal s (V3 1 (1 / 2) 0) = Val (- (1 / 2)) /\
  in_plane (V3 0 0 5) square (V3 5 6 0) /\ in_plane (V3 0 0 5) square (V3 1 (1 / 2) 0).
Proof.
  destruct (create_polygon _ _ square_convex) as (s & E & _). exists s. split; [exact E|].
  assert (I1 : in_plane (V3 0 0 5) square (V3 5 6 0)) by (unfold in_plane; cbv [square vertex nth vdot vsub vx vy vz]; ring).
  assert (I2 : in_plane (V3 0 0 5) square (V3 1 (1 / 2) 0)) by (unfold in_plane; cbv [square vertex nth vdot vsub vx vy vz]; ring).
  assert (HS : forall a, hull square a -> 0 <= vx a <= 2 /\ 0 <= vy a <= 2 /\ vz a = 0).
  { intros a Ha. pose proof (hull_halves (V3 0 0 5) square (proj2 square_convex) a Ha) as HH. pose proof (hull_plane _ _ (proj1 square_convex) a Ha) as HP.
    pose proof (HH 0%nat ltac:(cbn; lia)) as S0. pose proof (HH 1%nat ltac:(cbn; lia)) as S1. pose proof (HH 2%nat ltac:(cbn; lia)) as S2. pose proof (HH 3%nat ltac:(cbn; lia)) as S3.
    destruct a as [x y z]. unfold side in *. unfold in_plane in HP. cbv [follow square length Nat.eqb vertex nth area vdot vcross vsub vx vy vz] in *. lra. }
  split; [|split; [|split; [exact I1|exact I2]]].
  - destruct (distance_right _ _ _ _ square_convex E I1) as (r & -> & Sg & _ & Hu). f_equal.
    assert (R0 : 0 < r) by (apply Sg; intros H; apply HS in H; cbn in H; lra). destruct (Hu R0) as [(x & Hx & Nx) M].
    assert (Hc : hull square (vertex square 2)) by (apply hull_vertex; cbn; lia). specialize (M _ Hc).
    assert (N5 : norm (vsub (V3 5 6 0) (vertex square 2)) = 5). { unfold norm. replace (vdot _ _) with (5 * 5) by (cbv [square vertex nth vdot vsub vx vy vz]; ring). apply sqrt_square. lra. }
    rewrite N5 in M. apply Rle_antisym; [exact M|]. rewrite <- Nx, <- N5 at 1. apply norm_le. apply HS in Hx. destruct x as [x y z]. cbn in Hx. destruct Hx as (A & B & C). subst z.
    assert (3 * 3 <= (5 - x) * (5 - x)) by (apply Rmult_le_compat; lra). assert (4 * 4 <= (6 - y) * (6 - y)) by (apply Rmult_le_compat; lra).
    cbv [square vertex nth vdot vsub vx vy vz]. lra.
  - destruct (distance_right _ _ _ _ square_convex E I2) as (r & -> & Sg & Bd & _). f_equal.
    assert (R0 : ~ 0 < r).
    { intros P. apply Sg in P. apply P. destruct (poly_unit _ _ square_convex) as [[T C] U]. apply (halves_hull (normalize (V3 0 0 5)) square U T C); [now apply (plane_unit _ _ _ square_convex)|].
      assert (En : normalize (V3 0 0 5) = V3 0 0 1). { replace (V3 0 0 5) with (vscale 5 (V3 0 0 1)) by (unfold vscale; cbn; f_equal; ring). apply normalize_scale; [lra|unfold vdot; cbn; ring]. }
      rewrite En. intros i Hi. apply square_side; [exact Hi|]. cbn in Hi. do 4 (destruct i as [|i]; [cbn; lra|]). lia. }
    destruct Bd as [(x & (i & Hi & sg & S & Ex) & Nx) M].
    assert (Hb : boundary square (V3 1 0 0)) by (exists 0%nat; split; [cbn; lia|]; exists (1 / 2); split; [lra|]; cbv [follow square length Nat.eqb vertex nth vadd vscale vsub vx vy vz]; f_equal; field).
    specialize (M _ Hb). assert (N5 : norm (vsub (V3 1 (1 / 2) 0) (V3 1 0 0)) = 1 / 2). { unfold norm. replace (vdot _ _) with ((1 / 2) * (1 / 2)) by (cbv [vdot vsub vx vy vz]; ring). apply sqrt_square. lra. }
    rewrite N5 in M. rewrite Rabs_left1 in * by lra. assert (1 / 2 <= - r); [|lra]. rewrite <- Nx, <- N5 at 1. apply norm_le. subst x. cbn in Hi.
    do 4 (destruct i as [|i]; [cbv [follow square length Nat.eqb vertex nth vadd vscale vdot vsub vx vy vz]; match goal with |- _ <= ?a * ?a + ?b * ?b + _ => pose proof (Rle_0_sqr a) as Q1; pose proof (Rle_0_sqr b) as Q2; unfold Rsqr in Q1, Q2; lra end|]). lia.
Qed.
(** alignedPositionInJoint returns a matrix that is not a rotation when the axis is not in the plane *)
Lemma aligned_wrong : exists pts n s y, convex_polygon n pts /\ create pts = Some s /\ ~ rotation (rot (alignedPositionInJoint (update None s) s y)).
Proof.
  destruct (create_polygon _ _ square_convex) as (s & E & _ & N & _). exists square, (V3 0 0 5), s, (V3 0 1 1). split; [exact square_convex|]. split; [exact E|].
  assert (En : normalize (V3 0 0 5) = V3 0 0 1). { replace (V3 0 0 5) with (vscale 5 (V3 0 0 1)) by (unfold vscale; cbn; f_equal; ring). apply normalize_scale; [lra|unfold vdot; cbn; ring]. }
  unfold alignedPositionInJoint. cbv zeta. rewrite N, En. destruct (Req_EM_T _ _) as [Z|_].
  - exfalso. revert Z. cbv [update d_oMj sid actInv rot tra mulv mtr m1 vsub vscale vdot v0 vx vy vz ra rb rc]. lra.
  - intros [O _]. apply (f_equal (fun m => vz (rc m))) in O. revert O. cbv [rot cols update d_oMj sid actInv tra mul mulv mtr m1 vsub vscale vdot vcross v0 vx vy vz ra rb rc]. lra.
Qed.
(** floors that meet the hypotheses of the selection: the square, and the square on a joint turned by
    a quarter of a turn *)
Example floors_ok : exists s, create square = Some s /\
  forall f, In f [(None, s); (Some (SE3 (cols (V3 0 1 0) (V3 (-1) 0 0) (V3 0 0 1)) (V3 1 2 3)), s)] ->
  rigid (fst f) /\ exists n, convex_polygon n (s_pts (snd f)) /\ create (s_pts (snd f)) = Some (snd f).
Proof.
  destruct (create_polygon _ _ square_convex) as (s & E & _ & _ & _ & P & _). exists s. split; [exact E|].
  intros f [<-|[<-|[]]]; cbn [fst snd rigid rot]; rewrite P; (split; [|exists (V3 0 0 5); split; [exact square_convex|exact E]]); [exact I|].
  split; [|unfold det, cols; cbn; unfold vdot, vcross; cbn; ring]. unfold cols, mul, mulv, mtr, m1, vdot. cbn. f_equal; f_equal; ring.
Qed.

(** the point returned is the closest to the image of P through A *)
Lemma closest_mirror P A v : let B := closestPointToSegment P A v in let M := vsub (vscale 2 A) P in
  on_segment A (vadd A v) B /\ forall X, on_segment A (vadd A v) X -> norm (vsub M B) <= norm (vsub M X).
Proof.
  cbv zeta. set (w := vsub A P).
  assert (Hs : forall t, vadd A (vscale t (vsub (vadd A v) A)) = vadd A (vscale t v)) by (intros t; destruct A, v; unfold vadd, vscale, vsub; cbn; f_equal; ring).
  assert (Hn : forall t, vdot (vsub (vsub (vscale 2 A) P) (vadd A (vscale t v))) (vsub (vsub (vscale 2 A) P) (vadd A (vscale t v)))
                 = vdot w w - 2 * t * vdot v w + t * t * vdot v v) by (intros t; unfold w; destruct A, v, P; unfold vadd, vscale, vsub, vdot; cbn; ring).
  assert (Hc : 0 <= vdot v v) by (destruct v; unfold vdot; cbn; nra).
  assert (Hb : exists t, 0 <= t <= 1 /\ closestPointToSegment P A v = vadd A (vscale t v) /\
      forall u, 0 <= u <= 1 -> - 2 * t * vdot v w + t * t * vdot v v <= - 2 * u * vdot v w + u * u * vdot v v).
  { unfold closestPointToSegment. fold w. cbv zeta. set (c1 := vdot v w) in *. set (c2 := vdot v v) in *.
    destruct (Rle_dec c1 0) as [K|K]; [|destruct (Rle_dec c2 c1) as [L|L]].
    - exists 0. split; [lra|]. split; [destruct A, v; unfold vadd, vscale; cbn; f_equal; ring|]. intros u Hu.
      assert (0 <= u * u * c2) by (apply Rmult_le_pos; [nra|lra]). assert (0 <= u * - c1) by (apply Rmult_le_pos; lra). lra.
    - exists 1. split; [lra|]. split; [destruct A, v; unfold vadd, vscale; cbn; f_equal; ring|]. intros u Hu.
      assert ((1 - u) * c2 >= 0) by (apply Rle_ge, Rmult_le_pos; lra). assert (0 <= (1 - u) * (2 * c1 - (1 + u) * c2)) by (apply Rmult_le_pos; lra). lra.
    - assert (0 < c2) by lra. assert (0 < c1 / c2) by (apply Rdiv_lt_0_compat; lra).
      assert (Hq : c1 / c2 * c2 = c1) by (field; lra). exists (c1 / c2). split; [split; [lra|]|].
      { apply Rmult_le_reg_r with c2; [lra|]. rewrite Hq. lra. }
      split; [reflexivity|]. intros u _. set (k := c1 / c2) in *. rewrite <- Hq.
      assert (0 <= c2 * ((u - k) * (u - k))) by (apply Rmult_le_pos; [lra|apply Rle_0_sqr]). lra. }
  destruct Hb as [t [Ht [-> Hb]]]. split; [exists t; split; [exact Ht|rewrite Hs; reflexivity]|].
  intros X [u [Hu ->]]. rewrite Hs. unfold norm. rewrite !Hn. apply sqrt_le_1_alt. specialize (Hb u Hu). lra.
Qed.
