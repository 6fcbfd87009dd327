From Coq Require Import Reals Lra Lia List Arith Bool Permutation.
From Verif Require Import Geo GeoLemmas Rigid ShapeModel ShapeSpec ShapeGeo ShapeProofs ContactModel ContactMain.
Import ListNotations.
Local Open Scope R_scope.
Local Notation norm := Rigid.norm.

(** * Frame and center *)
Lemma cols_rotation n v : vdot n n = 1 -> vdot v v = 1 -> vdot n v = 0 -> rotation (cols n (vcross v n) v).
Proof.
  intros N V H. apply rotation_mtr.
  assert (A1 : vdot n (vcross v n) = 0) by (unfold vdot, vcross; cbn; ring).
  assert (A2 : vdot (vcross v n) n = 0) by (unfold vdot, vcross; cbn; ring).
  assert (A3 : vdot (vcross v n) v = 0) by (unfold vdot, vcross; cbn; ring).
  assert (A4 : vdot v (vcross v n) = 0) by (unfold vdot, vcross; cbn; ring).
  assert (A5 : vdot (vcross v n) (vcross v n) = 1).
  { replace (vdot (vcross v n) (vcross v n)) with (vdot v v * vdot n n - vdot n v * vdot n v) by (unfold vdot, vcross; cbn; ring). rewrite N, V, H. ring. }
  assert (A6 : vdot v n = 0) by (rewrite <- H; unfold vdot; ring).
  split.
  - unfold m1. rewrite <- N at 1. set (b := vcross v n) in *.
    change (M3 (V3 (vdot n n) (vdot n b) (vdot n v)) (V3 (vdot b n) (vdot b b) (vdot b v)) (V3 (vdot v n) (vdot v b) (vdot v v)) = M3 (V3 (vdot n n) 0 0) (V3 0 1 0) (V3 0 0 1)).
    rewrite A1, A2, A3, A4, A5, A6, H, V. reflexivity.
  - unfold det. cbn [ra rb rc]. replace (vdot n (vcross (vcross v n) v)) with (vdot n n * vdot v v - vdot n v * vdot n v) by (unfold vdot, vcross; cbn; ring). rewrite N, V, H. ring.
Qed.
Lemma vsum_acc l : forall a, fold_left vadd l a = vadd a (vsum l).
Proof.
  unfold vsum. induction l as [|p l IH]; intros a; cbn; [v3r|]. rewrite IH, (IH (vadd v0 p)). generalize (fold_left vadd l v0). intros. v3r.
Qed.
Lemma vapp_const k l : vapp l (repeat k (length l)) = vscale k (vsum l).
Proof.
  induction l as [|p l IH]; [unfold vsum; cbn; v3r|]. cbn [length repeat vapp]. rewrite IH. change (vsum (p :: l)) with (fold_left vadd l (vadd v0 p)). rewrite vsum_acc. generalize (vsum l). intros. clear IH. v3r.
Qed.
Lemma center_hull pts : (0 < length pts)%nat -> hull pts (vscale (/ INR (length pts)) (vsum pts)).
Proof.
  intros H. exists (repeat (/ INR (length pts)) (length pts)). assert (P : 0 < INR (length pts)) by now apply lt_0_INR.
  split; [apply repeat_length|]. split; [apply Forall_forall; intros x Hx; apply repeat_spec in Hx; subst; apply Rlt_le, Rinv_0_lt_compat, P|].
  split; [|symmetry; apply vapp_const]. assert (T : forall k n, total (repeat k n) = INR n * k) by (intros k n; induction n; [cbn; ring|rewrite S_INR; cbn [repeat total]; rewrite IHn; ring]).
  rewrite T. field. lra.
Qed.
Lemma create_polygon n pts : convex_polygon n pts -> exists s, create pts = Some s /\ asserted s /\ s_N s = normalize n /\ s_C s = tra (s_M s) /\ s_pts s = pts /\
  rotation (rot (s_M s)) /\ mulv (rot (s_M s)) (V3 1 0 0) = normalize n /\ hull pts (tra (s_M s)).
Proof.
  intros H. destruct (poly_unit _ _ H) as [[T _] U]. exists (the_shape (normalize n) pts). split; [now apply init_E|]. split; [now apply asserted_E|].
  pose proof (proj1 T) as L. assert (H0 : (0 < length pts)%nat) by lia.
  split; [reflexivity|]. split; [reflexivity|]. split; [reflexivity|]. split; [|split; [|now apply center_hull]].
  - cbn. apply cols_rotation; [exact U|apply (Ui_unit (normalize n) pts T 0%nat H0)|apply (Ui_plane (normalize n) pts T 0%nat H0)].
  - cbn. generalize (Ni (normalize n) pts 0) (Ui pts 0) (normalize n). clear. intros. unfold cols, mulv, mtr, vdot. cbn. v3r.
Qed.
Lemma inside_right n pts s a : convex_polygon n pts -> create pts = Some s -> in_plane n pts a -> exists b, isInsideLocal s a = Some b /\ (b = true <-> hull pts a).
Proof.
  intros H E Ha. destruct (poly_unit _ _ H) as [[T C] U]. apply (plane_unit _ _ _ H) in Ha.
  rewrite (init_E _ _ U T [] [] [] : create pts = _) in E. injection E as <-. now apply inside_E.
Qed.
Lemma distance_right n pts s a : convex_polygon n pts -> create pts = Some s -> in_plane n pts a -> exists r, distanceLocal s a = Val r /\ signed_distance pts a r.
Proof.
  intros H E Ha. destruct (poly_unit _ _ H) as [[T C] U]. apply (plane_unit _ _ _ H) in Ha.
  rewrite (init_E _ _ U T [] [] [] : create pts = _) in E. injection E as <-. now apply (distance_E (normalize n)).
Qed.

(** * Reversed polygons *)
Lemma vertex_rev pts i : (i < length pts)%nat -> vertex (rev pts) i = vertex pts (length pts - 1 - i).
Proof. intros H. unfold vertex. rewrite rev_nth by exact H. f_equal. lia. Qed.
Lemma follow_rev m i : (i < m)%nat -> follow m (m - 1 - follow m i) = (m - 1 - i)%nat.
Proof. intros H. unfold follow. destruct (Nat.eqb_spec (S i) m); [destruct (Nat.eqb_spec (S (m - 1 - 0)) m)|destruct (Nat.eqb_spec (S (m - 1 - S i)) m)]; lia. Qed.
Lemma area_swap n a b c : area (vopp n) a b c = area n b a c.
Proof. unfold area, vdot, vcross, vsub, vopp. cbn. ring. Qed.
Lemma area_turn n a b c : area n a b c = area n c a b.
Proof. unfold area, vdot, vcross, vsub. cbn. ring. Qed.
Lemma rev_polygon n pts : convex_polygon n pts -> convex_polygon (vopp n) (rev pts).
Proof.
  intros [(L & A & B) C]. cbv zeta in *. assert (P : forall i, (i < length pts)%nat -> (length pts - 1 - i < length pts)%nat) by lia.
  split; [split; [now rewrite rev_length|]; cbv zeta; split|]; rewrite rev_length.
  - intros i Hi. rewrite !vertex_rev by lia. pose proof (A _ (P i Hi)) as E1. pose proof (A _ (P 0%nat ltac:(lia))) as E2.
    revert E1 E2. generalize (vertex pts (length pts - 1 - i)) (vertex pts (length pts - 1 - 0)) (vertex pts 0). intros. unfold vdot, vsub, vopp in *. cbn in *. lra.
  - intros i Hi. pose proof (follow_lt _ _ Hi) as H1. pose proof (follow_lt _ _ H1) as H2. rewrite !vertex_rev by assumption.
    pose proof (B _ (P _ H2)) as K. rewrite (follow_rev _ _ H1), (follow_rev _ _ Hi) in K. rewrite area_swap, area_turn. exact K.
  - intros i j Hi Hj. pose proof (follow_lt _ _ Hi) as H1. rewrite !vertex_rev by assumption. rewrite area_swap, <- (follow_rev _ _ Hi). apply C; auto.
Qed.
Lemma vapp_rev pts : forall w, length w = length pts -> vapp (rev pts) (rev w) = vapp pts w.
Proof.
  assert (App : forall p w p' w', length w = length p -> vapp (p ++ p') (w ++ w') = vadd (vapp p w) (vapp p' w')).
  { induction p as [|x p IH]; intros [|a w] p' w' L; try discriminate L; cbn; [generalize (vapp p' w'); intros; v3r|]. rewrite IH by (cbn in L; lia). generalize (vapp p w) (vapp p' w'). intros. v3r. }
  induction pts as [|x pts IH]; intros [|a w] L; try discriminate L; [reflexivity|]. cbn [rev]. rewrite App by (rewrite !rev_length; cbn in L; lia). rewrite IH by (cbn in L; lia). cbn. generalize (vapp pts w). intros. v3r.
Qed.
Lemma total_rev w : total (rev w) = total w.
Proof.
  assert (App : forall a b, total (a ++ b) = total a + total b) by (induction a; intros; cbn; [ring|rewrite IHa; ring]).
  induction w; cbn; [reflexivity|]. rewrite App, IHw. cbn. ring.
Qed.
Lemma hull_rev pts x : hull pts x -> hull (rev pts) x.
Proof.
  intros (w & L & W & T & ->). exists (rev w). split; [now rewrite !rev_length|]. split; [now apply Forall_rev|]. split; [now rewrite total_rev|]. symmetry. now apply vapp_rev.
Qed.
Lemma hull_rev_iff pts x : hull (rev pts) x <-> hull pts x.
Proof. split; [|apply hull_rev]. intros H. rewrite <- (rev_involutive pts). now apply hull_rev. Qed.
Lemma on_segment_sym p q x : on_segment p q x -> on_segment q p x.
Proof. intros (s & S & ->). exists (1 - s). split; [lra|]. v3r. Qed.
Lemma boundary_rev pts x : boundary pts x -> boundary (rev pts) x.
Proof.
  intros (i & Hi & S). destruct (before (length pts) (length pts - 1 - i) ltac:(lia)) as (p & Hp & F). exists p. rewrite rev_length. split; [exact Hp|].
  rewrite F, !vertex_rev by lia. apply on_segment_sym. replace (length pts - 1 - (length pts - 1 - i))%nat with i by lia.
  pose proof (follow_rev _ _ Hp) as G. rewrite F in G. replace (length pts - 1 - (length pts - 1 - i))%nat with i in G by lia. now rewrite <- G.
Qed.
Lemma boundary_rev_iff pts x : boundary (rev pts) x <-> boundary pts x.
Proof. split; [|apply boundary_rev]. intros H. rewrite <- (rev_involutive pts). now apply boundary_rev. Qed.
Lemma normalize_opp n : 0 < vdot n n -> normalize (vopp n) = vopp (normalize n).
Proof.
  intros H. assert (E : vdot (vopp n) (vopp n) = vdot n n) by (unfold vdot, vopp; cbn; ring). rewrite !normalize_E by (try rewrite E; exact H). unfold Rigid.norm. rewrite E.
  generalize (/ sqrt (vdot n n)). intros. destruct n. unfold vscale, vopp. cbn. f_equal; ring.
Qed.
Lemma reverse_right n pts s : convex_polygon n pts -> create pts = Some s -> exists s', reverse s = Some s' /\ create (rev pts) = Some s' /\ s_N s' = vopp (s_N s) /\
  (forall a, in_plane n pts a -> isInsideLocal s' a = isInsideLocal s a /\ distanceLocal s' a = distanceLocal s a).
Proof.
  intros H E. destruct (create_polygon _ _ H) as (s0 & E0 & _ & N0 & _ & Ep & _). rewrite E in E0. injection E0 as <-.
  pose proof (rev_polygon _ _ H) as H'. destruct (poly_unit _ _ H') as [[T' C'] U'].
  exists (the_shape (normalize (vopp n)) (rev pts)). split; [unfold reverse; rewrite Ep; now apply init_E|]. assert (E' : create (rev pts) = Some (the_shape (normalize (vopp n)) (rev pts))) by now apply init_E.
  split; [exact E'|]. split; [cbn; rewrite N0; apply normalize_opp, (poly_nz _ _ H)|].
  intros a Ha. assert (Ha' : in_plane (vopp n) (rev pts) a).
  { unfold in_plane in *. destruct H as [(L & A & _) _]. rewrite vertex_rev by lia. cbv zeta in A. specialize (A (length pts - 1 - 0)%nat ltac:(lia)). revert A Ha. generalize (vertex pts (length pts - 1 - 0)) (vertex pts 0). intros. unfold vdot, vsub, vopp in *. cbn in *. lra. }
  split.
  - destruct (inside_right _ _ _ a H E Ha) as (b & -> & B). destruct (inside_right _ _ _ a H' E' Ha') as (b' & -> & B'). rewrite hull_rev_iff in B'.
    f_equal. destruct b, b'; auto; [apply B', B; reflexivity|symmetry; apply B, B'; reflexivity].
  - destruct (distance_right _ _ _ a H E Ha) as (r & -> & S1 & D1 & _). destruct (distance_right _ _ _ a H' E' Ha') as (r' & -> & S2 & D2 & _). f_equal. rewrite hull_rev_iff in S2.
    destruct D1 as [(x & Bx & Nx) M1], D2 as [(y & By & Ny) M2]. assert (Eq : Rabs r' = Rabs r).
    { apply Rle_antisym; [rewrite <- Nx; apply M2, boundary_rev, Bx|rewrite <- Ny; apply M1, boundary_rev_iff, By]. }
    assert (Sg : 0 < r <-> 0 < r') by tauto. destruct (Rlt_dec 0 r) as [P|P], (Rlt_dec 0 r') as [P'|P']; try tauto; [rewrite !Rabs_right in Eq by lra; exact Eq|]. rewrite !Rabs_left1 in Eq by lra. lra.
Qed.

(** * In the world *)
Lemma dot_mulv m a b : rotation m -> vdot (mulv m a) (mulv m b) = vdot a b.
Proof.
  intros H. assert (E : vdot (mulv m a) (mulv m b) = vdot a (mulv (mtr m) (mulv m b))) by (destruct m as [[? ? ?] [? ? ?] [? ? ?]], a, b; unfold vdot, mulv, mtr, vdot; cbn; ring).
  rewrite E, rotation_inv by exact H. reflexivity.
Qed.
Section World.
Variable joint : option se3.
Hypothesis RJ : rigid joint.
Definition unplaced (p : v3) : v3 := match joint with None => p | Some M => actInv M p end.
Lemma placed_un p : placed joint (unplaced p) = p.
Proof.
  unfold placed, unplaced. destruct joint as [M|]; [|reflexivity]. unfold act, actInv. rewrite rotation_inv_r by exact RJ. generalize (tra M). clear. intros. v3r.
Qed.
Lemma un_placed p : unplaced (placed joint p) = p.
Proof.
  unfold placed, unplaced. destruct joint as [M|]; [|reflexivity]. unfold act, actInv.
  replace (vsub (vadd (mulv (rot M) p) (tra M)) (tra M)) with (mulv (rot M) p) by (generalize (mulv (rot M) p) (tra M); clear; intros; v3r). now apply rotation_inv.
Qed.
Lemma placed_sub p q : vsub (placed joint p) (placed joint q) = turned joint (vsub p q).
Proof. unfold placed, turned. destruct joint as [M|]; [|reflexivity]. unfold act. rewrite mulv_sub. generalize (mulv (rot M) p) (mulv (rot M) q) (tra M). clear. intros. v3r. Qed.
Lemma turned_dot a b : vdot (turned joint a) (turned joint b) = vdot a b.
Proof. unfold turned. destruct joint; [apply dot_mulv, RJ|reflexivity]. Qed.
Lemma turned_cross a b : vcross (turned joint a) (turned joint b) = turned joint (vcross a b).
Proof. unfold turned. destruct joint; [symmetry; apply rotation_cross, RJ|reflexivity]. Qed.
Lemma placed_area n a b c : area (turned joint n) (placed joint a) (placed joint b) (placed joint c) = area n a b c.
Proof. unfold area. now rewrite !placed_sub, turned_cross, turned_dot. Qed.
Lemma placed_norm p q : norm (vsub (placed joint p) (placed joint q)) = norm (vsub p q).
Proof. unfold Rigid.norm. now rewrite placed_sub, turned_dot. Qed.
Lemma vertex_map pts i : (i < length pts)%nat -> vertex (map (placed joint) pts) i = placed joint (vertex pts i).
Proof. intros H. unfold vertex. rewrite (nth_indep _ v0 (placed joint v0)) by now rewrite map_length. apply map_nth. Qed.
Lemma placed_polygon n pts : convex_polygon n pts -> convex_polygon (turned joint n) (map (placed joint) pts).
Proof.
  intros [(L & A & B) C]. cbv zeta in *. pose proof (follow_lt (length pts)) as F.
  split; [split; [now rewrite map_length|]; cbv zeta; split|]; rewrite map_length.
  - intros i Hi. rewrite !vertex_map by lia. rewrite placed_sub, turned_dot. auto.
  - intros i Hi. rewrite !vertex_map by auto. rewrite placed_area. auto.
  - intros i j Hi Hj. rewrite !vertex_map by auto. rewrite placed_area. auto.
Qed.
Lemma placed_vapp pts : forall w, length w = length pts -> vapp (map (placed joint) pts) w = vadd (turned joint (vapp pts w)) (vscale (total w) (placed joint v0)).
Proof.
  assert (T0 : turned joint v0 = v0) by (unfold turned; destruct joint; [apply mulv_0|reflexivity]).
  assert (Tl : forall a x y, turned joint (vadd (vscale a x) y) = vadd (vscale a (turned joint x)) (turned joint y)).
  { intros. unfold turned. destruct joint; [now rewrite mulv_add, mulv_scale|reflexivity]. }
  assert (Pl : forall p, placed joint p = vadd (turned joint p) (placed joint v0)).
  { intros p. pose proof (placed_sub p v0) as E. replace (vsub p v0) with p in E by (clear; v3r). rewrite <- E. generalize (placed joint p) (placed joint v0). clear. intros. v3r. }
  induction pts as [|p pts IH]; intros [|a w] L; try discriminate L; cbn [map vapp total].
  - rewrite T0. generalize (placed joint v0). clear. intros. v3r.
  - rewrite IH by (cbn in L; lia). rewrite Tl, (Pl p). generalize (turned joint p) (turned joint (vapp pts w)) (placed joint v0) (total w). clear. intros. v3r.
Qed.
Lemma placed_hull pts x : hull (map (placed joint) pts) (placed joint x) <-> hull pts x.
Proof.
  assert (Pl : forall p, placed joint p = vadd (turned joint p) (vscale 1 (placed joint v0))).
  { intros p. pose proof (placed_sub p v0) as E. replace (vsub p v0) with p in E by (clear; v3r). rewrite <- E. generalize (placed joint p) (placed joint v0). clear. intros. v3r. }
  split; intros (w & L & W & T & E).
  - exists w. rewrite map_length in L. split; [exact L|]. split; [exact W|]. split; [exact T|]. rewrite placed_vapp, T, <- Pl in E by exact L. apply (f_equal unplaced) in E. now rewrite !un_placed in E.
  - exists w. rewrite map_length. split; [exact L|]. split; [exact W|]. split; [exact T|]. rewrite placed_vapp, T, <- Pl, E by exact L. reflexivity.
Qed.
Lemma placed_segment p q x : on_segment p q x -> on_segment (placed joint p) (placed joint q) (placed joint x).
Proof.
  intros (s & S & ->). exists s. split; [exact S|]. rewrite placed_sub.
  assert (G : vsub (placed joint (vadd p (vscale s (vsub q p)))) (placed joint p) = vscale s (turned joint (vsub q p))).
  { rewrite placed_sub. replace (vsub (vadd p (vscale s (vsub q p))) p) with (vscale s (vsub q p)) by (clear; v3r). unfold turned. destruct joint; [apply mulv_scale|reflexivity]. }
  rewrite <- G. generalize (placed joint (vadd p (vscale s (vsub q p)))) (placed joint p). clear. intros. v3r.
Qed.
Lemma unplaced_segment p q x : on_segment (placed joint p) (placed joint q) (placed joint x) -> on_segment p q x.
Proof.
  intros (s & S & E). exists s. split; [exact S|]. assert (G : on_segment p q (vadd p (vscale s (vsub q p)))) by (exists s; auto).
  rewrite placed_sub in E. assert (K : vsub (placed joint (vadd p (vscale s (vsub q p)))) (placed joint p) = vscale s (turned joint (vsub q p))).
  { rewrite placed_sub. replace (vsub (vadd p (vscale s (vsub q p))) p) with (vscale s (vsub q p)) by (clear; v3r). unfold turned. destruct joint; [apply mulv_scale|reflexivity]. }
  rewrite <- K in E. replace (vadd (placed joint p) (vsub (placed joint (vadd p (vscale s (vsub q p)))) (placed joint p))) with (placed joint (vadd p (vscale s (vsub q p)))) in E by (generalize (placed joint (vadd p (vscale s (vsub q p)))) (placed joint p); clear; intros; v3r).
  apply (f_equal unplaced) in E. now rewrite !un_placed in E.
Qed.
Lemma placed_boundary pts x : boundary (map (placed joint) pts) (placed joint x) <-> boundary pts x.
Proof.
  split; intros (i & Hi & S); exists i; rewrite map_length in *; (split; [exact Hi|]); pose proof (follow_lt _ _ Hi); rewrite ?vertex_map in * by assumption; [now apply unplaced_segment|now apply placed_segment].
Qed.
Lemma placed_distance (A B : v3 -> Prop) a r : (forall x, B (placed joint x) <-> A x) -> distance_to A (unplaced a) r -> distance_to B a r.
Proof.
  intros H [(x & Ax & Nx) M]. rewrite <- (placed_un a). split.
  - exists (placed joint x). split; [now apply H|]. now rewrite placed_norm.
  - intros y By. rewrite <- (placed_un y) in *. rewrite placed_norm. apply M, H, By.
Qed.
Lemma placed_plane n pts a : (0 < length pts)%nat -> in_plane (turned joint n) (map (placed joint) pts) a -> in_plane n pts (unplaced a).
Proof. unfold in_plane. intros L H. rewrite vertex_map in H by exact L. rewrite <- (placed_un a), placed_sub, turned_dot in H. exact H. Qed.
Lemma world_inside n pts s a : convex_polygon n pts -> create pts = Some s -> in_plane (turned joint n) (map (placed joint) pts) a ->
  exists b, isInside (update joint s) joint s a = Some b /\ (b = true <-> hull (map (placed joint) pts) a).
Proof.
  intros H E Ha. assert (L : (0 < length pts)%nat) by (destruct H as [[? _] _]; lia).
  destruct (inside_right n pts s (unplaced a) H E (placed_plane _ _ _ L Ha)) as (b & I & B). exists b. split.
  - rewrite <- I. unfold isInside, update, unplaced. destruct joint; reflexivity.
  - rewrite B, <- placed_hull, placed_un. reflexivity.
Qed.
Lemma world_distance n pts s a : convex_polygon n pts -> create pts = Some s -> in_plane (turned joint n) (map (placed joint) pts) a ->
  exists r, distance (update joint s) joint s a = Val r /\ signed_distance (map (placed joint) pts) a r.
Proof.
  intros H E Ha. assert (L : (0 < length pts)%nat) by (destruct H as [[? _] _]; lia).
  destruct (distance_right n pts s (unplaced a) H E (placed_plane _ _ _ L Ha)) as (r & I & S & Bd & Hu). exists r. split.
  - rewrite <- I. unfold distance, update, unplaced. destruct joint; reflexivity.
  - split; [|split].
    + rewrite S, <- placed_hull, placed_un. reflexivity.
    + apply (placed_distance (boundary pts)); [intros; apply placed_boundary|exact Bd].
    + intros P. apply (placed_distance (hull pts)); [intros; apply placed_hull|auto].
Qed.
End World.

(** * Selection of the closest pair *)
Lemma plane_project N C c : vdot N N = 1 -> let p := linePlaneIntersection c N C N in let dn := vdot N (vsub c C) in
  vdot N (vsub p C) = 0 /\ forall x, vdot N (vsub x C) = 0 -> vdot (vsub c x) (vsub c x) = dn * dn + vdot (vsub p x) (vsub p x).
Proof.
  intros U p dn. assert (Ep : p = vsub c (vscale dn N)).
  { unfold p, linePlaneIntersection, dn. rewrite U. assert (Eq : vdot N (vsub C c) / 1 = - vdot N (vsub c C)) by (unfold vdot, vsub; cbn; field). rewrite Eq. generalize (vdot N (vsub c C)). clear. intros. v3r. }
  assert (V : vdot N (vsub p C) = 0).
  { rewrite Ep. replace (vdot N (vsub (vsub c (vscale dn N)) C)) with (vdot N (vsub c C) - dn * vdot N N) by (unfold vdot, vsub, vscale; cbn; ring). rewrite U. fold dn. ring. }
  split; [exact V|]. intros x Hx. assert (W : vdot N (vsub p x) = 0) by (unfold vdot, vsub in *; cbn in *; lra).
  replace (vsub c x) with (vadd (vscale dn N) (vsub p x)) by (rewrite Ep; clear; v3r).
  replace (vdot (vadd (vscale dn N) (vsub p x)) (vadd (vscale dn N) (vsub p x))) with (dn * dn * vdot N N + 2 * dn * vdot N (vsub p x) + vdot (vsub p x) (vsub p x)) by (unfold vdot, vadd, vscale; cbn; ring). rewrite U, W. ring.
Qed.
Lemma pair_right n pts joint s o : rigid joint -> convex_polygon n pts -> create pts = Some s ->
  exists dp dn, pair_dist (joint, s) o = (Val dp, dn) /\
    distance_to (hull (map (placed joint) pts)) (placed (fst o) (s_C (snd o))) (sqrt (if Rlt_dec dp 0 then dn ^ 2 else dp ^ 2 + dn ^ 2)).
Proof.
  intros RJ H E. destruct (create_polygon _ _ H) as (s0 & E0 & _ & N0 & C0 & _ & _ & _ & Hc). rewrite E in E0. injection E0 as <-. rewrite <- C0 in Hc.
  pose proof (placed_polygon joint RJ _ _ H) as H'. set (pts' := map (placed joint) pts) in *.
  assert (Dn : d_normal (update joint s) = turned joint (s_N s)) by (unfold update, turned; destruct joint; reflexivity).
  assert (Dc : d_center (update joint s) = placed joint (s_C s)) by (unfold update, placed; destruct joint; reflexivity).
  assert (Oc : d_center (update (fst o) (snd o)) = placed (fst o) (s_C (snd o))) by (unfold update, placed; destruct (fst o); reflexivity).
  set (N := turned joint (s_N s)) in *. set (C := placed joint (s_C s)) in *. set (c := placed (fst o) (s_C (snd o))) in *.
  assert (UN : vdot N N = 1) by (unfold N; rewrite turned_dot by exact RJ; rewrite N0; apply normalize_unit, (poly_nz _ _ H)).
  assert (PN : N = vscale (/ Rigid.norm n) (turned joint n)).
  { unfold N. rewrite N0, normalize_E by apply (poly_nz _ _ H). unfold turned. destruct joint; [apply mulv_scale|reflexivity]. }
  assert (Hh : hull pts' C) by (apply placed_hull; auto).
  assert (IP : forall x, vdot (turned joint n) (vsub x C) = 0 <-> vdot N (vsub x C) = 0).
  { intros x. pose proof (norm_gt0 _ (poly_nz _ _ H)) as Pn. pose proof (Rinv_0_lt_compat _ Pn). rewrite PN. replace (vdot (vscale (/ Rigid.norm n) (turned joint n)) (vsub x C)) with (/ Rigid.norm n * vdot (turned joint n) (vsub x C)) by (unfold vdot, vscale; cbn; ring).
    split; intros K; [rewrite K; ring|]. apply Rmult_integral in K as [K|K]; lra. }
  pose proof (hull_plane _ _ (proj1 H')) as HP. assert (HC := HP _ Hh). unfold in_plane in HC.
  assert (HulN : forall x, hull pts' x -> vdot N (vsub x C) = 0).
  { intros x Hx. apply IP. pose proof (HP x Hx) as K. unfold in_plane in K. unfold vdot, vsub in *. cbn in *. lra. }
  destruct (plane_project N C c UN) as [Pp Py]. set (p := linePlaneIntersection c N C N) in *. set (dn := vdot N (vsub c C)) in *.
  assert (Hp : in_plane (turned joint n) pts' p) by (apply IP in Pp; unfold in_plane, vdot, vsub in *; cbn in *; lra).
  destruct (world_distance joint RJ n pts s p H E Hp) as (dp & Ed & Sg & Bd & Hu). fold pts' in Sg, Bd, Hu.
  exists dp, dn. split.
  - unfold pair_dist. cbn [fst snd]. rewrite Dn, Dc, Oc. unfold intersection. rewrite Dn, Dc. fold p dn. rewrite Ed. reflexivity.
  - assert (Z : exists y, hull pts' y /\ vdot (vsub p y) (vsub p y) = (if Rlt_dec 0 dp then dp ^ 2 else 0) /\ forall x, hull pts' x -> (if Rlt_dec 0 dp then dp ^ 2 else 0) <= vdot (vsub p x) (vsub p x)).
    { destruct (Rlt_dec 0 dp) as [P|P].
      - destruct (Hu P) as [(y & Hy & Ny) M]. exists y. split; [exact Hy|]. rewrite <- norm_sq, Ny. split; [ring|]. intros x Hx. rewrite <- norm_sq. specialize (M x Hx). replace (dp ^ 2) with (dp * dp) by ring. apply Rmult_le_compat; lra.
      - exists p. assert (K : ~ ~ hull pts' p) by (intros Q; apply P, Sg, Q).
        destruct (world_inside joint RJ n pts s p H E Hp) as (b & _ & B). fold pts' in B. assert (Hp' : hull pts' p) by (destruct b; [now apply B|destruct K; intros Q; apply B in Q; discriminate Q]).
        split; [exact Hp'|]. split; [unfold vdot, vsub; cbn; ring|]. intros. apply vdot_pos. }
    destruct Z as (y & Hy & Ny & M).
    assert (Ef : (if Rlt_dec dp 0 then dn ^ 2 else dp ^ 2 + dn ^ 2) = dn * dn + (if Rlt_dec 0 dp then dp ^ 2 else 0)).
    { destruct (Rlt_dec dp 0), (Rlt_dec 0 dp); try lra. assert (dp = 0) by lra. subst dp. ring. }
    rewrite Ef. split.
    + exists y. split; [exact Hy|]. unfold Rigid.norm. rewrite (Py y (HulN y Hy)), Ny. reflexivity.
    + intros x Hx. unfold Rigid.norm. apply sqrt_le_1_alt. rewrite (Py x (HulN x Hx)). specialize (M x Hx). lra.
Qed.
Lemma distance_unique A a r r' : distance_to A a r -> distance_to A a r' -> r = r'.
Proof. intros [(x & Ax & Nx) M] [(y & Ay & Ny) M']. apply Rle_antisym; [rewrite <- Ny; auto|rewrite <- Nx; auto]. Qed.
Lemma closest_pair floors objects d : (forall f, In f floors -> rigid (fst f) /\ exists n, convex_polygon n (s_pts (snd f)) /\ create (s_pts (snd f)) = Some (snd f)) ->
  (forall j i, (j < length floors)%nat -> fst (pair_dist (nth j floors d) (nth i objects d)) = Val (floor_dp floors objects d j i)) /\
  match select (floor_dp floors objects d) (floor_dn floors objects d) (length floors) (length objects) with
  | None => floors = [] \/ objects = []
  | Some (j, i, _) => (j < length floors)%nat /\ (i < length objects)%nat /\
     forall j' i' r r', (j' < length floors)%nat -> (i' < length objects)%nat ->
      let surface j := hull (map (placed (fst (nth j floors d))) (s_pts (snd (nth j floors d)))) in
      distance_to (surface j) (center (nth i objects d)) r -> distance_to (surface j') (center (nth i' objects d)) r' -> r <= r'
  end.
Proof.
  intros F. assert (PR : forall j i, (j < length floors)%nat -> exists dp dn, pair_dist (nth j floors d) (nth i objects d) = (Val dp, dn) /\
     distance_to (hull (map (placed (fst (nth j floors d))) (s_pts (snd (nth j floors d))))) (center (nth i objects d)) (sqrt (if Rlt_dec dp 0 then dn ^ 2 else dp ^ 2 + dn ^ 2))).
  { intros j i Hj. replace (center (nth i objects d)) with (placed (fst (nth i objects d)) (s_C (snd (nth i objects d)))) by (unfold center, update, placed; destruct (fst (nth i objects d)); reflexivity).
    destruct (F (nth j floors d) (nth_In _ _ Hj)) as (RJ & n & H & E). destruct (nth j floors d) as [J s]. cbn [fst snd] in *. destruct (pair_right n _ J s (nth i objects d) RJ H E) as (dp & dn & A & B). eauto. }
  split; [intros j i Hj; destruct (PR j i Hj) as (dp & dn & E & _); unfold floor_dp; rewrite E; reflexivity|].
  pose proof (selection (floor_dp floors objects d) (floor_dn floors objects d) (length floors) (length objects)) as S. cbv zeta in S.
  destruct (select _ _ _ _) as [[[j i] b]|]; [|destruct S as [S|S]; [left|right]; now apply length_zero_iff_nil].
  destruct S as (Hj & Hi & _ & M). split; [exact Hj|]. split; [exact Hi|]. intros j' i' r r' Hj' Hi'. cbv zeta. intros D D'.
  destruct (PR j i Hj) as (dp & dn & E & B). destruct (PR j' i' Hj') as (dp' & dn' & E' & B'). rewrite (distance_unique _ _ _ _ D B), (distance_unique _ _ _ _ D' B').
  apply sqrt_le_1_alt. destruct (M j' i' Hj' Hi') as [Le _]. unfold floor_dp, floor_dn in Le. rewrite E, E' in Le. cbn [fst snd] in Le. exact Le.
Qed.
