From Coq Require Import Reals Lra Lia List Arith Bool.
From Verif Require Import Geo GeoLemmas Rigid ShapeModel ShapeSpec ShapeGeo.
Import ListNotations.
Local Open Scope R_scope.

(** * Norms *)
Lemma norm_sq v : norm v * norm v = vdot v v.
Proof. unfold norm. apply sqrt_sqrt, vdot_pos. Qed.
Lemma norm_ge0 v : 0 <= norm v. Proof. apply sqrt_pos. Qed.
Lemma norm_gt0 v : 0 < vdot v v -> 0 < norm v. Proof. apply sqrt_lt_R0. Qed.
Lemma norm_le u v : vdot u u <= vdot v v -> norm u <= norm v. Proof. apply sqrt_le_1_alt. Qed.
Lemma norm_scale k v : norm (vscale k v) = Rabs k * norm v.
Proof.
  unfold norm. replace (vdot (vscale k v) (vscale k v)) with (Rsqr k * vdot v v) by (unfold vdot, vscale, Rsqr; cbn; ring).
  rewrite sqrt_mult by (try apply Rle_0_sqr; apply vdot_pos). now rewrite sqrt_Rsqr_abs.
Qed.
Lemma normalize_E v : 0 < vdot v v -> normalize v = vscale (/ norm v) v.
Proof. intros H. unfold normalize. destruct (Rlt_dec 0 (vdot v v)); [reflexivity|contradiction]. Qed.
Lemma normalize_unit v : 0 < vdot v v -> vdot (normalize v) (normalize v) = 1.
Proof.
  intros H. rewrite normalize_E by exact H. pose proof (norm_gt0 v H). replace (vdot (vscale (/ norm v) v) (vscale (/ norm v) v)) with (/ norm v * / norm v * vdot v v) by (unfold vdot, vscale; cbn; ring).
  rewrite <- norm_sq. field. lra.
Qed.
Lemma normalize_id v : vdot v v = 1 -> normalize v = v.
Proof. intros H. rewrite normalize_E by lra. unfold norm. rewrite H, sqrt_1, Rinv_1. v3r. Qed.
Lemma normalize_scale k v : 0 < k -> vdot v v = 1 -> normalize (vscale k v) = v.
Proof.
  intros K H. assert (E : vdot (vscale k v) (vscale k v) = k * k * vdot v v) by (unfold vdot, vscale; cbn; ring).
  rewrite normalize_E by (rewrite E, H; nra). rewrite norm_scale. unfold norm. rewrite H, sqrt_1, Rabs_right by lra. destruct v. unfold vscale. cbn. f_equal; field; lra.
Qed.
Lemma gram v n w : vdot (vcross v n) w * vdot (vcross v n) w = vdot v v * vdot n n * vdot w w + 2 * vdot v n * vdot n w * vdot v w - vdot v v * (vdot n w * vdot n w) - vdot n n * (vdot v w * vdot v w) - vdot w w * (vdot v n * vdot v n).
Proof. unfold vdot, vcross. cbn. ring. Qed.

Lemma vsub_scale0 w v : vsub w (vscale 0 v) = w. Proof. v3r. Qed.
Lemma sub_move a p u l t : vsub (vsub a p) (vscale (l * t) u) = vsub a (vadd p (vscale t (vscale l u))). Proof. v3r. Qed.

(** * Distance to one side *)
Section Side.
Variables (N v w : v3) (L : R).
Hypotheses (HN : vdot N N = 1) (Hv : vdot v v = 1) (Hvn : vdot N v = 0) (Hw : vdot N w = 0) (HL : 0 < L).
Let u := vcross v N.
Lemma pyth s : vdot (vsub w (vscale s v)) (vsub w (vscale s v)) = (vdot v w - s) * (vdot v w - s) + vdot u w * vdot u w.
Proof.
  assert (G : vdot u w * vdot u w = vdot w w - vdot v w * vdot v w).
  { unfold u. rewrite gram, Hv, HN, Hw. replace (vdot v N) with 0 by (rewrite <- Hvn; unfold vdot; ring). ring. }
  rewrite G. replace (vdot (vsub w (vscale s v)) (vsub w (vscale s v))) with (vdot w w - 2 * s * vdot v w + s * s * vdot v v) by (unfold vdot, vsub, vscale; cbn; ring). rewrite Hv. ring.
Qed.
Lemma pyth0 : vdot w w = vdot v w * vdot v w + vdot u w * vdot u w.
Proof. pose proof (pyth 0) as H. rewrite vsub_scale0 in H. rewrite H. ring. Qed.
Lemma dist_sign : 0 < dist w L v u <-> 0 < vdot u w.
Proof.
  unfold dist. destruct (Rle_dec (vdot v w) 0).
  - destruct (Rlt_dec 0 (vdot u w)) as [P|P]; split; intros H; auto; try (exfalso; pose proof (norm_ge0 w); lra).
    apply norm_gt0. rewrite pyth0. nra.
  - destruct (Rle_dec L (vdot v w)); [|tauto]. cbv zeta. destruct (Rlt_dec 0 (vdot u w)) as [P|P]; split; intros H; auto; try (exfalso; pose proof (norm_ge0 (vsub w (vscale L v))); lra).
    apply norm_gt0. rewrite pyth. nra.
Qed.
Lemma dist_abs : (exists s, 0 <= s <= L /\ Rabs (dist w L v u) = norm (vsub w (vscale s v))) /\
  forall s, 0 <= s <= L -> Rabs (dist w L v u) <= norm (vsub w (vscale s v)).
Proof.
  assert (A : forall (b : bool) x, 0 <= x -> Rabs (if b then x else - x) = x) by (intros [] x X; [apply Rabs_right; lra|rewrite Rabs_Ropp; apply Rabs_right; lra]).
  assert (E : exists s, 0 <= s <= L /\ Rabs (dist w L v u) = norm (vsub w (vscale s v)) /\ forall s', 0 <= s' <= L -> (vdot v w - s) * (vdot v w - s) <= (vdot v w - s') * (vdot v w - s')).
  { unfold dist. destruct (Rle_dec (vdot v w) 0); [|destruct (Rle_dec L (vdot v w))].
    - exists 0. split; [lra|]. split; [|intros s' S; assert (0 <= s' * (s' - 2 * vdot v w)) by (apply Rmult_le_pos; lra); lra]. rewrite vsub_scale0.
      pose proof (norm_ge0 w). destruct (Rlt_dec 0 (vdot u w)); [apply (A true)|apply (A false)]; assumption.
    - exists L. split; [lra|]. split; [|intros s' S; apply Rmult_le_compat; lra]. cbv zeta. pose proof (norm_ge0 (vsub w (vscale L v))).
      destruct (Rlt_dec 0 (vdot u w)); [apply (A true)|apply (A false)]; assumption.
    - exists (vdot v w). split; [lra|]. split; [|intros s' S; pose proof (Rle_0_sqr (vdot v w - s')) as Q; unfold Rsqr in Q; lra]. unfold norm. rewrite pyth.
      replace ((vdot v w - vdot v w) * (vdot v w - vdot v w) + vdot u w * vdot u w) with (Rsqr (vdot u w)) by (unfold Rsqr; ring). now rewrite sqrt_Rsqr_abs. }
  destruct E as (s & S & E & M). split; [eauto|]. intros s' S'. rewrite E. apply norm_le. rewrite !pyth. specialize (M s' S'). lra.
Qed.
End Side.

(** * The shape of a convex polygon *)
Lemma nx_follow n i : (i < n)%nat -> nx n i = follow n i.
Proof.
  intros H. unfold nx, follow. destruct (Nat.eqb_spec (S i) n) as [E|E].
  - replace (i + 1)%nat with n by lia. now apply Nat.mod_same; lia.
  - rewrite Nat.mod_small; lia.
Qed.
Lemma area_scale k n a b c : area (vscale k n) a b c = k * area n a b c.
Proof. unfold area, vdot, vscale. cbn. ring. Qed.
Lemma poly_scale k n pts : 0 < k -> convex_polygon n pts -> convex_polygon (vscale k n) pts.
Proof.
  intros K ((A & B & C) & D). split; [split; [exact A|]; cbv zeta in *; split|].
  - intros i Hi. specialize (B i Hi). replace (vdot (vscale k n) (vsub (vertex pts i) (vertex pts 0))) with (k * vdot n (vsub (vertex pts i) (vertex pts 0))) by (unfold vdot, vscale; cbn; ring). rewrite B. ring.
  - intros i Hi. rewrite area_scale. apply Rmult_lt_0_compat; auto.
  - intros i j Hi Hj. rewrite area_scale. apply Rmult_le_pos; auto. lra.
Qed.
Lemma poly_nz n pts : convex_polygon n pts -> 0 < vdot n n.
Proof.
  intros ((A & _ & C) & _). apply vdot_pos0. intros ->. assert (H : (0 < length pts)%nat) by lia. specialize (C 0%nat H). cbv zeta in C. unfold area, vdot, v0 in C. cbn in C. lra.
Qed.
Lemma poly_unit n pts : convex_polygon n pts -> convex_polygon (normalize n) pts /\ vdot (normalize n) (normalize n) = 1.
Proof.
  intros H. pose proof (poly_nz _ _ H) as P. split; [|now apply normalize_unit]. rewrite normalize_E by exact P.
  apply poly_scale; [|exact H]. now apply Rinv_0_lt_compat, norm_gt0.
Qed.
Lemma plane_unit n pts a : convex_polygon n pts -> in_plane n pts a <-> in_plane (normalize n) pts a.
Proof.
  intros H. pose proof (poly_nz _ _ H) as P. pose proof (norm_gt0 _ P). rewrite normalize_E by exact P. unfold in_plane.
  replace (vdot (vscale (/ norm n) n) (vsub a (vertex pts 0))) with (/ norm n * vdot n (vsub a (vertex pts 0))) by (unfold vdot, vscale; cbn; ring).
  split; intros E; [rewrite E; ring|]. apply Rmult_integral in E as [E|E]; [|exact E]. pose proof (Rinv_0_lt_compat _ H0). lra.
Qed.

Section Poly.
Variables (n : v3) (pts : list v3).
Hypothesis U : vdot n n = 1.
Hypothesis TP : turning n pts.
Local Notation P := (vertex pts).
Local Notation m := (length pts).
Local Notation nxt := (follow (length pts)).
Local Notation e i := (vsub (P (nxt i)) (P i)).
Definition Ui (i : nat) : v3 := normalize (e i).
Definition Li (i : nat) : R := norm (e i).
Definition Ni (i : nat) : v3 := vcross (Ui i) n.

Lemma edge_E i : (i < m)%nat -> edge pts i = e i.
Proof. intros H. unfold edge, pt, vertex. now rewrite nx_follow. Qed.
Lemma Li_pos i : (i < m)%nat -> 0 < Li i.
Proof. intros H. apply norm_gt0. now apply (edge_nz n pts). Qed.
Lemma Ui_E i : (i < m)%nat -> Ui i = vscale (/ Li i) (e i).
Proof. intros H. unfold Ui. rewrite normalize_E; [reflexivity|]. now apply (edge_nz n pts). Qed.
Lemma e_E i : (i < m)%nat -> e i = vscale (Li i) (Ui i).
Proof. intros H. pose proof (Li_pos i H). rewrite Ui_E by exact H. generalize (e i). intros [x y z]. unfold vscale. cbn. f_equal; field; lra. Qed.
Lemma Ui_unit i : (i < m)%nat -> vdot (Ui i) (Ui i) = 1.
Proof. intros H. apply normalize_unit. now apply (edge_nz n pts). Qed.
Lemma Ui_plane i : (i < m)%nat -> vdot n (Ui i) = 0.
Proof. intros H. rewrite Ui_E by exact H. pose proof (plane_edge n pts TP i H) as E. replace (vdot n (vscale (/ Li i) (e i))) with (/ Li i * vdot n (e i)) by (unfold vdot, vscale; cbn; ring). rewrite E. ring. Qed.
Lemma cross_unit v : vdot v v = 1 -> vdot n v = 0 -> vdot (vcross v n) (vcross v n) = 1.
Proof. intros V H. replace (vdot (vcross v n) (vcross v n)) with (vdot v v * vdot n n - vdot n v * vdot n v) by (unfold vdot, vcross; cbn; ring). rewrite V, U, H. ring. Qed.
Lemma Ni_dot i x : (i < m)%nat -> Li i * vdot (Ni i) (vsub x (P i)) = - side n pts i x.
Proof.
  intros H. unfold Ni, side, area. rewrite (e_E i H). generalize (vsub x (P i)) (Ui i) (Li i). intros. unfold vdot, vcross, vscale. cbn. ring.
Qed.
Definition the_shape : shape := Shape pts m (vscale (/ INR m) (vsum pts)) n (map Ni (seq 0 m)) (map Ui (seq 0 m)) (map Li (seq 0 m))
  (SE3 (cols n (Ni 0) (Ui 0)) (vscale (/ INR m) (vsum pts))).
Lemma normal_E : normalize (vcross (vsub (pt pts 1) (pt pts 0)) (vsub (pt pts 2) (pt pts 1))) = n.
Proof.
  destruct (TP) as (L & _). assert (H0 : (0 < m)%nat) by lia. assert (H1 : (1 < m)%nat) by lia.
  pose proof (turn n pts TP 0%nat H0) as T.
  assert (F0 : nxt 0 = 1%nat) by (unfold follow; destruct (Nat.eqb_spec 1 m); lia).
  assert (F1 : nxt 1 = 2%nat) by (unfold follow; destruct (Nat.eqb_spec 2 m); lia).
  pose proof (plane_edge n pts TP 0%nat H0) as A. pose proof (plane_edge n pts TP 1%nat H1) as B. rewrite F0 in *. rewrite F1 in *.
  unfold pt. fold (P 0%nat) (P 1%nat) (P 2%nat). rewrite (cross_in_plane n _ _ U A B). now apply normalize_scale.
Qed.
Lemma init_E oN oU oL : init pts oN oU oL = Some the_shape.
Proof.
  destruct (TP) as (L & _). unfold init. destruct pts as [|p [|q [|r l]]] eqn:Ep; try (cbn in L; lia). rewrite <- Ep in *.
  assert (EU : map (fun i => normalize (edge pts i)) (seq 0 m) = map Ui (seq 0 m)) by (apply map_ext_in; intros i Hi; apply in_seq in Hi; unfold Ui; rewrite edge_E by lia; reflexivity).
  assert (EL : map (fun i => norm (edge pts i)) (seq 0 m) = map Li (seq 0 m)) by (apply map_ext_in; intros i Hi; apply in_seq in Hi; unfold Li; rewrite edge_E by lia; reflexivity).
  assert (EN : map (fun i => normalize (vcross (normalize (edge pts i)) n)) (seq 0 m) = map Ni (seq 0 m)).
  { apply map_ext_in. intros i Hi. apply in_seq in Hi. rewrite edge_E by lia. fold (Ui i). apply normalize_id, cross_unit; [apply Ui_unit|apply Ui_plane]; lia. }
  cbv zeta. rewrite normal_E, EU, EL, EN. unfold the_shape. f_equal.
  replace (nth 0 (map Ni (seq 0 m)) v0) with (Ni 0) by (rewrite Ep; reflexivity).
  replace (nth 0 (map Ui (seq 0 m)) v0) with (Ui 0) by (rewrite Ep; reflexivity). reflexivity.
Qed.

Lemma asserted_E : asserted the_shape.
Proof.
  intros _. split; [intros E; cbn in E; rewrite E in U; unfold vdot, v0 in U; cbn in U; lra|].
  cbn [the_shape s_dim s_Us s_Ns]. intros i Hi. rewrite nx_follow by exact Hi. pose proof (follow_lt _ _ Hi) as Hn.
  assert (G : forall f, (forall k, (k < m)%nat -> nth k (map f (seq 0 m)) v0 = f k :> v3)).
  { intros f k Hk. rewrite (nth_indep _ v0 (f 0%nat)) by now rewrite map_length, seq_length. rewrite map_nth, seq_nth by exact Hk. reflexivity. }
  rewrite !G by assumption. pose proof (turn n pts TP i Hi) as T. rewrite (e_E i Hi), (e_E _ Hn) in T.
  pose proof (Li_pos i Hi). pose proof (Li_pos _ Hn). unfold Ni.
  replace (vdot n (vcross (vscale (Li i) (Ui i)) (vscale (Li (nxt i)) (Ui (nxt i))))) with (Li i * Li (nxt i) * - vdot (Ui (nxt i)) (vcross (Ui i) n)) in T by (unfold vdot, vcross, vscale; cbn; ring).
  assert (0 < Li i * Li (nxt i)) by now apply Rmult_lt_0_compat. nra.
Qed.

(** ** inside test *)
Lemma nth_map_seq {A} (f : nat -> A) i : (i < m)%nat -> nth_error (map f (seq 0 m)) i = Some (f i).
Proof. intros H. rewrite nth_error_map, (nth_error_nth' _ 0%nat) by now rewrite seq_length. rewrite seq_nth by exact H. reflexivity. Qed.
Lemma nth_pts i : (i < m)%nat -> nth_error pts i = Some (P i).
Proof. apply nth_error_nth'. Qed.
Lemma outward i x : (i < m)%nat -> 0 < vdot (Ni i) (vsub x (P i)) <-> side n pts i x < 0.
Proof. intros H. pose proof (Ni_dot i x H) as E. pose proof (Li_pos i H). split; intros K; nra. Qed.
Lemma inside_loop_E x l : (forall i, In i l -> (i < m)%nat) ->
  exists b, inside_loop the_shape x l = Some b /\ (b = true <-> forall i, In i l -> 0 <= side n pts i x).
Proof.
  induction l as [|i l IH]; intros H; [exists true; split; [reflexivity|split; [intros _ ? []|reflexivity]]|].
  assert (Hi : (i < m)%nat) by (apply H; now left). cbn [inside_loop the_shape s_Ns s_pts]. rewrite nth_map_seq, nth_pts by exact Hi.
  pose proof (outward i x Hi) as O. destruct (Rlt_dec 0 (vdot (Ni i) (vsub x (P i)))) as [K|K].
  - exists false. split; [reflexivity|]. split; [discriminate|]. intros F. specialize (F i (or_introl eq_refl)). apply O in K. lra.
  - destruct IH as (b & E & B); [intros; apply H; now right|]. exists b. split; [exact E|]. rewrite B. split; intros F; [|intros; apply F; now right].
    intros j [<-|Hj]; [|auto]. apply Rnot_lt_le. intros C. apply K, O, C.
Qed.
Hypothesis CP : forall i j, (i < m)%nat -> (j < m)%nat -> 0 <= area n (P i) (P (nxt i)) (P j).
Lemma inside_E x : in_plane n pts x -> exists b, isInsideLocal the_shape x = Some b /\ (b = true <-> hull pts x).
Proof.
  intros Hx. destruct (inside_loop_E x (seq 0 m)) as (b & E & B); [intros i Hi; apply in_seq in Hi; lia|]. exists b. split; [exact E|]. rewrite B. split.
  - intros F. apply (halves_hull n pts U TP CP); auto. intros i Hi. apply F, in_seq. lia.
  - intros Hh i Hi. apply in_seq in Hi. apply (hull_halves n pts CP x Hh). lia.
Qed.

(** ** signed distance *)
Definition di (a : v3) (i : nat) : R := dist (vsub a (P i)) (Li i) (Ui i) (Ni i).
Lemma di_sign a i : in_plane n pts a -> (i < m)%nat -> 0 < di a i <-> side n pts i a < 0.
Proof.
  intros Ha Hi. unfold di, Ni. rewrite dist_sign; [now apply outward|exact U|now apply Ui_unit|now apply Ui_plane|now apply (plane_vertex n pts)].
Qed.
Lemma di_seg a i : in_plane n pts a -> (i < m)%nat -> distance_to (on_segment (P i) (P (nxt i))) a (Rabs (di a i)).
Proof.
  intros Ha Hi. unfold di, Ni. pose proof (Li_pos i Hi) as L.
  destruct (dist_abs n (Ui i) (vsub a (P i)) (Li i)) as ((s & S & E) & M); auto; [now apply Ui_unit|now apply Ui_plane|now apply (plane_vertex n pts)|].
  assert (Sub : forall t, vsub (vsub a (P i)) (vscale (Li i * t) (Ui i)) = vsub a (vadd (P i) (vscale t (e i)))).
  { intros t. rewrite (e_E i Hi). apply sub_move. }
  split.
  - exists (vadd (P i) (vscale (s / Li i) (e i))). split.
    + exists (s / Li i). split; [|reflexivity]. split; [apply Rmult_le_pos; [lra|apply Rlt_le, Rinv_0_lt_compat; lra]|]. apply Rmult_le_reg_r with (Li i); [lra|]. unfold Rdiv. rewrite Rmult_assoc, Rinv_l by lra. lra.
    + rewrite <- Sub, E. do 3 f_equal. field. lra.
  - intros x (t & T & ->). rewrite <- Sub. apply M. split; [apply Rmult_le_pos; lra|]. rewrite <- (Rmult_1_r (Li i)) at 2. apply Rmult_le_compat_l; lra.
Qed.

(** what the loop has seen *)
Definition seen (ds : list R) (mp mn : option R) (out : bool) : Prop :=
  match mp with Some r => In r ds /\ 0 < r /\ (forall d, In d ds -> 0 < d -> r <= d) /\ out = true | None => (forall d, In d ds -> d <= 0) /\ out = false end /\
  match mn with Some r => In r ds /\ r <= 0 /\ (forall d, In d ds -> d <= 0 -> d <= r) | None => forall d, In d ds -> 0 < d end.
Lemma dist_loop_E a l : (forall i, In i l -> (i < m)%nat) -> forall ds mp mn out, seen ds mp mn out ->
  exists mp' mn' out', dist_loop the_shape a l mp mn out = dist_loop the_shape a [] mp' mn' out' /\ seen (ds ++ map (di a) l) mp' mn' out'.
Proof.
  induction l as [|i l IH]; intros H ds mp mn out S; [exists mp, mn, out; split; [reflexivity|now rewrite app_nil_r]|].
  assert (Hi : (i < m)%nat) by (apply H; now left). assert (Ht : forall j, In j l -> (j < m)%nat) by (intros; apply H; now right).
  cbn [map]. replace (ds ++ di a i :: map (di a) l) with ((ds ++ [di a i]) ++ map (di a) l) by now rewrite <- app_assoc.
  assert (Step : forall mp' mn' out', seen (ds ++ [di a i]) mp' mn' out' ->
     exists mp'' mn'' out'', dist_loop the_shape a l mp' mn' out' = dist_loop the_shape a [] mp'' mn'' out'' /\ seen ((ds ++ [di a i]) ++ map (di a) l) mp'' mn'' out'') by (intros; now apply IH).
  cbn [dist_loop]. cbn [the_shape s_pts s_Ls s_Us s_Ns]. rewrite !nth_map_seq, nth_pts by exact Hi. fold (di a i). cbv zeta. fold the_shape.
  destruct S as [Sp Sn]. destruct (Rlt_dec 0 (di a i)) as [K|K]; apply Step; clear Step IH; split.
  - unfold below. destruct mp as [r|]; [destruct Sp as (A & B & C & D); destruct (Rlt_dec (di a i) r)|]; (split; [apply in_or_app; cbn; auto|split; [lra|split; [|reflexivity]]]);
     intros d Hd Pd; apply in_app_or in Hd as [Hd|[<-|[]]]; try lra; auto. { specialize (C d Hd Pd). lra. } { apply Sp in Hd. lra. }
  - destruct mn as [r|]; [destruct Sn as (A & B & C)|]; [split; [apply in_or_app; auto|split; [auto|]]|]; intros d Hd; [intros Pd|]; apply in_app_or in Hd as [Hd|[<-|[]]]; auto; lra.
  - destruct mp as [r|]; [destruct Sp as (A & B & C & D); split; [apply in_or_app; auto|split; [auto|split; [|auto]]]; intros d Hd Pd|destruct Sp as [A B]; split; [|exact B]; intros d Hd]; apply in_app_or in Hd as [Hd|[<-|[]]]; auto; lra.
  - unfold above. destruct mn as [r|]; [destruct Sn as (A & B & C); destruct (Rlt_dec r (di a i))|]; (split; [apply in_or_app; cbn; auto|split; [lra|]]);
     intros d Hd Pd; apply in_app_or in Hd as [Hd|[<-|[]]]; try lra; auto. { specialize (C d Hd Pd). lra. } { apply Sn in Hd. lra. }
Qed.
Lemma distance_E a : in_plane n pts a -> exists r, distanceLocal the_shape a = Val r /\
  (0 < r <-> ~ hull pts a) /\ distance_to (boundary pts) a (Rabs r) /\ (0 < r -> distance_to (hull pts) a r).
Proof.
  intros Ha. assert (S0 : seen [] None None false) by (split; [split; [intros ? []|reflexivity]|intros ? []]).
  destruct (dist_loop_E a (seq 0 m) ltac:(intros i Hi; apply in_seq in Hi; lia) _ _ _ _ S0) as (mp & mn & out & E & Sp & Sn).
  cbn [app] in *. unfold distanceLocal. cbn [the_shape s_dim]. fold the_shape. rewrite E. cbn [dist_loop].
  assert (In_d : forall i, (i < m)%nat -> In (di a i) (map (di a) (seq 0 m))) by (intros i Hi; apply in_map, in_seq; lia).
  pose proof (m3 n pts TP) as M3.
  destruct mp as [r|].
  - destruct Sp as (I & R0 & Min & ->). exists r. apply in_map_iff in I as (i & Ei & Hi). apply in_seq in Hi. assert (Hi' : (i < m)%nat) by lia.
    assert (NH : ~ half_planes n pts a). { intros C. specialize (C i Hi'). rewrite <- Ei in R0. apply (di_sign a i Ha Hi') in R0. lra. }
    assert (NHull : ~ hull pts a) by (intros C; apply NH, (hull_halves n pts CP), C).
    destruct (di_seg a i Ha Hi') as [(y & Sy & Ny) _]. rewrite Ei in Ny. rewrite (Rabs_right r) in Ny by lra.
    assert (Lower : forall x, hull pts x -> r <= norm (vsub a x)).
    { intros x Hx. destruct (leave n pts U TP a x Ha (hull_halves n pts CP x Hx) (hull_plane n pts TP x Hx) NH) as (k & z & Hk & Sk & Sz & Le).
      assert (Dk : 0 < di a k) by now apply di_sign. apply Rle_trans with (di a k); [now apply Min; auto|].
      apply Rle_trans with (norm (vsub a z)); [|now apply norm_le]. destruct (di_seg a k Ha Hk) as [_ F]. specialize (F z Sz). rewrite Rabs_right in F by lra. exact F. }
    split; [reflexivity|]. split; [tauto|]. rewrite Rabs_right by lra. split; [|intros _]; split; auto.
    + exists y. split; [exists i; auto|exact Ny].
    + intros x (k & Hk & Sx). apply Lower. now apply (seg_hull pts k).
    + exists y. split; [now apply (seg_hull pts i)|exact Ny].
  - destruct Sp as [All ->]. destruct mn as [r|]; [|exfalso; specialize (Sn _ (In_d 0%nat ltac:(lia))); specialize (All _ (In_d 0%nat ltac:(lia))); lra].
    destruct Sn as (I & R0 & Max). exists r. split; [reflexivity|].
    assert (HH : half_planes n pts a). { intros i Hi. apply Rnot_lt_le. intros C. apply (di_sign a i Ha Hi) in C. specialize (All _ (In_d i Hi)). lra. }
    split; [split; [lra|intros C; exfalso; apply C, (halves_hull n pts U TP CP); auto]|]. split; [|lra].
    apply in_map_iff in I as (i & Ei & Hi). apply in_seq in Hi. destruct (di_seg a i Ha ltac:(lia)) as [(y & Sy & Ny) _]. rewrite Ei in Ny. split.
    + exists y. split; [exists i; split; [lia|auto]|exact Ny].
    + intros x (k & Hk & Sx). destruct (di_seg a k Ha Hk) as [_ F]. specialize (F x Sx). apply Rle_trans with (Rabs (di a k)); [|exact F].
      specialize (All _ (In_d k Hk)). specialize (Max _ (In_d k Hk) All). rewrite (Rabs_left1 r), (Rabs_left1 (di a k)) by lra. lra.
Qed.
End Poly.
