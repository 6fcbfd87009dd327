(** Geometry of convex polygons. *)
From Coq Require Import Reals Lra Lia List Arith.
From Verif Require Import Geo GeoLemmas Rigid ShapeSpec.
Import ListNotations.
Local Open Scope R_scope.

(** * Exit of a half line from an intersection of half planes *)
Lemma neg_dec (b : nat -> R) l : (forall i, In i l -> 0 <= b i) \/ exists i, In i l /\ b i < 0.
Proof.
  induction l as [|k l IH]; [left; intros ? []|]. destruct (Rlt_dec (b k) 0); [right; exists k; split; [now left|auto]|].
  destruct IH as [H|(i & Hi & Hb)]; [left|right; exists i; split; [now right|auto]]. intros i [<-|Hi]; [lra|auto].
Qed.
Lemma exit (a b : nat -> R) l : (forall i, In i l -> 0 <= a i) -> (exists i, In i l /\ b i < 0) ->
  exists x i, 0 <= x /\ In i l /\ b i < 0 /\ a i + x * b i = 0 /\ forall j, In j l -> 0 <= a j + x * b j.
Proof.
  induction l as [|k l IH]; intros A [i0 [I0 B0]]; [destruct I0|].
  assert (At : forall i, In i l -> 0 <= a i) by (intros; apply A; now right). assert (Ak := A k (or_introl eq_refl)).
  assert (Only : b k < 0 -> (forall j, In j l -> 0 <= b j) -> exists x i, 0 <= x /\ In i (k :: l) /\ b i < 0 /\ a i + x * b i = 0 /\ forall j, In j (k :: l) -> 0 <= a j + x * b j).
  { intros Bk Bt. exists (a k / - b k), k. assert (0 <= a k / - b k) by (apply Rmult_le_pos; [lra|apply Rlt_le, Rinv_0_lt_compat; lra]).
    assert (E : a k + a k / - b k * b k = 0) by (field; lra). split; [auto|]. split; [now left|]. split; [auto|]. split; [exact E|].
    intros j [<-|Hj]; [lra|]. specialize (At j Hj). specialize (Bt j Hj). assert (0 <= a k / - b k * b j) by (apply Rmult_le_pos; auto). lra. }
  destruct (neg_dec b l) as [Bt|Ex].
  - apply Only; [|exact Bt]. destruct I0 as [<-|I0]; [auto|]. specialize (Bt _ I0). lra.
  - destruct (IH At Ex) as (x & i & X0 & Ii & Bi & E & F).
    destruct (Rle_dec 0 (a k + x * b k)) as [Le|Gt].
    + exists x, i. split; [auto|]. split; [now right|]. split; [auto|]. split; [auto|]. intros j [<-|Hj]; auto.
    + assert (Bk : b k < 0). { apply Rnot_le_lt. intros C. apply Gt. assert (0 <= x * b k) by (apply Rmult_le_pos; auto). lra. }
      set (y := a k / - b k). assert (Y0 : 0 <= y) by (apply Rmult_le_pos; [lra|apply Rlt_le, Rinv_0_lt_compat; lra]).
      assert (Ey : a k + y * b k = 0) by (unfold y; field; lra).
      assert (Yx : y <= x). { apply Rnot_lt_le. intros C. assert ((y - x) * b k < 0) by (apply Ropp_lt_cancel; rewrite Ropp_0, Ropp_mult_distr_r; apply Rmult_lt_0_compat; lra). lra. }
      exists y, k. split; [auto|]. split; [now left|]. split; [auto|]. split; [auto|]. intros j [<-|Hj]; [lra|].
      specialize (At j Hj). specialize (F j Hj). destruct (Rle_dec 0 (b j)).
      * assert (0 <= y * b j) by (apply Rmult_le_pos; auto). lra.
      * assert (0 <= (x - y) * - b j) by (apply Rmult_le_pos; lra). lra.
Qed.

(** * Indices around the polygon *)
Lemma follow_lt n i : (i < n)%nat -> (follow n i < n)%nat.
Proof. unfold follow. intros. destruct (Nat.eqb_spec (S i) n); lia. Qed.
Lemma before n i : (i < n)%nat -> exists p, (p < n)%nat /\ follow n p = i.
Proof.
  intros H. destruct i as [|i]; [exists (n - 1)%nat|exists i]; (split; [lia|]); unfold follow.
  - destruct (Nat.eqb_spec (S (n - 1)) n); lia.
  - destruct (Nat.eqb_spec (S i) n); lia.
Qed.
Fixpoint sumn (g : nat -> R) (n : nat) : R := match n with O => 0 | S m => sumn g m + g m end.
Lemma sumn_ext g h n : (forall i, (i < n)%nat -> g i = h i) -> sumn g n = sumn h n.
Proof. induction n; cbn; intros H; [reflexivity|]. rewrite IHn, H by (auto; lia). reflexivity. Qed.
Lemma sumn_shift g n : sumn (fun i => g (S i)) n + g 0%nat = sumn g (S n).
Proof. induction n; cbn in *; [lra|]. rewrite <- IHn. ring. Qed.
Lemma sumn_sub g h n : sumn (fun i => g i - h i) n = sumn g n - sumn h n.
Proof. induction n; cbn; [ring|]. rewrite IHn. ring. Qed.
Lemma sumn_follow g n : sumn (fun i => g (follow n i)) n = sumn g n.
Proof.
  destruct n; [reflexivity|]. cbn [sumn]. rewrite (sumn_ext _ (fun i => g (S i))).
  - unfold follow. rewrite Nat.eqb_refl. apply sumn_shift.
  - intros i Hi. unfold follow. destruct (Nat.eqb_spec (S i) (S n)); [lia|reflexivity].
Qed.
Lemma sumn_pos g n : (forall i, (i < n)%nat -> 0 <= g i) -> 0 <= sumn g n /\ (sumn g n = 0 -> forall i, (i < n)%nat -> g i = 0).
Proof.
  induction n; cbn; intros H; [split; [lra|intros; lia]|]. destruct IHn as [A B]; [intros; apply H; lia|].
  assert (0 <= g n) by (apply H; lia). split; [lra|]. intros E i Hi. destruct (Nat.eq_dec i n) as [->|]; [lra|apply B; [lra|lia]].
Qed.

(** * Vectors of a plane *)
Ltac v3r := repeat match goal with v : v3 |- _ => destruct v end; unfold vadd, vsub, vscale, v0; cbn; f_equal; ring.
Lemma move1 x p : x = vadd p (vscale 1 (vsub x p)). Proof. v3r. Qed.
Lemma move0 p : vadd p (vscale 1 v0) = p. Proof. v3r. Qed.
Lemma move_sub a x l : vsub a (vadd x (vscale l (vsub a x))) = vscale (1 - l) (vsub a x). Proof. v3r. Qed.
Lemma area_affine n a b p u x : area n a b (vadd p (vscale x u)) = area n a b p + x * vdot n (vcross (vsub b a) u).
Proof. unfold area, vdot, vcross, vadd, vscale, vsub. cbn. ring. Qed.
Lemma cross_in_plane n u v : vdot n n = 1 -> vdot n u = 0 -> vdot n v = 0 -> vcross u v = vscale (vdot n (vcross u v)) n.
Proof.
  intros N U V.
  assert (E : vcross n (vcross n (vcross u v)) = v0).
  { replace (vcross n (vcross u v)) with v0; [unfold vcross, v0; cbn; f_equal; ring|].
    replace (vcross n (vcross u v)) with (vsub (vscale (vdot n v) u) (vscale (vdot n u) v)) by geo. rewrite U, V. geo. }
  replace (vcross n (vcross n (vcross u v))) with (vsub (vscale (vdot n (vcross u v)) n) (vscale (vdot n n) (vcross u v))) in E by geo.
  rewrite N in E. destruct (vcross u v) as [a b c], n as [x y z]. set (k := vdot _ _) in *. clearbody k.
  unfold vsub, vscale, v0 in *. cbn in *. injection E as. f_equal; lra.
Qed.
Lemma plane_basis n e w : vdot n n = 1 -> vdot n e = 0 -> vdot n w = 0 -> vdot n (vcross e w) = 0 -> vscale (vdot e e) w = vscale (vdot w e) e.
Proof.
  intros N E W C. pose proof (cross_in_plane n e w N E W) as X. rewrite C in X.
  assert (Y : vcross (vcross e w) e = v0) by (rewrite X; geo).
  replace (vcross (vcross e w) e) with (vsub (vscale (vdot e e) w) (vscale (vdot w e) e)) in Y by geo.
  destruct (vscale (vdot e e) w) as [a b c], (vscale (vdot w e) e) as [x y z]. unfold vsub, v0 in Y. cbn in Y. injection Y as. f_equal; lra.
Qed.
Lemma vdot_pos v : 0 <= vdot v v.
Proof. unfold vdot. nra. Qed.
Lemma vdot_zero v : vdot v v = 0 -> v = v0.
Proof. destruct v as [x y z]. unfold vdot, v0. cbn. intros. f_equal; nra. Qed.
Lemma vdot_pos0 v : v <> v0 -> 0 < vdot v v.
Proof. intros H. destruct (Rle_lt_or_eq_dec _ _ (vdot_pos v)); [assumption|]. destruct H. now apply vdot_zero. Qed.

(** * Convex hulls *)
Lemma vapp_dot c pts : forall w, length w = length pts -> vdot c (vapp pts w) = rapp (map (vdot c) pts) w.
Proof.
  induction pts as [|p pts IH]; intros [|a w] L; try discriminate L; cbn [vapp rapp map]; [unfold vdot, v0; cbn; ring|].
  rewrite <- IH by (cbn in L; lia). unfold vdot, vadd, vscale. cbn. ring.
Qed.
Lemma rapp_pos l : forall w, length w = length l -> Forall (fun a => 0 <= a) w -> (forall x, In x l -> 0 <= x) -> 0 <= rapp l w.
Proof.
  induction l as [|x l IH]; intros [|a w] L W H; try discriminate L; cbn; [lra|]. inversion_clear W.
  assert (0 <= a * x) by (apply Rmult_le_pos; auto; apply H; now left). assert (0 <= rapp l w) by (apply IH; [cbn in L; lia|auto|intros; apply H; now right]). lra.
Qed.
Lemma rapp_shift k l : forall w, length w = length l -> rapp (map (fun x => x - k) l) w = rapp l w - k * total w.
Proof. induction l as [|x l IH]; intros [|a w] L; try discriminate L; cbn; [ring|]. rewrite IH by (cbn in L; lia). ring. Qed.
Lemma hull_half c o pts x : hull pts x -> (forall p, In p pts -> 0 <= vdot c (vsub p o)) -> 0 <= vdot c (vsub x o).
Proof.
  intros (w & L & W & T & ->) H.
  replace (vdot c (vsub (vapp pts w) o)) with (rapp (map (vdot c) pts) w - vdot c o * total w).
  - rewrite <- rapp_shift by now rewrite map_length. apply rapp_pos; auto; [now rewrite !map_length|].
    intros y Hy. rewrite map_map in Hy. apply in_map_iff in Hy as (p & <- & Hp). specialize (H p Hp). unfold vdot, vsub in *. cbn in *. lra.
  - rewrite <- vapp_dot by exact L. rewrite T. unfold vdot, vsub. cbn. ring.
Qed.
Lemma vapp_unit i : forall pts, (i < length pts)%nat -> exists w, length w = length pts /\ Forall (fun a => 0 <= a) w /\ total w = 1 /\ nth i pts v0 = vapp pts w.
Proof.
  assert (Z : forall pts : list v3, let w := repeat 0 (length pts) in length w = length pts /\ Forall (fun a => 0 <= a) w /\ total w = 0 /\ vapp pts w = v0).
  { induction pts as [|p pts IH]; cbn; [repeat split; auto|]. destruct IH as (A & B & C & D). split; [lia|]. split; [constructor; [lra|auto]|]. split; [lra|]. rewrite D. geo. }
  induction i as [|i IH]; intros [|p pts] H; cbn in H; try lia.
  - destruct (Z pts) as (A & B & C & D). exists (1 :: repeat 0 (length pts)). cbn. split; [lia|]. split; [constructor; [lra|auto]|]. split; [lra|]. rewrite D. geo.
  - destruct (IH pts) as (w & A & B & C & D); [lia|]. exists (0 :: w). cbn. split; [lia|]. split; [constructor; [lra|auto]|]. split; [lra|]. rewrite D. geo.
Qed.
Lemma hull_vertex pts i : (i < length pts)%nat -> hull pts (vertex pts i).
Proof. apply vapp_unit. Qed.
Lemma hull_convex pts x y s : hull pts x -> hull pts y -> 0 <= s <= 1 -> hull pts (vadd x (vscale s (vsub y x))).
Proof.
  intros (w & L & W & T & ->) (w' & L' & W' & T' & ->) S.
  exists (map (fun p => (1 - s) * fst p + s * snd p) (combine w w')).
  assert (G : forall pts w w', length w = length pts -> length w' = length pts -> Forall (fun a => 0 <= a) w -> Forall (fun a => 0 <= a) w' ->
    let c := map (fun p => (1 - s) * fst p + s * snd p) (combine w w') in
    length c = length pts /\ Forall (fun a => 0 <= a) c /\ total c = (1 - s) * total w + s * total w' /\ vadd (vapp pts w) (vscale s (vsub (vapp pts w') (vapp pts w))) = vapp pts c).
  { clear - S. induction pts as [|p pts IH]; intros [|a w] [|a' w'] L L' W W'; try discriminate L; try discriminate L'; cbn.
    - repeat split; auto. ring. geo.
    - inversion_clear W. inversion_clear W'. destruct (IH w w') as (A & B & C & D); auto; cbn in *; try lia. split; [lia|]. split; [constructor; auto; cbn; assert (0 <= (1 - s) * a) by (apply Rmult_le_pos; lra); assert (0 <= s * a') by (apply Rmult_le_pos; lra); lra|].
      split; [rewrite C; ring|]. rewrite <- D. generalize (vapp pts w) (vapp pts w'). geo. }
  destruct (G pts w w' L L' W W') as (A & B & C & D). split; [exact A|]. split; [exact B|]. split; [rewrite C, T, T'; ring|exact D].
Qed.

(** * Convex polygons *)
Section Poly.
Variables (n : v3) (pts : list v3).
Hypothesis U : vdot n n = 1.
Hypothesis TP : turning n pts.
Local Notation P := (vertex pts).
Local Notation m := (length pts).
Local Notation nxt := (follow (length pts)).
Definition side (i : nat) (x : v3) : R := area n (P i) (P (nxt i)) x.
Definition half_planes (x : v3) : Prop := forall i, (i < m)%nat -> 0 <= side i x.
Local Notation e i := (vsub (P (nxt i)) (P i)).

Lemma plane_P i : (i < m)%nat -> vdot n (vsub (P i) (P 0%nat)) = 0.
Proof. destruct TP as (_ & A & _). apply A. Qed.
Lemma plane_vertex x i : in_plane n pts x -> (i < m)%nat -> vdot n (vsub x (P i)) = 0.
Proof. intros H Hi. pose proof (plane_P i Hi) as E. unfold in_plane, vdot, vsub in *. cbn in *. lra. Qed.
Lemma plane_edge i : (i < m)%nat -> vdot n (e i) = 0.
Proof. intros Hi. apply plane_vertex; [|exact Hi]. apply plane_P. now apply follow_lt. Qed.
Lemma turn i : (i < m)%nat -> 0 < vdot n (vcross (e i) (e (nxt i))).
Proof.
  intros Hi. destruct TP as (_ & _ & B). specialize (B i Hi). cbv zeta in B. unfold area in B.
  replace (vdot n (vcross (e i) (e (nxt i)))) with (vdot n (vcross (vsub (P (nxt i)) (P i)) (vsub (P (nxt (nxt i))) (P i)))); [exact B|].
  unfold vdot, vcross, vsub. cbn. ring.
Qed.
Lemma edge_nz i : (i < m)%nat -> 0 < vdot (e i) (e i).
Proof. intros Hi. apply vdot_pos0. intros E. pose proof (turn i Hi) as T. rewrite E in T. unfold vdot, vcross, v0 in T. cbn in T. lra. Qed.
Lemma m3 : (3 <= m)%nat. Proof. apply TP. Qed.
Lemma tight x i : in_plane n pts x -> (i < m)%nat -> half_planes x -> side i x = 0 -> on_segment (P i) (P (nxt i)) x.
Proof.
  intros Hx Hi HP S. set (w := vsub x (P i)). assert (W : vdot n w = 0) by now apply plane_vertex.
  pose proof (plane_basis n (e i) w U (plane_edge i Hi) W S) as B. pose proof (edge_nz i Hi) as Nz.
  set (s := vdot w (e i) / vdot (e i) (e i)). assert (Ew : w = vscale s (e i)).
  { unfold s, Rdiv. rewrite Rmult_comm. replace (vscale (/ vdot (e i) (e i) * vdot w (e i)) (e i)) with (vscale (/ vdot (e i) (e i)) (vscale (vdot w (e i)) (e i))) by (unfold vscale; cbn; f_equal; ring).
    rewrite <- B. destruct w as [a b c]. unfold vscale. cbn. f_equal; field; lra. }
  assert (Ex : x = vadd (P i) (vscale s (e i))) by (rewrite <- Ew; unfold w; clear; generalize (P i); intros [? ? ?]; destruct x; unfold vadd, vsub; cbn; f_equal; ring).
  exists s. split; [|exact Ex]. split.
  - destruct (before m i Hi) as (p & Hp & Ep). pose proof (HP p Hp) as Sp. unfold side, area in Sp. pose proof (turn p Hp) as T. rewrite Ep in *.
    assert (E2 : vdot n (vcross (vsub (P i) (P p)) (vsub x (P p))) = s * vdot n (vcross (vsub (P i) (P p)) (e i))).
    { rewrite Ex. generalize (e i). intros u. unfold vdot, vcross, vsub, vadd, vscale. cbn. ring. }
    rewrite E2 in Sp. apply Rnot_lt_le. intros C. assert (0 < - s * vdot n (vcross (vsub (P i) (P p)) (e i))) by (apply Rmult_lt_0_compat; lra). lra.
  - pose proof (HP (nxt i) (follow_lt _ _ Hi)) as Sn. unfold side, area in Sn. pose proof (turn i Hi) as T.
    assert (E2 : vdot n (vcross (e (nxt i)) (vsub x (P (nxt i)))) = (1 - s) * vdot n (vcross (e i) (e (nxt i)))).
    { rewrite Ex. generalize (P (nxt (nxt i))). intros u. unfold vdot, vcross, vsub, vadd, vscale. cbn. ring. }
    rewrite E2 in Sn. apply Rnot_lt_le. intros C. assert (0 < (s - 1) * vdot n (vcross (e i) (e (nxt i)))) by (apply Rmult_lt_0_compat; lra). lra.
Qed.

Lemma closed u : sumn (fun i => vdot n (vcross (e i) u)) m = 0.
Proof.
  rewrite (sumn_ext _ (fun i => vdot n (vcross (P (nxt i)) u) - vdot n (vcross (P i) u))).
  - rewrite sumn_sub, (sumn_follow (fun i => vdot n (vcross (P i) u))). ring.
  - intros. unfold vdot, vcross, vsub. cbn. ring.
Qed.
Lemma bounded u : vdot n u = 0 -> u <> v0 -> exists i, In i (seq 0 m) /\ vdot n (vcross (e i) u) < 0.
Proof.
  intros Hu Nz. destruct (neg_dec (fun i => vdot n (vcross (e i) u)) (seq 0 m)) as [H|H]; [exfalso|exact H].
  assert (Z : forall i, (i < m)%nat -> vdot n (vcross (e i) u) = 0).
  { apply (sumn_pos (fun i => vdot n (vcross (e i) u))); [intros i Hi; apply H, in_seq; lia|apply closed]. }
  pose proof m3 as M3. assert (H0 : (0 < m)%nat) by lia. pose proof (follow_lt _ _ H0) as H1.
  pose proof (turn 0%nat H0) as T. pose proof (Z 0%nat H0) as Z0. pose proof (Z _ H1) as Z1.
  pose proof (plane_basis n _ u U (plane_edge 0%nat H0) Hu Z0) as B. pose proof (edge_nz 0%nat H0) as E0.
  set (e0 := e 0%nat) in *. set (e1 := e (nxt 0%nat)) in *. clearbody e0 e1.
  assert (Y : vdot n (vcross e1 (vscale (vdot e0 e0) u)) = 0).
  { replace (vdot n (vcross e1 (vscale (vdot e0 e0) u))) with (vdot e0 e0 * vdot n (vcross e1 u)) by (unfold vdot, vcross, vscale; cbn; ring). rewrite Z1. ring. }
  rewrite B in Y. replace (vdot n (vcross e1 (vscale (vdot u e0) e0))) with (- vdot u e0 * vdot n (vcross e0 e1)) in Y by (unfold vdot, vcross, vscale; cbn; ring).
  assert (D : vdot u e0 = 0) by (apply Rmult_integral in Y as [Y|Y]; lra). rewrite D in B. apply Nz.
  destruct u as [a b c]. unfold vscale, v0 in *. cbn in B. injection B as Ba Bb Bc. rewrite Rmult_0_l in *. f_equal;
   match goal with |- ?v = 0 => match goal with Q : _ * v = _ |- _ => apply Rmult_integral in Q as [Q|Q]; [lra|exact Q] end end.
Qed.

Hypothesis CP : forall i j, (i < m)%nat -> (j < m)%nat -> 0 <= area n (P i) (P (nxt i)) (P j).
Lemma vertex_half j : (j < m)%nat -> half_planes (P j).
Proof. intros Hj i Hi. now apply CP. Qed.

Lemma hull_plane x : hull pts x -> in_plane n pts x.
Proof.
  intros H. unfold in_plane. apply Rle_antisym.
  - assert (A : 0 <= vdot (vopp n) (vsub x (P 0%nat))).
    { apply (hull_half _ _ _ _ H). intros p Hp. apply In_nth with (d := v0) in Hp as (j & Hj & <-). pose proof (plane_P j Hj) as E. unfold vertex, vdot, vsub, vopp in *. cbn in *. lra. }
    unfold vdot, vopp, vsub in *. cbn in *. lra.
  - apply (hull_half _ _ _ _ H). intros p Hp. apply In_nth with (d := v0) in Hp as (j & Hj & <-). rewrite (plane_P j Hj : vdot n (vsub (nth j pts v0) _) = 0). lra.
Qed.
Lemma side_dot i x : side i x = vdot (vcross n (e i)) (vsub x (P i)).
Proof. unfold side, area, vdot, vcross, vsub. cbn. ring. Qed.
Lemma hull_halves x : hull pts x -> half_planes x.
Proof.
  intros H i Hi. rewrite side_dot. apply (hull_half _ _ _ _ H). intros p Hp. apply In_nth with (d := v0) in Hp as (j & Hj & <-). rewrite <- side_dot. now apply (vertex_half j).
Qed.
Lemma seg_hull i x : (i < m)%nat -> on_segment (P i) (P (nxt i)) x -> hull pts x.
Proof. intros Hi (s & S & ->). apply hull_convex; auto; apply hull_vertex; auto. now apply follow_lt. Qed.
Lemma side_move i p u x : side i (vadd p (vscale x u)) = side i p + x * vdot n (vcross (e i) u).
Proof. apply area_affine. Qed.

Lemma halves_hull x : in_plane n pts x -> half_planes x -> hull pts x.
Proof.
  intros Hx HP. pose proof m3 as M3. assert (H0 : (0 < m)%nat) by lia. set (o := P 0%nat). set (u := vsub x o).
  assert (Ex : x = vadd o (vscale 1 u)) by apply move1.
  destruct (Req_EM_T (vdot u u) 0) as [Z|Nz].
  - apply vdot_zero in Z. rewrite Ex, Z, move0. now apply hull_vertex.
  - assert (Hu : u <> v0) by (intros E; apply Nz; rewrite E; unfold vdot, v0; cbn; ring).
    destruct (exit (fun i => side i o) (fun i => vdot n (vcross (e i) u)) (seq 0 m)) as (l & i & L0 & Ii & Bi & Ti & F).
    + intros j Hj. apply in_seq in Hj. apply (vertex_half 0%nat H0). lia.
    + now apply bounded.
    + apply in_seq in Ii. assert (Hi : (i < m)%nat) by lia.
      set (y := vadd o (vscale l u)). assert (Sy : forall j, side j y = side j o + l * vdot n (vcross (e j) u)) by (intros; apply side_move).
      assert (Hy : hull pts y).
      { apply (seg_hull i); auto. apply tight; auto.
        - unfold in_plane. fold o. replace (vdot n (vsub y o)) with (l * vdot n u) by (unfold y, vdot, vsub, vadd, vscale; cbn; ring). unfold in_plane in Hx. fold o u in Hx. rewrite Hx. ring.
        - intros j Hj. rewrite Sy. apply F, in_seq. lia.
        - rewrite Sy. exact Ti. }
      assert (L1 : 1 <= l). { pose proof (HP i Hi) as S1. rewrite Ex, side_move in S1. apply Rnot_lt_le. intros C. assert (0 < (1 - l) * - vdot n (vcross (e i) u)) by (apply Rmult_lt_0_compat; lra). lra. }
      replace x with (vadd o (vscale (/ l) (vsub y o))).
      * apply hull_convex; [now apply hull_vertex|exact Hy|]. split; [apply Rlt_le, Rinv_0_lt_compat; lra|]. rewrite <- Rinv_1. apply Rinv_le_contravar; lra.
      * rewrite Ex. unfold y. generalize o u. intros. destruct o0, u0. unfold vadd, vscale, vsub. cbn. f_equal; field; lra.
Qed.

(** leaving the polygon *)
Lemma leave a x : in_plane n pts a -> half_planes x -> in_plane n pts x -> ~ half_planes a ->
  exists i y, (i < m)%nat /\ side i a < 0 /\ on_segment (P i) (P (nxt i)) y /\ vdot (vsub a y) (vsub a y) <= vdot (vsub a x) (vsub a x).
Proof.
  intros Ha HP Hx NH. set (u := vsub a x). assert (Ea : a = vadd x (vscale 1 u)) by apply move1.
  destruct (neg_dec (fun i => side i a) (seq 0 m)) as [C|(k & Hk & Sk)]; [exfalso; apply NH; intros i Hi; apply C, in_seq; lia|]. apply in_seq in Hk.
  assert (Sa : forall j, side j a = side j x + 1 * vdot n (vcross (e j) u)) by (intros; rewrite Ea at 1; apply side_move).
  destruct (exit (fun i => side i x) (fun i => vdot n (vcross (e i) u)) (seq 0 m)) as (l & i & L0 & Ii & Bi & Ti & F).
  - intros j Hj. apply in_seq in Hj. apply HP. lia.
  - exists k. split; [apply in_seq; lia|]. pose proof (HP k ltac:(lia)). rewrite Sa in Sk. lra.
  - apply in_seq in Ii. assert (Hi : (i < m)%nat) by lia.
    assert (L1 : l < 1). { pose proof (F k ltac:(apply in_seq; lia)) as Fk. pose proof (HP k ltac:(lia)). rewrite Sa in Sk. apply Rnot_le_lt. intros C. assert (0 <= (l - 1) * - vdot n (vcross (e k) u)) by (apply Rmult_le_pos; lra). lra. }
    set (y := vadd x (vscale l u)). assert (Sy : forall j, side j y = side j x + l * vdot n (vcross (e j) u)) by (intros; apply side_move).
    exists i, y. split; [exact Hi|]. split; [|split].
    + rewrite Sa. assert (0 < (1 - l) * - vdot n (vcross (e i) u)) by (apply Rmult_lt_0_compat; lra). lra.
    + apply tight; auto.
      * unfold in_plane in *. replace (vdot n (vsub y (P 0%nat))) with ((1 - l) * vdot n (vsub x (P 0%nat)) + l * vdot n (vsub a (P 0%nat))) by (unfold y, u, vdot, vsub, vadd, vscale; cbn; ring). rewrite Ha, Hx. ring.
      * intros j Hj. rewrite Sy. apply F, in_seq. lia.
      * rewrite Sy. exact Ti.
    + replace (vsub a y) with (vscale (1 - l) u) by (symmetry; apply move_sub). replace (vdot (vscale (1 - l) u) (vscale (1 - l) u)) with ((1 - l) * (1 - l) * vdot u u) by (unfold vdot, vscale; cbn; ring).
      pose proof (vdot_pos u). assert ((1 - l) * (1 - l) <= 1 * 1) by (apply Rmult_le_compat; lra). rewrite <- (Rmult_1_l (vdot u u)) at 2. apply Rmult_le_compat_r; lra.
Qed.
End Poly.
