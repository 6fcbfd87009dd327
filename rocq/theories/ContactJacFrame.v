(** Contacts: frames of the surfaces, value of the functions. *)
From Coq Require Import Reals List Bool Arith Lra Lia.
From Verif Require Import ContactModel ContactMain LogModel LogSpec RotProofs LogMain LogAxis GTModel GTSpec GTProofs.
From Verif Require Import Geo GeoLemmas Rigid ShapeModel ShapeSpec ShapeGeo ShapeProofs ShapeMain ShapeCases ContactNear ContactJacModel ContactJacSpec ContactJacProofs ContactJacMain ContactJacCont.
Import ListNotations.
Local Open Scope R_scope.
Local Notation norm := Rigid.norm.
Local Ltac vr := apply v3_eq; gcbn; ring.

(** * Frames *)
Lemma rigid_place k j : rigid (joint_at k j) -> rotation (rot (joint_place j k)).
Proof. destruct j; cbn; [auto|intros _; apply rotation_1]. Qed.
Lemma turned_place k j v : turned (joint_at k j) v = mulv (rot (joint_place j k)) v.
Proof. destruct j; cbn [joint_at option_map turned joint_place rot sid]; [reflexivity|symmetry; apply mul1v]. Qed.
Lemma act_place k j p : act (joint_place j k) p = placed (joint_at k j) p.
Proof. destruct j; cbn [joint_at option_map placed joint_place]; [reflexivity|]. unfold act, sid. cbn [rot tra]. rewrite mul1v. apply vadd_0. Qed.
Lemma unit_normalize v : 0 < vdot v v -> normalize v = unit v.
Proof. apply normalize_E. Qed.
Lemma cols_x a b c : mulv (cols a b c) (V3 1 0 0) = a.
Proof. unfold cols, mulv, mtr, vdot. cbn. vr. Qed.
Lemma cols_z a b c : mulv (cols a b c) (V3 0 0 1) = c.
Proof. unfold cols, mulv, mtr, vdot. cbn. vr. Qed.
Lemma edge_nonzero n pts : convex_polygon n pts -> 0 < vdot (vsub (vertex pts 1) (vertex pts 0)) (vsub (vertex pts 1) (vertex pts 0)).
Proof.
  intros [T _]. assert (L := proj1 T). pose proof (edge_nz n pts T 0%nat ltac:(lia)) as E. unfold follow in E. destruct (Nat.eqb_spec 1 (length pts)); [lia|exact E].
Qed.
Lemma shape_frame s sh : surface s -> create (snd s) = Some sh -> rotation (rot (s_M sh)) /\
  (forall n, convex_polygon n (snd s) -> mulv (rot (s_M sh)) (V3 1 0 0) = unit n) /\
  ((2 <= length (snd s))%nat -> mulv (rot (s_M sh)) (V3 0 0 1) = unit (vsub (vertex (snd s) 1) (vertex (snd s) 0))) /\
  (length (snd s) = 1%nat -> rot (s_M sh) = m1).
Proof.
  intros [(_ & n & P)|[(_ & p & E)|(_ & p & q & N & E)]] C.
  - destruct (create_polygon _ _ P) as (s0 & C0 & _ & _ & _ & _ & Rt & _). rewrite C in C0. injection C0 as <-. split; [exact Rt|].
    assert (L := proj1 (proj1 P)). split; [|split; [|lia]].
    + intros n' P'. destruct (create_polygon _ _ P') as (s1 & C1 & _ & _ & _ & _ & _ & X & _). rewrite C in C1. injection C1 as <-. rewrite X. apply unit_normalize, (poly_nz _ _ P').
    + intros _. pose proof (edge_nonzero _ _ P) as Z. rewrite <- (unit_normalize _ Z). destruct (snd s) as [|p [|q [|r l]]]; cbn in L; try lia. unfold create, init in C. injection C as <-. cbn [s_M rot]. rewrite cols_z. cbn [seq map nth]. unfold edge, nx. now rewrite Nat.mod_small by (cbn; lia).
  - rewrite E in *. destruct (one_point p) as (s0 & C0 & Rt & _). rewrite C in C0. injection C0 as <-. split; [exact Rt|]. split; [|split].
    + intros n [[L _] _]. cbn in L. lia.
    + cbn. lia.
    + intros _. unfold create, init in C. injection C as <-. reflexivity.
  - rewrite E in *. destruct (two_points p q N) as (s0 & C0 & Rt & _ & _ & _ & Z). rewrite C in C0. injection C0 as <-. split; [exact Rt|]. split; [|split].
    + intros n [[L _] _]. cbn in L. lia.
    + intros _. cbn [vertex nth]. unfold vertex. cbn [nth]. unfold unit. rewrite <- Z at 2.
      assert (W : 0 < norm (vsub q p)). { apply norm_gt0, vdot_pos0. intros H. apply N. symmetry. now apply sub_zero. }
      generalize (mulv (rot (s_M sh)) (V3 0 0 1)). set (w := norm (vsub q p)) in *. clearbody w. intros. apply v3_eq; gcbn; field; lra.
    + cbn. lia.
Qed.
Lemma frame_made k s sh : surface s -> placed_well k s -> create (snd s) = Some sh -> frame k s (comp (joint_place (fst s) k) (s_M sh)).
Proof.
  intros S W C. destruct (shape_frame s sh S C) as (Rt & X & Z & I). destruct (create_pts _ _ C) as (_ & _ & EC & ET). pose proof (rigid_place _ _ W) as RJ.
  unfold frame, comp. cbn [rot tra]. split; [now apply rotation_mul|]. split; [|split; [|split]].
  - rewrite act_place, ET, EC. symmetry. apply mean_placed; [exact W|]. intros H. rewrite H in C. discriminate C.
  - intros n P. rewrite mulvA, (X n P). symmetry. apply turned_place.
  - intros L. rewrite mulvA, (Z L). symmetry. apply turned_place.
  - intros L. rewrite (I L). apply mulm1.
Qed.
Lemma over_surface f : polygon f -> surface (over_turned f).
Proof. intros (J & n & P). left. split; [exact J|]. exists (vopp n). now apply rev_polygon. Qed.
Lemma two_axes a b : rotation a -> rotation b -> mulv a (V3 1 0 0) = mulv b (V3 1 0 0) -> mulv a (V3 0 0 1) = mulv b (V3 0 0 1) -> a = b.
Proof.
  intros Ra Rb X Z. assert (Y : mulv a (V3 0 1 0) = mulv b (V3 0 1 0)).
  { assert (E : V3 0 1 0 = vcross (V3 0 0 1) (V3 1 0 0)) by (unfold vcross; cbn; f_equal; ring). rewrite E, !rotation_cross by assumption. now rewrite X, Z. }
  destruct a as [[? ? ?] [? ? ?] [? ? ?]], b as [[? ? ?] [? ? ?] [? ? ?]]. cvin X. cvin Y. cvin Z. injection X as. injection Y as. injection Z as. f_equal; f_equal; lra.
Qed.
Lemma frame_unique k s A B : polygon s \/ single s -> frame k s A -> frame k s B -> A = B.
Proof.
  intros [(_ & n & P)|(_ & p & E)] (RA & TA & XA & ZA & IA) (RB & TB & XB & ZB & IB).
  - assert (L := proj1 (proj1 P)). destruct A as [ra ta], B as [rb tb]. cbn [rot tra] in *. f_equal; [|congruence]. apply two_axes; try assumption.
    + now rewrite (XA n P), (XB n P).
    + rewrite ZA, ZB by lia. reflexivity.
  - destruct A as [ra ta], B as [rb tb]. cbn [rot tra] in *. f_equal; [|congruence]. rewrite IA, IB by (now rewrite E). reflexivity.
Qed.

(** * The foot of the center *)
Lemma mean_rev pts : mean (rev pts) = mean pts.
Proof.
  unfold mean. rewrite rev_length. f_equal. rewrite <- (vapp_rev pts) by apply repeat_length. f_equal.
  assert (G : forall m, rev (repeat 1 m) = repeat 1 m) by (induction m as [|m IH]; [reflexivity|]; cbn [repeat rev]; rewrite IH; clear; induction m; cbn; [reflexivity|now rewrite IHm]).
  symmetry. apply G.
Qed.
Lemma side_affine_mean n pts : convex_polygon n pts -> ~ boundary pts (mean pts).
Proof.
  intros P (i & Hi & l & Hl & E). destruct P as [T C]. set (m := length pts) in *.
  assert (D : forall x, area n (vertex pts i) (vertex pts (follow m i)) x = vdot (vcross n (vsub (vertex pts (follow m i)) (vertex pts i))) (vsub x (vertex pts i))).
  { intros x. apply (side_dot n pts i x). }
  set (v := vcross n (vsub (vertex pts (follow m i)) (vertex pts i))) in *. set (p := vertex pts i) in *.
  assert (Z : vdot v (vsub (mean pts) p) = 0).
  { rewrite E. replace (vsub (vadd p (vscale l (vsub (vertex pts (follow m i)) p))) p) with (vscale l (vsub (vertex pts (follow m i)) p)) by (generalize (vertex pts (follow m i)) p; intros; vr).
    unfold v. fold p. generalize (vsub (vertex pts (follow m i)) p). intros w. unfold vdot, vcross, vscale. cbn. ring. }
  assert (S : rapp (map (fun q => vdot v (vsub q p)) pts) (repeat 1 m) = INR m * vdot v (vsub (mean pts) p)).
  { unfold mean. fold m. assert (Pm : 0 < INR m) by (apply lt_0_INR; lia).
    transitivity (vdot v (vapp pts (repeat 1 m)) - INR m * vdot v p).
    - unfold m. generalize v p. clear. intros v p. induction pts as [|q pts IH]; [cbn; unfold vdot; cbn; ring|]. cbn [length repeat map rapp vapp]. rewrite IH, S_INR. generalize (vapp pts (repeat 1 (length pts))). intros. unfold vdot, vsub, vadd, vscale. cbn. ring.
    - generalize (vapp pts (repeat 1 m)). intros w. unfold vdot, vsub, vscale. cbn. field. lra. }
  rewrite Z, Rmult_0_r in S.
  assert (Pos : forall q, In q pts -> 0 <= vdot v (vsub q p)).
  { intros q Iq. apply (In_nth _ _ v0) in Iq as (j & Hj & <-). rewrite <- D. apply C; assumption. }
  assert (All : forall q, In q pts -> vdot v (vsub q p) = 0).
  { revert S Pos. unfold m. generalize v p. clear. intros v p. induction pts as [|q pts IH]; [intros _ _ q []|]. cbn [length repeat map rapp]. intros S Pos.
    assert (Q : 0 <= vdot v (vsub q p)) by (apply Pos; now left).
    assert (Rp : 0 <= rapp (map (fun q => vdot v (vsub q p)) pts) (repeat 1 (length pts))).
    { apply rapp_pos; [now rewrite repeat_length, map_length|apply Forall_forall; intros x Hx; apply repeat_spec in Hx; lra|]. intros x Hx. apply in_map_iff in Hx as (q' & <- & Hq). apply Pos. now right. }
    intros q' [<-|Hq]; [lra|]. apply IH; [lra|intros; apply Pos; now right|exact Hq]. }
  destruct T as (L & _ & T). specialize (T i Hi). cbv zeta in T. fold m p in T. rewrite D in T. rewrite All in T; [lra|]. apply nth_In. fold m. apply follow_lt, follow_lt. exact Hi.
Qed.
Lemma hull_dec n pts a : convex_polygon n pts -> in_plane n pts a -> hull pts a \/ ~ hull pts a.
Proof. intros P I. destruct (create_polygon _ _ P) as (s & C & _). destruct (inside_right _ _ _ _ P C I) as ([|] & _ & B); [left; now apply B|right; intros H; apply B in H; discriminate H]. Qed.
Lemma norm_same x : norm (vsub x x) = 0.
Proof. unfold Rigid.norm. replace (vdot (vsub x x) (vsub x x)) with 0; [apply sqrt_0|]. unfold vdot, vsub. cbn. ring. Qed.
Lemma norm_zero v : norm v = 0 -> v = v0.
Proof. intros H. apply vdot_zero. rewrite <- norm_sq, H. ring. Qed.
Lemma strictly_in n pts a r : convex_polygon n pts -> in_plane n pts a -> signed_distance pts a r -> (r < 0 <-> hull pts a /\ ~ boundary pts a).
Proof.
  intros P I (S & D & _). split.
  - intros Neg. split.
    + destruct (hull_dec _ _ _ P I) as [H|H]; [exact H|]. apply S in H. lra.
    + intros B. assert (D0 : distance_to (boundary pts) a 0) by (split; [exists a; split; [exact B|apply norm_same]|intros; apply norm_ge0]).
      pose proof (distance_unique _ _ _ _ D D0) as E. rewrite Rabs_left in E; lra.
  - intros [H B]. destruct (Rtotal_order r 0) as [L|[L|L]]; [exact L| |apply S in L; contradiction].
    exfalso. apply B. destruct D as [(x & Bx & Nx) _]. rewrite L, Rabs_R0 in Nx. apply norm_zero, sub_zero in Nx. now subst x.
Qed.
Lemma along n pts u l a : convex_polygon n pts -> in_plane n pts (vadd u (vscale l n)) -> in_plane n pts a -> (exists l', a = vadd u (vscale l' n)) -> vadd u (vscale l n) = a.
Proof.
  intros P H1 H2 (l' & ->). pose proof (poly_nz _ _ P) as Z. unfold in_plane in *. assert (E : (l - l') * vdot n n = 0) by (unfold vdot, vsub, vadd, vscale in *; cbn in *; lra).
  apply Rmult_integral in E as [E|E]; [|lra]. assert (l = l') by lra. now subst l'.
Qed.

Section G.
Variables (fl ob : list (option nat * list v3)) (radius : list surf -> R) (c : contact).
Hypothesis Made : create_contact fl ob radius = Done c.
Hypothesis Fl : Forall polygon fl.
Notation dp k := (floor_dp (fs c k) (os c k) nowhere).
Notation dn k := (floor_dn (fs c k) (os c k) nowhere).

Lemma foot k j i f o s : well fl ob k -> nth_error fl j = Some f -> nth_error ob i = Some o -> nth_error (floors c) j = Some (Surf (fst f) s) -> create (rev (snd f)) = Some s ->
  let a := vsub (seen k f o) (vscale (dn k j i) (s_N s)) in
  (forall n, convex_polygon n (snd f) -> exists l, placed (joint_at k (fst f)) a = vadd (mean (world k o)) (vscale l (turned (joint_at k (fst f)) n))) /\
  (forall n l, convex_polygon n (snd f) -> hull (world k f) (vadd (mean (world k o)) (vscale l (turned (joint_at k (fst f)) n))) -> vadd (mean (world k o)) (vscale l (turned (joint_at k (fst f)) n)) = placed (joint_at k (fst f)) a).
Proof.
  intros W Ef Eo Es Cs a. assert (Wf : placed_well k f) by (apply W; left; now apply nth_error_In in Ef).
  assert (Wo : placed_well k o) by (apply W; right; now apply nth_error_In in Eo).
  assert (Pl : forall l v, placed (joint_at k (fst f)) (vadd (seen k f o) (vscale l v)) = vadd (mean (world k o)) (vscale l (turned (joint_at k (fst f)) v))).
  { intros l v. assert (Pu := unplaced_move (joint_at k (fst f)) (mean (world k o)) (- l) v Wf). fold (seen k f o) in Pu.
    replace (vsub (mean (world k o)) (vscale (- l) (turned (joint_at k (fst f)) v))) with (vadd (mean (world k o)) (vscale l (turned (joint_at k (fst f)) v))) in Pu by (generalize (mean (world k o)) (turned (joint_at k (fst f)) v); intros; vr).
    replace (vadd (seen k f o) (vscale l v)) with (vsub (seen k f o) (vscale (- l) v)) by (generalize (seen k f o); intros; vr). rewrite <- Pu. apply placed_un, Wf. }
  assert (Al : forall n, convex_polygon n (snd f) -> exists l', a = vadd (seen k f o) (vscale l' n)).
  { intros n P. pose proof (rev_polygon _ _ P) as P'. destruct (create_polygon _ _ P') as (s0 & E0 & _ & N0 & _). rewrite Cs in E0. injection E0 as <-.
    pose proof (poly_nz _ _ P) as Z. rewrite (normalize_opp n Z), (normalize_E n Z) in N0. exists (dn k j i * / norm n). unfold a. rewrite N0. generalize (seen k f o) (dn k j i) (/ norm n). intros. vr. }
  split.
  - intros n P. destruct (Al n P) as (l & El). exists l. now rewrite <- Pl, <- El.
  - intros n l P H. rewrite <- Pl in H |- *. f_equal. unfold world in H. rewrite placed_hull in H by exact Wf.
    destruct (pair_at fl ob radius c Made Fl k j i f o s Wf Wo Ef Eo Es Cs n P) as (_ & _ & Ip & _). cbv zeta in Ip. fold a in Ip.
    apply (along n (snd f)); [exact P|apply (hull_plane _ _ (proj1 P)), H|exact Ip|apply (Al n P)].
Qed.
Lemma over_iff k j i f o : well fl ob k -> nth_error fl j = Some f -> nth_error ob i = Some o -> (dp k j i < 0 <-> over k f o).
Proof.
  intros W Ef Eo. destruct (floor_at fl ob radius c Made Fl k j f W Ef) as (Wf & (n & P) & s & Es & Cs).
  assert (Wo : placed_well k o) by (apply W; right; now apply nth_error_In in Eo).
  destruct (pair_at fl ob radius c Made Fl k j i f o s Wf Wo Ef Eo Es Cs n P) as (_ & Sd & Ip & _). cbv zeta in Sd, Ip.
  destruct (foot k j i f o s W Ef Eo Es Cs) as (F1 & F2). cbv zeta in F1, F2.
  set (a := vsub (seen k f o) (vscale (dn k j i) (s_N s))) in *. rewrite (strictly_in n (snd f) a (dp k j i) P Ip Sd). split.
  - intros [H B]. destruct (F1 n P) as (l & El). exists n, l. split; [exact P|]. cbv zeta. rewrite <- El. unfold world. rewrite placed_hull, placed_boundary by exact Wf. auto.
  - intros (n' & l & P1 & H & B). cbv zeta in H, B. pose proof (F2 n' l P1 H) as Ea. rewrite Ea in H, B. unfold world in H, B. rewrite placed_hull in H by exact Wf. rewrite placed_boundary in B by exact Wf. auto.
Qed.
Lemma gather_in {A B} (g : A -> option (list B)) l : (forall x, In x l -> exists r, g x = Some r) -> exists r, gather g l = Some r /\ forall y, In y r <-> exists x r', In x l /\ g x = Some r' /\ In y r'.
Proof.
  induction l as [|x l IH]; intros H; [exists []; split; [reflexivity|]; intros y; split; [intros []|intros (x & r' & [] & _)]|].
  destruct (H x (or_introl eq_refl)) as (r & Er). destruct IH as (r' & Er' & I); [intros; apply H; now right|]. exists (r ++ r'). cbn. rewrite Er, Er'. split; [reflexivity|].
  intros y. rewrite in_app_iff, I. split.
  - intros [Y|(x' & q & X & Q & Y)]; [exists x, r; auto|exists x', q; auto].
  - intros (x' & q & [->|X] & Q & Y); [left; rewrite Er in Q; now injection Q as ->|right; eauto].
Qed.
(** contact points *)
Lemma points_at k m : well fl ob k -> exists l, computeContactPoints c k m = Some l /\ forall F, In F l <->
  exists f o n, In f fl /\ In o ob /\ convex_polygon n (snd f) /\ F = Force (fst o) (snd o) (vopp (unit n)) (fst f) /\
    (exists h, hull (world k f) (vadd (mean (world k o)) (vscale h (turned (joint_at k (fst f)) n)))) /\
    vdot (turned (joint_at k (fst f)) (unit n)) (vsub (mean (world k f)) (mean (world k o))) < m.
Proof.
  intros W. destruct (made fl ob radius c Made Fl) as (LF & LO & HF & HO).
  assert (Cell : forall j i f o, nth_error fl j = Some f -> nth_error ob i = Some o -> exists sf so l, nth_error (floors c) j = Some (Surf (fst f) sf) /\ nth_error (objects c) i = Some (Surf (fst o) so) /\
    force_of k m (Surf (fst o) so) (Surf (fst f) sf) = Some l /\ forall F, In F l <-> exists n, convex_polygon n (snd f) /\ F = Force (fst o) (snd o) (vopp (unit n)) (fst f) /\
    (exists h, hull (world k f) (vadd (mean (world k o)) (vscale h (turned (joint_at k (fst f)) n)))) /\ vdot (turned (joint_at k (fst f)) (unit n)) (vsub (mean (world k f)) (mean (world k o))) < m).
  { intros j i f o Ef Eo. destruct (floor_at fl ob radius c Made Fl k j f W Ef) as (Wf & (n & P) & s & Es & Cs).
    assert (Wo : placed_well k o) by (apply W; right; now apply nth_error_In in Eo).
    destruct (pair_at fl ob radius c Made Fl k j i f o s Wf Wo Ef Eo Es Cs n P) as (Ed & _ & Ip & (so & Eso & Cso & _ & Ed' & Ei) & _). cbv zeta in Ed, Ip, Ei.
    destruct (foot k j i f o s W Ef Eo Es Cs) as (F1 & F2). cbv zeta in F1, F2. set (a := vsub (seen k f o) (vscale (dn k j i) (s_N s))) in *.
    exists s, so. unfold force_of. rewrite Ei, Ed'.
    pose proof (rev_polygon _ _ P) as P'. destruct (create_polygon _ _ P') as (s0 & E0 & _ & N0 & C0 & _). rewrite Cs in E0. injection E0 as <-.
    assert (Ia : in_plane (vopp n) (rev (snd f)) a).
    { unfold in_plane in *. destruct P as [(L & PP & _) _]. cbv zeta in PP. rewrite vertex_rev by lia. specialize (PP (length (snd f) - 1 - 0)%nat ltac:(lia)). unfold vdot, vsub, vopp in *. cbn in *. lra. }
    destruct (inside_right _ _ _ a P' Cs Ia) as (b & Eb & B). rewrite Eb, hull_rev_iff in *.
    assert (Foot : forall n, convex_polygon n (snd f) -> (b = true <-> exists h, hull (world k f) (vadd (mean (world k o)) (vscale h (turned (joint_at k (fst f)) n))))).
    { intros n' P1. rewrite B. split.
      - intros H. destruct (F1 n' P1) as (l & El). exists l. rewrite <- El. unfold world. now rewrite placed_hull.
      - intros (h & H). pose proof (F2 n' h P1 H) as Ea. rewrite Ea in H. unfold world in H. now rewrite placed_hull in H. }
    assert (Un : forall n', convex_polygon n' (snd f) -> s_N s = vopp (unit n')).
    { intros n' P1. destruct (create_polygon _ _ (rev_polygon _ _ P1)) as (s1 & E1 & _ & N1 & _). rewrite Cs in E1. injection E1 as <-. rewrite N1, normalize_opp by (apply (poly_nz _ _ P1)). f_equal. apply unit_normalize, (poly_nz _ _ P1). }
    assert (Dn : forall n', convex_polygon n' (snd f) -> vdot (turned (joint_at k (fst f)) (unit n')) (vsub (mean (world k f)) (mean (world k o))) = dn k j i).
    { intros n' P1. rewrite Ed. destruct (create_pts _ _ Cs) as (_ & _ & Cm & _).
      assert (Em : mean (world k f) = placed (joint_at k (fst f)) (s_C s)).
      { unfold world. rewrite mean_placed; [|exact Wf|intros Z; destruct P1 as [[L _] _]; rewrite Z in L; cbn in L; lia]. rewrite Cm. f_equal. symmetry. apply mean_rev. }
      rewrite Em. rewrite <- (placed_un (joint_at k (fst f)) Wf (mean (world k o))), placed_sub, turned_dot by exact Wf. fold (seen k f o).
      rewrite (Un n' P1). generalize (unit n') (s_C s) (seen k f o). intros. unfold vdot, vsub, vopp. cbn. ring. }
    destruct (create_pts _ _ Cso) as (Eps & _).
    destruct b.
    - destruct (Rlt_dec (dn k j i) m) as [L|L]; eexists; (split; [exact Es|]); (split; [exact Eso|]); (split; [reflexivity|]); intros F; cbn [In sj ss]; split.
      + intros [<-|[]]. exists n. split; [exact P|]. rewrite Eps, (Un n P). split; [reflexivity|]. split; [now apply (Foot n P)|]. now rewrite (Dn n P).
      + intros (n' & P1 & -> & _ & _). left. now rewrite Eps, (Un n' P1).
      + intros [].
      + intros (n' & P1 & _ & _ & L'). rewrite (Dn n' P1) in L'. contradiction.
    - eexists. split; [exact Es|]. split; [exact Eso|]. split; [reflexivity|]. intros F. split; [intros []|]. intros (n' & P1 & _ & Hh & _). apply (Foot n' P1) in Hh. discriminate Hh. }
  assert (Find : forall j sf, nth_error (floors c) j = Some sf -> exists f, nth_error fl j = Some f). { intros j sf E. apply get. rewrite <- LF. apply nth_error_Some. congruence. }
  assert (Find' : forall i so, nth_error (objects c) i = Some so -> exists o, nth_error ob i = Some o). { intros i so E. apply get. rewrite <- LO. apply nth_error_Some. congruence. }
  assert (Inner : forall so, In so (objects c) -> exists l, gather (force_of k m so) (floors c) = Some l /\ forall F, In F l <-> exists sf r, In sf (floors c) /\ force_of k m so sf = Some r /\ In F r).
  { intros so Iso. apply In_nth_error in Iso as (i & Ei). destruct (Find' i so Ei) as (o & Eo). apply gather_in. intros sf Isf. apply In_nth_error in Isf as (j & Ej). destruct (Find j sf Ej) as (f & Ef).
    destruct (Cell j i f o Ef Eo) as (sf' & so' & r & E1 & E2 & E3 & _). rewrite Ej in E1. injection E1 as ->. rewrite Ei in E2. injection E2 as ->. eauto. }
  destruct (gather_in (fun o => gather (force_of k m o) (floors c)) (objects c)) as (l & El & Il). { intros so Iso. destruct (Inner so Iso) as (r & Er & _). eauto. }
  exists l. split; [exact El|]. intros F. rewrite Il. split.
  - intros (so & r & Iso & Er & IF). destruct (Inner so Iso) as (r' & Er' & Ir). rewrite Er in Er'. injection Er' as <-. apply Ir in IF as (sf & q & Isf & Eq & IF).
    apply In_nth_error in Iso as (i & Ei). apply In_nth_error in Isf as (j & Ej). destruct (Find' i so Ei) as (o & Eo). destruct (Find j sf Ej) as (f & Ef).
    destruct (Cell j i f o Ef Eo) as (sf' & so' & r' & E1 & E2 & E3 & I3). rewrite Ej in E1. injection E1 as ->. rewrite Ei in E2. injection E2 as ->. rewrite Eq in E3. injection E3 as ->. apply I3 in IF as (n & P & EF & Hh & L).
    exists f, o, n. split; [now apply nth_error_In in Ef|]. split; [now apply nth_error_In in Eo|]. auto.
  - intros (f & o & n & If & Io & P & EF & Hh & L). apply In_nth_error in If as (j & Ef). apply In_nth_error in Io as (i & Eo).
    destruct (Cell j i f o Ef Eo) as (sf & so & r & E1 & E2 & E3 & I3). apply nth_error_In in E1. apply nth_error_In in E2.
    destruct (Inner (Surf (fst o) so) E2) as (r' & Er' & Ir). exists (Surf (fst o) so), r'. split; [exact E2|]. split; [exact Er'|]. apply Ir. exists (Surf (fst f) sf), r. split; [exact E1|]. split; [exact E3|]. apply I3. exists n. auto.
Qed.
End G.
