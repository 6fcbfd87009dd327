(** Contacts: a square turned over above a square floor; cases that fail. *)
From Coq Require Import Reals List Bool Arith Lra Lia.
From Verif Require Import ContactModel ContactMain LogModel LogSpec RotProofs LogMain LogAxis GTModel GTSpec GTProofs.
From Verif Require Import Geo GeoLemmas Rigid ShapeModel ShapeSpec ShapeGeo ShapeProofs ShapeMain ShapeCases ContactNear ContactJacModel ContactJacSpec ContactJacProofs ContactJacMain ContactJacCont ContactJacFrame ContactJacThm.
Import ListNotations.
Local Open Scope R_scope.
Local Notation norm := Rigid.norm.

(** the floor, the object, its joint that slides at height [h] *)
Definition ground : option nat * list v3 := (None, square).
Definition foot_sole : option nat * list v3 := (Some 1%nat, square).
Definition flip : Geo.m3 := M3 (V3 1 0 0) (V3 0 (-1) 0) (V3 0 0 (-1)).
Definition slide (h s : R) : kins := Kins (fun _ => SE3 flip (V3 s 2 h)) (fun _ => [Tw (V3 1 0 0) v0]).
Definition unit_radius (l : list surf) : R := 1.

Lemma flip_rotation : rotation flip.
Proof. split; [unfold flip; cv; f_equal; f_equal; ring|unfold flip; cv; ring]. Qed.
Lemma ground_ok : Forall polygon [ground].
Proof. constructor; [|constructor]. split; [discriminate|]. exists (V3 0 0 5). exact square_convex. Qed.
Lemma sole_polygon : polygon foot_sole.
Proof. split; [discriminate|]. exists (V3 0 0 5). exact square_convex. Qed.
Lemma sole_ok : Forall surface [foot_sole].
Proof. constructor; [left; exact sole_polygon|constructor]. Qed.
Lemma slide_moves h t s : In s [ground] \/ In s [foot_sole] -> joint_moves (fst s) (slide h) t [1].
Proof.
  intros [[<-|[]]|[<-|[]]]; [exact I|]. split; [intros; exact flip_rotation|]. assert (E : japp (jjac (slide h t) 1) [1] = Tw (V3 1 0 0) v0) by (cbn; unfold tadd, tscale, t0; cbn; cv; f_equal; f_equal; ring). rewrite E. split; cbn [place slide rot tra ang lin].
  - eapply mderiv_eq; [|exact (mderiv_const flip t)]. unfold flip. cv. f_equal; f_equal; ring.
  - assert (D : vderiv (fun s => V3 s 2 h) t (V3 1 0 0)) by (repeat split; cbn; [apply derivable_pt_lim_id|apply deriv_const|apply deriv_const]).
    eapply vderiv_eq; [|exact D]. unfold flip. cv. f_equal; ring.
Qed.
Lemma slide_well h s : well [ground] [foot_sole] (slide h s).
Proof. exact (all_well [ground] [foot_sole] (slide h) s [1] (slide_moves h s) s). Qed.
Lemma only_pair {A} (x : A) j y : nth_error [x] j = Some y -> j = 0%nat /\ y = x.
Proof. destruct j as [|[|j]]; cbn; intros E; [injection E as <-; auto|discriminate E|discriminate E]. Qed.
Lemma slide_closest h s : strictly_closest (slide h s) [ground] [foot_sole] 0 0.
Proof. exists ground, foot_sole. split; [reflexivity|]. split; [reflexivity|]. intros j i f o r r' Ef Eo Ne. apply only_pair in Ef as [-> _]. apply only_pair in Eo as [-> _]. contradiction. Qed.
Lemma unit5 : unit (V3 0 0 5) = V3 0 0 1.
Proof.
  assert (N : norm (V3 0 0 5) = 5) by (unfold Rigid.norm; replace (vdot _ _) with (5 * 5) by (unfold vdot; cbn; ring); apply sqrt_square; lra).
  unfold unit. rewrite N. apply v3_eq; cbn; field.
Qed.
Lemma square_normal n : convex_polygon n square -> vx n = 0 /\ vy n = 0.
Proof.
  intros P. pose proof (unit_same _ _ _ square_convex P) as U. rewrite unit5 in U. pose proof (norm_gt0 _ (poly_nz _ _ P)) as G. pose proof (Rinv_0_lt_compat _ G) as G'. unfold unit in U. set (r := / norm n) in *. clearbody r.
  destruct n as [x y z]. unfold vscale in U. cbn in U. injection U as E1 E2 _. cbn. split; nra.
Qed.
Lemma mean_square : mean square = V3 1 1 0.
Proof. unfold mean, square. cbn [length repeat vapp]. replace (INR 4) with 4 by (cbn; ring). cv. f_equal; field. Qed.
Lemma center_sole h s : mean (world (slide h s) foot_sole) = V3 (1 + s) 1 h.
Proof. unfold world. rewrite mean_placed; [|exact flip_rotation|discriminate]. cbn [foot_sole snd fst]. rewrite mean_square. cbn [joint_at option_map placed slide place]. unfold act, flip. cbn [rot tra]. cv. f_equal; ring. Qed.
Lemma center_ground h s : mean (world (slide h s) ground) = V3 1 1 0.
Proof. unfold world. rewrite mean_placed; [exact mean_square|exact I|discriminate]. Qed.
Lemma world_ground h s : world (slide h s) ground = square.
Proof. apply map_id. Qed.
Lemma square_sides x : boundary square x -> vx x = 0 \/ vx x = 2 \/ vy x = 0 \/ vy x = 2.
Proof.
  intros (i & Hi & l & _ & ->). cbn in Hi. do 4 (destruct i as [|i]; [cbv [follow square length Nat.eqb vertex nth vadd vscale vsub vx vy vz]; lra|]). lia.
Qed.
Lemma square_hull x : hull square x -> vz x = 0.
Proof. intros H. pose proof (hull_plane _ _ (proj1 square_convex) x H) as P. unfold in_plane in P. destruct x as [a b e]. cbv [square vertex nth vdot vsub vx vy vz] in P. cbn. lra. Qed.
Lemma slide_off h : off_sides (slide h 0) ground foot_sole.
Proof.
  intros n l P B. destruct (square_normal n P) as [X Y]. rewrite world_ground, center_sole in B. apply square_sides in B. cbn in B. rewrite X, Y in B. lra.
Qed.
Lemma slide_over h : over (slide h 0) ground foot_sole.
Proof.
  exists (V3 0 0 5), (- h / 5). split; [exact square_convex|]. cbv zeta. rewrite world_ground, center_sole. cbn [ground fst joint_at option_map turned].
  replace (vadd (V3 (1 + 0) 1 h) (vscale (- h / 5) (V3 0 0 5))) with (mean square).
  - split; [|exact (side_affine_mean _ _ square_convex)]. destruct (create_polygon _ _ square_convex) as (q & Cq & _ & _ & Ecq & _ & _ & _ & Hq). destruct (create_pts _ _ Cq) as (_ & _ & Em & _). rewrite <- Ecq, Em in Hq. exact Hq.
  - rewrite <- (world_ground h 0), center_ground. unfold vadd, vscale. cbn. f_equal; field.
Qed.
Lemma slide_above h : above_inside h (slide h 0) ground foot_sole.
Proof.
  exists (V3 0 0 5), (mean square). split; [exact square_convex|]. rewrite world_ground. split; [|split; [exact (side_affine_mean _ _ square_convex)|]].
  - destruct (create_polygon _ _ square_convex) as (q & Cq & _ & _ & Ecq & _ & _ & _ & Hq). destruct (create_pts _ _ Cq) as (_ & _ & Em & _). rewrite <- Ecq, Em in Hq. exact Hq.
  - rewrite center_sole, unit5, <- (world_ground h 0), center_ground. cbn [ground fst joint_at option_map turned]. unfold vadd, vscale. cbn. f_equal; ring.
Qed.
Lemma slide_opposite h s : opposite (slide h s) ground foot_sole.
Proof. exists (V3 0 0 5), (V3 0 0 5). split; [exact square_convex|]. split; [exact square_convex|]. rewrite unit5. cbn. unfold flip. cv. f_equal; ring. Qed.
Lemma slide_log h : log_fine (slide h) 0 ground foot_sole.
Proof.
  intros A B (RA & _ & XA & ZA & _) (RB & _ & XB & ZB & _).
  assert (E : rot A = rot B).
  { apply two_axes; try assumption.
    - rewrite (XA (vopp (V3 0 0 5)) (rev_polygon _ _ square_convex)), (XB (V3 0 0 5) square_convex), unit_opp, unit5. cbn. unfold flip. cv. f_equal; ring.
    - rewrite ZA, ZB by (cbn; lia).
      assert (N2 : norm (V3 2 0 0) = 2) by (unfold Rigid.norm; replace (vdot _ _) with (2 * 2) by (unfold vdot; cbn; ring); apply sqrt_square; lra).
      assert (U : forall v, v = V3 2 0 0 -> unit v = V3 1 0 0) by (intros v ->; unfold unit; rewrite N2; apply v3_eq; cbn; field).
      assert (E1 : vsub (vertex (snd (over_turned ground)) 1) (vertex (snd (over_turned ground)) 0) = V3 2 0 0) by (apply v3_eq; cbn; ring).
      assert (E2 : vsub (vertex (snd foot_sole) 1) (vertex (snd foot_sole) 0) = V3 2 0 0) by (apply v3_eq; cbn; ring).
      rewrite (U _ E1), (U _ E2).
      cbn. unfold flip. cv. f_equal; ring. }
  rewrite E. replace (mul (mtr (rot B)) (rot B)) with m1 by (symmetry; apply rotation_mtr_l, RB). right. unfold logSO3. replace (angle m1) with 0; [destruct (Rlt_dec _ _); reflexivity|].
  unfold angle, trace. cbn. destruct (Rlt_dec 3 (1 + 1 + 1)); [lra|]. destruct (Rlt_dec (1 + 1 + 1) (-1)); [lra|]. replace ((1 + 1 + 1 - 1) / 2) with 1 by field. symmetry. apply acos_1.
Qed.

(** The sole at height [h] over the ground, with margin [h]: zero. *)
Lemma case_zero isId isZero h : (forall m, isId m = true -> m = m1) -> (forall v, isZero v = true -> v = v0) -> exists c, create_contact [ground] [foot_sole] unit_radius = Done c /\
  contact_value isId isZero (set_margin c h) (slide h 0) = Done [0; 0; 0; 0; 0].
Proof.
  intros I1 I2. destruct (contact_built [ground] [foot_sole] unit_radius ground_ok sole_ok) as (c & Ec & _). exists c. split; [exact Ec|].
  destruct (contact_zero isId isZero [ground] [foot_sole] unit_radius c Ec ground_ok sole_ok I1 I2 (slide h 0) h (slide_well h 0) ltac:(discriminate) ltac:(discriminate)) as (j & i & f & o & Ef & Eo & _ & Z & _).
  apply only_pair in Ef as [-> ->]. apply only_pair in Eo as [-> ->]. apply Z; [exact sole_polygon|]. split; [apply slide_above|apply slide_opposite].
Qed.
Lemma case_jacobian h : strictly_closest (slide h 0) [ground] [foot_sole] 0 0 /\ off_sides (slide h 0) ground foot_sole /\ log_fine (slide h) 0 ground foot_sole /\
  (forall s, In s [ground] \/ In s [foot_sole] -> joint_moves (fst s) (slide h) 0 [1]) /\ polygon foot_sole /\ fst foot_sole <> None.
Proof. split; [apply slide_closest|]. split; [apply slide_off|]. split; [apply slide_log|]. split; [apply slide_moves|]. split; [exact sole_polygon|discriminate]. Qed.

(** * Cases that fail *)
Lemma points_wrong h m : 0 < h -> 0 < m -> exists c l F, create_contact [ground] [foot_sole] unit_radius = Done c /\ computeContactPoints c (slide h 0) m = Some l /\ In F l /\
  f_joint F = Some 1%nat /\ f_support F = None /\ apart (slide h 0) ground foot_sole h.
Proof.
  intros Hh Hm. destruct (contact_built [ground] [foot_sole] unit_radius ground_ok sole_ok) as (c & Ec & _).
  destruct (points_at [ground] [foot_sole] unit_radius c Ec ground_ok (slide h 0) m (slide_well h 0)) as (l & El & Il).
  exists c, l, (Force (Some 1%nat) square (vopp (unit (V3 0 0 5))) None). split; [exact Ec|]. split; [exact El|]. split; [|split; [reflexivity|split; [reflexivity|]]].
  - apply Il. exists ground, foot_sole, (V3 0 0 5). split; [now left|]. split; [now left|]. split; [exact square_convex|]. split; [reflexivity|]. split.
    + destruct (slide_over h) as (n & l' & P & H & _). cbv zeta in H. destruct (square_normal n P) as [X Y]. exists (l' * vz n / 5).
      replace (vscale (l' * vz n / 5) (turned (joint_at (slide h 0) (fst ground)) (V3 0 0 5))) with (vscale l' (turned (joint_at (slide h 0) (fst ground)) n)); [exact H|].
      cbn [ground fst joint_at option_map turned]. destruct n as [x y z]. cbn in X, Y. subst x y. unfold vscale. cbn. f_equal; field.
    + rewrite center_ground, center_sole, unit5. cbn. unfold vdot, vsub. cbn. lra.
  - unfold apart. rewrite world_ground, center_sole. split.
    + exists (mean square). split.
      * destruct (create_polygon _ _ square_convex) as (q & Cq & _ & _ & Ecq & _ & _ & _ & Hq). destruct (create_pts _ _ Cq) as (_ & _ & Em & _). rewrite <- Ecq, Em in Hq. exact Hq.
      * rewrite <- (world_ground h 0), center_ground. unfold Rigid.norm. replace (vdot _ _) with (h * h) by (unfold vdot, vsub; cbn; ring). apply sqrt_square. lra.
    + intros x Hx. apply square_hull in Hx. unfold Rigid.norm. rewrite <- (sqrt_square h) at 1 by lra. apply sqrt_le_1_alt. destruct x as [x y z]. cbn in Hx. subst z. unfold vdot, vsub. cbn. pose proof (Rle_0_sqr (1 + 0 - x)). pose proof (Rle_0_sqr (1 - y)). unfold Rsqr in *. lra.
Qed.
Lemma extra_wrong isId isZero : (forall m, isId m = true -> m = m1) -> (forall v, isZero v = true -> v = v0) -> exists c tmp, create_contact [ground] [foot_sole] unit_radius = Done c /\ length tmp = 1%nat /\
  forall x, exists J, length J = 1%nat /\ contact_jacobian isId isZero c (slide 1 0) 1 (tmp ++ [x]) = Done (J ++ [[nth 0 x 0; 0; 0; nth 4 x 0; nth 5 x 0]]).
Proof.
  intros I1 I2. destruct (contact_built [ground] [foot_sole] unit_radius ground_ok sole_ok) as (c & Ec & Em & _). exists c, [repeat 0 6]. split; [exact Ec|]. split; [reflexivity|]. intros x.
  destruct (contact_values_near isId isZero [ground] [foot_sole] unit_radius c Ec ground_ok I1 I2 (slide 1) 0 [1] (slide_moves 1 0) 0%nat 0%nat ground foot_sole eq_refl eq_refl 0 (slide_closest 1 0) (slide_off 1)) as (b & sf & so & _ & _ & Es & _).
  assert (B : b = true).
  { destruct (selected_at [ground] [foot_sole] unit_radius c Ec ground_ok (slide 1 0) (slide_well 1 0) ltac:(discriminate) ltac:(discriminate)) as (j & i & b' & f & o & Es' & Ef & Eo & B & _). rewrite Es in Es'. injection Es' as <- <- <-.
    apply only_pair in Ef as [_ ->]. apply only_pair in Eo as [_ ->]. apply B. apply (over_iff [ground] [foot_sole] unit_radius c Ec ground_ok (slide 1 0) 0 0 ground foot_sole (slide_well 1 0) eq_refl eq_refl). apply slide_over. }
  subst b.
  destruct (extra_junk isId isZero [ground] [foot_sole] unit_radius c Ec ground_ok sole_ok I1 I2 (slide 1) 0 [1] 1 (slide_moves 1 0) 0%nat 0%nat ground foot_sole eq_refl eq_refl true (margin c) [repeat 0 6] x Es sole_polygon) as (J & LJ & EJ).
  - right. discriminate.
  - intros n [E|E]; [discriminate E|reflexivity].
  - reflexivity.
  - repeat constructor.
  - exists J. split; [exact LJ|]. destruct c. exact EJ.
Qed.

(** A floor of one or two points. *)
Lemma all_in {A B} (f : A -> res B) l : forall ys x, all f l = Done ys -> In x l -> exists y, In y ys /\ f x = Done y.
Proof.
  induction l as [|a l IH]; [intros ? ? _ []|]. intros ys x E I. cbn [all] in E. destruct (f a) as [y| |] eqn:Fa; try discriminate E. cbn [rbind] in E.
  destruct (all f l) as [zs| |]; try discriminate E. injection E as <-. destruct I as [<-|I]; [exists y; split; [now left|exact Fa]|].
  destruct (IH zs x eq_refl I) as (z & Iz & Fz). exists z. split; [now right|exact Fz].
Qed.
Lemma floor_built jp s : add_floor jp = Done s -> create (rev (snd jp)) = Some (ss s).
Proof.
  unfold add_floor. destruct (create (snd jp)) as [a|] eqn:Ea; [|discriminate]. cbn [rbind built]. destruct (copy a) as [b|] eqn:Eb; [|discriminate]. cbn [rbind built].
  destruct (reverse b) as [d|] eqn:Ed; [|discriminate]. cbn [rbind built]. destruct (copy d) as [e|] eqn:Ee; [|discriminate]. intros E. injection E as <-. cbn [ss].
  destruct (create_pts _ _ Ea) as (Pa & _). assert (Pb : s_pts b = snd jp).
  { unfold copy in Eb. rewrite Pa in Eb. exact (proj1 (create_pts _ _ Eb)). }
  assert (Pd : s_pts d = rev (snd jp)).
  { unfold reverse in Ed. rewrite Pb in Ed. clear - Ed. unfold init in Ed. destruct (rev (snd jp)) as [|p [|q [|r l]]]; try discriminate; injection Ed as <-; reflexivity. }
  unfold copy in Ee. rewrite Pd in Ee. exact Ee.
Qed.
Lemma thin_floor isId isZero fl ob radius c f : create_contact fl ob radius = Done c -> In f fl -> (length (snd f) < 3)%nat -> ob <> [] ->
  forall k, contact_value isId isZero c k = Undefined /\ complement_value isId isZero c k = Undefined.
Proof.
  intros Ec If Lf No k. assert (Rd : readable c k = false).
  { unfold create_contact in Ec. destruct (all add_floor fl) as [fs| |] eqn:Efs; try discriminate Ec. cbn [rbind] in Ec. destruct (all add_object ob) as [os| |] eqn:Eos; try discriminate Ec. injection Ec as <-.
    destruct (all_in _ _ _ _ Efs If) as (s & Is & Es). apply floor_built in Es. unfold readable. cbn [floors objects].
    apply Bool.not_true_is_false. intros T. rewrite forallb_forall in T. specialize (T s Is). rewrite forallb_forall in T.
    destruct ob as [|o ob]; [congruence|]. destruct (all_in _ _ _ o Eos ltac:(now left)) as (so & Iso & _). specialize (T so Iso). revert T.
    unfold pair_dist, at_k. cbn [fst snd]. unfold distance. generalize (match option_map (place k) (sj s) with None => intersection (update (option_map (place k) (sj s)) (ss s)) (d_center (update (option_map (place k) (sj so)) (ss so))) (d_normal (update (option_map (place k) (sj s)) (ss s))) | Some _ => actInv (d_oMj (update (option_map (place k) (sj s)) (ss s))) (intersection (update (option_map (place k) (sj s)) (ss s)) (d_center (update (option_map (place k) (sj so)) (ss so))) (d_normal (update (option_map (place k) (sj s)) (ss s)))) end).
    intros a. destruct (snd f) as [|p [|q [|r l]]]; [cbn in Es; discriminate Es| | |cbn in Lf; lia].
    - cbn [rev app] in Es. injection Es as Es. rewrite <- Es. cbn. discriminate.
    - cbn [rev app] in Es. rewrite (segment_distance _ _ _ a Es). discriminate. }
  unfold contact_value, complement_value, internal_value, pair, selected. rewrite Rd. split; reflexivity.
Qed.

(** A segment for object; two surfaces without joint. *)
Definition edge_sole : option nat * list v3 := (Some 1%nat, [V3 0 1 0; V3 2 1 0]).
Lemma edge_ok : Forall surface [edge_sole].
Proof.
  constructor; [|constructor]. right; right. split; [discriminate|]. exists (V3 0 1 0), (V3 2 1 0). split; [|reflexivity]. intros E. injection E as E. lra.
Qed.
Lemma moves_any h s (a : option nat * list v3) : fst a = None \/ fst a = Some 1%nat -> joint_moves (fst a) (slide h) s [1].
Proof. intros [E|E]; rewrite E; [exact (slide_moves h s ground (or_introl (or_introl eq_refl)))|exact (slide_moves h s foot_sole (or_intror (or_introl eq_refl)))]. Qed.
Lemma well_any h s (a : option nat * list v3) : fst a = None \/ fst a = Some 1%nat -> placed_well (slide h s) a.
Proof. intros [E|E]; unfold placed_well; rewrite E; [exact (slide_well h s ground (or_introl (or_introl eq_refl)))|exact (slide_well h s foot_sole (or_intror (or_introl eq_refl)))]. Qed.
Lemma line_wrong isId isZero : (forall m, isId m = true -> m = m1) -> (forall v, isZero v = true -> v = v0) -> exists c, create_contact [ground] [edge_sole] unit_radius = Done c /\
  (exists v, contact_value isId isZero c (slide 1 0) = Done v) /\
  forall tmp, length tmp = 1%nat -> Forall (fun x => length x = 6%nat) tmp -> contact_jacobian isId isZero c (slide 1 0) 1 tmp = Throws.
Proof.
  intros I1 I2. destruct (contact_built [ground] [edge_sole] unit_radius ground_ok edge_ok) as (c & Ec & Em & _). exists c. split; [exact Ec|].
  assert (W : forall s, In s [ground] \/ In s [edge_sole] -> placed_well (slide 1 0) s) by (intros s [[<-|[]]|[<-|[]]]; apply well_any; [now left|now right]).
  assert (Mv : forall s, In s [ground] \/ In s [edge_sole] -> joint_moves (fst s) (slide 1) 0 [1]) by (intros s [[<-|[]]|[<-|[]]]; apply moves_any; [now left|now right]).
  destruct (selected_at [ground] [edge_sole] unit_radius c Ec ground_ok (slide 1 0) W ltac:(discriminate) ltac:(discriminate)) as (j & i & b & f & o & Es & Ef & Eo & _).
  assert (o = edge_sole) as -> by (destruct i as [|[|i]]; cbn in Eo; congruence). assert (f = ground) as -> by (destruct j as [|[|j]]; cbn in Ef; congruence).
  destruct (line_throws isId isZero [ground] [edge_sole] unit_radius c Ec ground_ok edge_ok I1 I2 (slide 1) 0 [1] 1%nat Mv j i ground edge_sole Ef Eo b (margin c) Es) as [V T].
  - pose proof (proj1 (Forall_forall _ _) edge_ok edge_sole ltac:(now left)) as S. destruct S as [(_ & n & P)|[(_ & p & P)|S]]; [|discriminate P|exact S]. destruct P as [[P _] _]. cbn in P. lia.
  - right. discriminate.
  - intros n [E|E]; [discriminate E|reflexivity].
  - destruct c. exact (conj V T).
Qed.
Lemma null_wrong isId isZero : (forall m, isId m = true -> m = m1) -> (forall v, isZero v = true -> v = v0) -> exists c, create_contact [ground] [ground] unit_radius = Done c /\
  (exists v, contact_value isId isZero c (slide 1 0) = Done v) /\
  forall tmp, length tmp = 1%nat -> contact_jacobian isId isZero c (slide 1 0) 1 tmp = Undefined.
Proof.
  intros I1 I2. assert (Og : Forall surface [ground]) by (constructor; [|constructor]; left; exact (proj1 (Forall_forall _ _) ground_ok ground ltac:(now left))).
  destruct (contact_built [ground] [ground] unit_radius ground_ok Og) as (c & Ec & Em & _). exists c. split; [exact Ec|].
  assert (W : forall s, In s [ground] \/ In s [ground] -> placed_well (slide 1 0) s) by (intros s [[<-|[]]|[<-|[]]]; apply well_any; now left).
  assert (Mv : forall s, In s [ground] \/ In s [ground] -> joint_moves (fst s) (slide 1) 0 [1]) by (intros s [[<-|[]]|[<-|[]]]; apply moves_any; now left).
  destruct (selected_at [ground] [ground] unit_radius c Ec ground_ok (slide 1 0) W ltac:(discriminate) ltac:(discriminate)) as (j & i & b & f & o & Es & Ef & Eo & _).
  apply only_pair in Ef as [-> ->]. apply only_pair in Eo as [-> ->].
  assert (N : forall tmp, length tmp = 1%nat -> (exists v, contact_value isId isZero (set_margin c (margin c)) (slide 1 0) = Done v) /\ contact_jacobian isId isZero (set_margin c (margin c)) (slide 1 0) 1 tmp = Undefined).
  { intros tmp Lt. exact (null_undefined isId isZero [ground] [ground] unit_radius c Ec ground_ok I1 I2 (slide 1) 0 [1] 1%nat Mv 0%nat 0%nat ground ground eq_refl eq_refl b (margin c) tmp Es eq_refl eq_refl ltac:(lia) Lt). }
  destruct c. split; [exact (proj1 (N [[]] eq_refl))|intros tmp Lt; exact (proj2 (N tmp Lt))].
Qed.
(** Thin floors are accepted. *)
Lemma thin_wrong isId isZero k : exists c, create_contact [edge_sole] [foot_sole] unit_radius = Done c /\ contact_value isId isZero c k = Undefined.
Proof.
  destruct (create_contact [edge_sole] [foot_sole] unit_radius) as [c| |] eqn:Ec; [|cbn in Ec; discriminate Ec|cbn in Ec; discriminate Ec].
  exists c. split; [reflexivity|]. exact (proj1 (thin_floor isId isZero _ _ _ c edge_sole Ec ltac:(now left) ltac:(cbn; lia) ltac:(discriminate) k)).
Qed.
