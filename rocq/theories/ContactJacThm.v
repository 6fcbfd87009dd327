(** Contacts: value, zeros and Jacobians of the functions. *)
From Coq Require Import Reals List Bool Arith Lra Lia.
From Verif Require Import ContactModel ContactMain LogModel LogSpec RotProofs LogMain LogAxis GTModel GTSpec GTProofs GTJac GTMain GTDeriv.
From Verif Require Import Geo GeoLemmas Rigid ShapeModel ShapeSpec ShapeGeo ShapeProofs ShapeMain ShapeCases ContactNear ContactJacModel ContactJacSpec ContactJacProofs ContactJacMain ContactJacCont ContactJacFrame.
Import ListNotations.
Local Open Scope R_scope.
Local Notation norm := Rigid.norm.
Local Ltac vr := apply v3_eq; gcbn; ring.

Lemma all_cons {A B} (f : A -> res B) x l y ys : f x = Done y -> all f l = Done ys -> all f (x :: l) = Done (y :: ys).
Proof. intros E1 E2. cbn. rewrite E1. cbn. now rewrite E2. Qed.
Lemma contact_built fl ob radius : Forall polygon fl -> Forall surface ob -> exists c, create_contact fl ob radius = Done c /\ margin c = 0 /\ rad c = radius (floors c).
Proof.
  intros Fl Ob. assert (A : exists fs, all add_floor fl = Done fs).
  { clear Ob ob. induction fl as [|f fl IH]; [eexists; reflexivity|]. inversion_clear Fl as [|? ? (Jf & n & P) F]. destruct (IH F) as (fs & E). destruct (create_polygon _ _ P) as (s & Cs & _). destruct (reverse_right _ _ _ P Cs) as (s' & R & C' & _). eexists. eapply all_cons; [|exact E].
    unfold add_floor. rewrite Cs. cbn [built rbind]. rewrite (copy_create _ _ Cs). cbn [built rbind]. rewrite R. cbn [built rbind]. rewrite (copy_create _ _ C'). cbn [built rbind]. reflexivity. }
  assert (B : exists os, all add_object ob = Done os).
  { clear - Ob. induction ob as [|o ob IH]; [eexists; reflexivity|]. inversion_clear Ob as [|? ? S F]. destruct (IH F) as (os & E).
    assert (C : exists s, create (snd o) = Some s).
    { destruct S as [(_ & n & P)|[(_ & p & Ep)|(_ & p & q & _ & Ep)]]; [destruct (create_polygon _ _ P) as (s & Cs & _); eauto|rewrite Ep; apply create_some|rewrite Ep; apply create_some]. }
    destruct C as (s & C). eexists. eapply all_cons; [|exact E]. unfold add_object. rewrite C. cbn [built rbind]. rewrite (copy_create _ _ C). reflexivity. }
  destruct A as (fs & EA), B as (os & EB). unfold create_contact. rewrite EA. cbn [rbind]. rewrite EB. cbn [rbind]. eexists. split; [reflexivity|]. auto.
Qed.

Definition ty (n : nat) : ctype := match n with 1%nat => POINT_ON_PLANE | 2%nat => LINE_ON_PLANE | _ => PLANE_ON_PLANE end.
Definition rtl (f o : surf) : list setter := [SetJ1 (sj f); SetJ2 (sj o); SetF1 (s_M (ss f)); SetF2 (s_M (ss o))].
Lemma good6 : good_mask o6 (repeat true 6).
Proof. split; [reflexivity|]. split; [reflexivity|]. discriminate. Qed.

Section G.
Variables (isId : Geo.m3 -> bool) (isZero : v3 -> bool).
Variables (fl ob : list (option nat * list v3)) (radius : list surf -> R) (c : contact).
Hypothesis Made : create_contact fl ob radius = Done c.
Hypothesis Fl : Forall polygon fl.
Hypothesis Ob : Forall surface ob.
Hypothesis isIdP : forall m, isId m = true -> m = m1.
Hypothesis isZeroP : forall v, isZero v = true -> v = v0.

Lemma rtm_setup f o : sj f <> Some 0%nat -> rtm isId isZero f o = setup isId isZero o6 (repeat true 6) (rtl f o).
Proof. intros N. unfold rtm, rtl, setup. cbn. destruct (sj f) as [[|j]|]; [contradiction|reflexivity|reflexivity]. Qed.
Lemma pair_done k j i b f o : well fl ob k -> selected c k = Done (j, i, b) -> nth_error fl j = Some f -> nth_error ob i = Some o -> exists sf so,
  create (rev (snd f)) = Some sf /\ create (snd o) = Some so /\ pair c k = Done (j, i, b, Surf (fst f) sf, Surf (fst o) so, ty (length (snd o))).
Proof.
  intros W E Ef Eo. destruct (made fl ob radius c Made Fl) as (_ & _ & HF & HO). destruct (HF j f Ef) as (sf & Esf & Cf). destruct (HO i o Eo) as (so & Eso & Co).
  exists sf, so. split; [exact Cf|]. split; [exact Co|]. unfold pair. rewrite E. cbn [rbind]. rewrite Eso, Esf. cbn [defined rbind ss sj]. rewrite (copy_create _ _ Cf). cbn [built rbind ss sj].
  destruct (create_pts _ _ Cf) as (_ & Df & _). destruct (create_pts _ _ Co) as (_ & Do & _). unfold contactType. rewrite Df, Do, rev_length.
  rewrite Forall_forall in Fl. destruct (Fl f (nth_error_In _ _ Ef)) as (_ & n & P). assert (L := proj1 (proj1 P)).
  destruct (length (snd f)) as [|[|[|m]]]; try lia. destruct (length (snd o)) as [|[|[|m']]]; reflexivity.
Qed.
Lemma raw_at f o k : rotation (rot (joint_place (sj f) k)) -> sj f <> Some 0%nat ->
  let P := comp (sinv (comp (joint_place (sj f) k) (s_M (ss f)))) (comp (joint_place (sj o) k) (s_M (ss o))) in
  raw (fun _ => []) o6 (rtm isId isZero f o) k = v3l (tra P) ++ v3l (snd (logSO3 (rot P))).
Proof.
  intros Rt N P. rewrite (rtm_setup _ _ N). set (g := setup _ _ _ _ _).
  assert (I := setup_inv isId isZero isIdP isZeroP o6 (repeat true 6) (rtl f o)). fold g in I.
  assert (Ej : g_j1 g = sj f) by (unfold g, setup, rtl; cbn; destruct (sj f) as [[|j]|]; [contradiction|reflexivity|reflexivity]).
  unfold raw. cbn [o6 orientation position so3]. rewrite (poseE o6 (repeat true 6) g k I); [|intros j E; rewrite Ej in E; rewrite E in Rt; exact Rt].
  replace (relpose g k) with P; [reflexivity|]. unfold P, relpose. rewrite Ej. reflexivity.
Qed.

(** The value, for the pair selected. *)
Definition row_list (b : bool) (n : nat) (m : R) (p w : v3) : list R :=
  (vx p + m) :: (if b then [0; 0] else [vy p; vz p]) ++ (if Nat.eqb n 1 then [0; 0] else [vy w; vz w]).
Definition row_list' (b : bool) (r1 r2 : R) (p w : v3) : list R := [(if b then vy p else 0) + r1; (if b then vz p else 0) + r2; vx w].
Lemma value_at k j i b f o m : well fl ob k -> selected c k = Done (j, i, b) -> nth_error fl j = Some f -> nth_error ob i = Some o -> exists sf so,
  create (rev (snd f)) = Some sf /\ create (snd o) = Some so /\
  let P := comp (sinv (comp (joint_place (fst f) k) (s_M sf))) (comp (joint_place (fst o) k) (s_M so)) in
  contact_value isId isZero (set_margin c m) k = Done (row_list b (length (snd o)) m (tra P) (snd (logSO3 (rot P)))) /\
  complement_value isId isZero (set_margin c m) k = Done (row_list' b (2 * INR j * rad c) (2 * INR i * rad c) (tra P) (snd (logSO3 (rot P)))).
Proof.
  intros W E Ef Eo. destruct (pair_done k j i b f o W E Ef Eo) as (sf & so & Cf & Co & Ep). exists sf, so. split; [exact Cf|]. split; [exact Co|]. intros P.
  assert (Wf : placed_well k f) by (apply W; left; now apply nth_error_In in Ef).
  assert (Nf : fst f <> Some 0%nat) by (rewrite Forall_forall in Fl; apply (Fl f (nth_error_In _ _ Ef))).
  assert (Er := raw_at (Surf (fst f) sf) (Surf (fst o) so) k (rigid_place _ _ Wf) Nf). cbv zeta in Er. cbn [sj ss] in Er. fold P in Er.
  assert (IV : forall m, internal_value isId isZero (set_margin c m) k = Done (j, i, b, ty (length (snd o)), v3l (tra P) ++ v3l (snd (logSO3 (rot P))))).
  { intros m'. unfold internal_value. change (pair (set_margin c m') k) with (pair c k). rewrite Ep. cbn [rbind]. rewrite Er. reflexivity. }
  unfold contact_value, complement_value. rewrite IV. cbn [rbind]. unfold at_. cbn [v3l app nth set_margin margin rad]. rewrite !mult_INR. cbn [INR]. unfold row_list, row_list'.
  split; [|reflexivity]. f_equal. f_equal. f_equal. destruct (length (snd o)) as [|[|[|n]]]; reflexivity.
Qed.

Theorem contact_values k m : well fl ob k -> fl <> [] -> ob <> [] -> exists j i f o A B b,
  nth_error fl j = Some f /\ nth_error ob i = Some o /\ closest k fl ob j i /\ frame k (over_turned f) A /\ frame k o B /\ (b = true <-> over k f o) /\
  let P := comp (sinv A) B in let p := tra P in let w := snd (logSO3 (rot P)) in
  let v := (vx p + m) :: (if b then [0; 0] else [vy p; vz p]) ++ (if Nat.eqb (length (snd o)) 1 then [0; 0] else [vy w; vz w]) in
  let v' := [(if b then vy p else 0) + 2 * INR j * rad c; (if b then vz p else 0) + 2 * INR i * rad c; vx w] in
  contact_value isId isZero (set_margin c m) k = Done v /\ complement_value isId isZero (set_margin c m) k = Done v' /\ hold_fun_value isId isZero (set_margin c m) k = Done (v ++ v').
Proof.
  intros W NF NO. destruct (selected_at fl ob radius c Made Fl k W NF NO) as (j & i & b & f & o & E & Ef & Eo & B & _).
  destruct (value_at k j i b f o m W E Ef Eo) as (sf & so & Cf & Co & V1 & V2).
  assert (Sf : surface (over_turned f)) by (apply over_surface; rewrite Forall_forall in Fl; apply (Fl f (nth_error_In _ _ Ef))).
  assert (So : surface o) by (rewrite Forall_forall in Ob; apply (Ob o (nth_error_In _ _ Eo))).
  exists j, i, f, o, (comp (joint_place (fst f) k) (s_M sf)), (comp (joint_place (fst o) k) (s_M so)), b.
  split; [exact Ef|]. split; [exact Eo|]. split; [exact (selected_closest fl ob radius c Made Fl k j i b W E)|].
  split; [apply (frame_made k (over_turned f) sf Sf); [change (placed_well k f); apply W; left; now apply nth_error_In in Ef|exact Cf]|].
  split; [apply (frame_made k o so So); [apply W; right; now apply nth_error_In in Eo|exact Co]|].
  split; [rewrite B; now apply (over_iff fl ob radius c Made Fl)|].
  cbv zeta. split; [exact V1|]. split; [exact V2|]. unfold hold_fun_value. rewrite V1. cbn [rbind]. rewrite V2. reflexivity.
Qed.

(** * Zeros *)
Lemma coord A v : vx (mulv (mtr A) v) = vdot (mulv A (V3 1 0 0)) v.
Proof. destruct A as [[? ? ?] [? ? ?] [? ? ?]], v. cv. ring. Qed.
Lemma tra_rel A B : tra (comp (sinv A) B) = mulv (mtr (rot A)) (vsub (tra B) (tra A)).
Proof. unfold comp, sinv, act. cbn [rot tra]. rewrite mulv_sub. generalize (mulv (mtr (rot A)) (tra B)) (mulv (mtr (rot A)) (tra A)). intros. vr. Qed.
Lemma rot_rel A B : rot (comp (sinv A) B) = mul (mtr (rot A)) (rot B).
Proof. reflexivity. Qed.
Lemma aligned A B : rotation A -> mulv (mul (mtr A) B) e1 = e1 <-> mulv B (V3 1 0 0) = mulv A (V3 1 0 0).
Proof.
  intros RA. rewrite mulvA. fold e1. split; intros E.
  - rewrite <- E at 2. symmetry. now apply rotation_inv_r.
  - rewrite E. now apply rotation_inv.
Qed.
Lemma unit_opp n : unit (vopp n) = vopp (unit n).
Proof. unfold unit, Rigid.norm. replace (vdot (vopp n) (vopp n)) with (vdot n n) by (unfold vdot, vopp; cbn; ring). generalize (/ sqrt (vdot n n)). intros. vr. Qed.
Lemma turned_opp J v : turned J (vopp v) = vopp (turned J v).
Proof. replace (vopp v) with (vscale (-1) v) by vr. rewrite turned_scale. generalize (turned J v). intros. vr. Qed.
Lemma unit_same n n' pts : convex_polygon n pts -> convex_polygon n' pts -> unit n' = unit n.
Proof. intros P P1. destruct (create_polygon _ _ P) as (q & Cq & _ & Nq & _). destruct (create_polygon _ _ P1) as (q1 & Cq1 & _ & Nq1 & _). rewrite Cq in Cq1. injection Cq1 as <-. rewrite <- !unit_normalize by (eapply poly_nz; eassumption). congruence. Qed.
Theorem contact_zero k m : well fl ob k -> fl <> [] -> ob <> [] -> exists j i f o,
  nth_error fl j = Some f /\ nth_error ob i = Some o /\ closest k fl ob j i /\
  (polygon o -> (contact_value isId isZero (set_margin c m) k = Done [0; 0; 0; 0; 0] <-> above_inside m k f o /\ opposite k f o)) /\
  (single o -> (contact_value isId isZero (set_margin c m) k = Done [0; 0; 0; 0; 0] <-> above_inside m k f o)).
Proof.
  intros W NF NO. destruct (contact_values k m W NF NO) as (j & i & f & o & A & B & b & Ef & Eo & Cl & FA & FB & Hb & V & _). cbv zeta in V.
  exists j, i, f, o. split; [exact Ef|]. split; [exact Eo|]. split; [exact Cl|].
  assert (Pf : polygon f) by (rewrite Forall_forall in Fl; apply (Fl f (nth_error_In _ _ Ef))). destruct Pf as (_ & n & P).
  assert (Wf : placed_well k f) by (apply W; left; now apply nth_error_In in Ef).
  destruct FA as (RA & TA & XA & _). specialize (XA (vopp n) (rev_polygon _ _ P)). cbn [over_turned fst snd] in XA, TA. rewrite unit_opp, turned_opp in XA.
  assert (TA' : tra A = mean (world k f)) by (rewrite TA; unfold world, over_turned; cbn [fst snd]; rewrite map_rev; apply mean_rev). clear TA.
  destruct FB as (RB & TB & XB & _). set (J := joint_at k (fst f)) in *. set (u := turned J (unit n)) in *.
  assert (U1 : vdot u u = 1). { unfold u. rewrite turned_dot by exact Wf. rewrite <- unit_normalize by (apply (poly_nz _ _ P)). apply normalize_unit, (poly_nz _ _ P). }
  set (co := mean (world k o)) in *. set (cf := mean (world k f)) in *.
  assert (Ex : vx (tra (comp (sinv A) B)) = - vdot u (vsub co cf)). { rewrite tra_rel, coord, XA, TB, TA'. unfold vdot, vopp. cbn. ring. }
  assert (Ov : over k f o -> forall r, vdot u (vsub co cf) = r -> hull (world k f) (vsub co (vscale r u)) /\ ~ boundary (world k f) (vsub co (vscale r u))).
  { intros (n' & l & P' & H & Bd) r Er. cbv zeta in H, Bd. fold J co in H, Bd.
    assert (PW := placed_polygon J Wf n' _ P'). fold (world k f) in PW. pose proof (hull_plane _ _ (proj1 PW) _ H) as I1.
    assert (Hc : hull (world k f) cf).
    { destruct (create_polygon _ _ PW) as (q & Cq & _ & _ & Ecq & _ & _ & _ & Hq). destruct (create_pts _ _ Cq) as (_ & _ & Em & _). rewrite <- Ecq, Em in Hq. exact Hq. }
    pose proof (hull_plane _ _ (proj1 PW) _ Hc) as I2. pose proof (poly_nz _ _ P') as Z'. pose proof (norm_gt0 _ Z') as Gn.
    assert (Tn : turned J n' = vscale (norm n') u).
    { unfold u. rewrite <- (unit_same n n' _ P P'), <- turned_scale. f_equal. unfold unit. apply v3_eq; gcbn; field; lra. }
    rewrite Tn in *. unfold in_plane in I1, I2.
    assert (El : l * norm n' = - r).
    { assert (K : vdot u (vsub (vadd co (vscale l (vscale (norm n') u))) cf) = 0).
      { assert (K : norm n' * vdot u (vsub (vadd co (vscale l (vscale (norm n') u))) cf) = 0) by (unfold vdot, vsub, vadd, vscale in *; cbn in *; lra). apply Rmult_integral in K as [K|K]; [lra|exact K]. }
      replace (vdot u (vsub (vadd co (vscale l (vscale (norm n') u))) cf)) with (vdot u (vsub co cf) + l * norm n' * vdot u u) in K by (unfold vdot, vsub, vadd, vscale; cbn; ring). rewrite U1, Er in K. lra. }
    replace (vsub co (vscale r u)) with (vadd co (vscale l (vscale (norm n') u))); [auto|].
    replace r with (- (l * norm n')) by lra. generalize (norm n') co u. intros. vr. }
  assert (Co : forall r, vx (tra (comp (sinv A) B)) + r = 0 -> vdot u (vsub co cf) = r) by (intros r; rewrite Ex; lra).
  assert (Ab : (exists n x, convex_polygon n (snd f) /\ hull (world k f) x /\ ~ boundary (world k f) x /\ co = vadd x (vscale m (turned J (unit n)))) <-> (b = true /\ vx (tra (comp (sinv A) B)) + m = 0)).
  { rewrite Hb. split.
    - intros (n' & x & P' & H & Bd & E). rewrite (unit_same n n' _ P P') in E. fold u in E. split.
      + pose proof (norm_gt0 _ (poly_nz _ _ P)) as Gn. exists n, (- m * / norm n). split; [exact P|]. cbv zeta. fold co. fold J. rewrite E.
        replace (vadd (vadd x (vscale m u)) (vscale (- m * / norm n) (turned J n))) with x; [auto|]. unfold u, unit. rewrite turned_scale. generalize (turned J n) (/ norm n). intros. vr.
      + assert (PW := placed_polygon J Wf n _ P). fold (world k f) in PW.
        assert (Hc : hull (world k f) cf).
        { destruct (create_polygon _ _ PW) as (q & Cq & _ & _ & Ecq & _ & _ & _ & Hq). destruct (create_pts _ _ Cq) as (_ & _ & Em & _). rewrite <- Ecq, Em in Hq. exact Hq. }
        pose proof (hull_plane _ _ (proj1 PW) _ Hc) as I2. pose proof (hull_plane _ _ (proj1 PW) _ H) as I1. pose proof (norm_gt0 _ (poly_nz _ _ P)) as Gn.
        assert (Tn : turned J n = vscale (norm n) u) by (unfold u; rewrite <- turned_scale; f_equal; unfold unit; apply v3_eq; gcbn; field; lra).
        rewrite Tn in I1, I2. unfold in_plane in I1, I2. rewrite Ex, E.
        assert (K : vdot u (vsub x cf) = 0). { assert (K : norm n * vdot u (vsub x cf) = 0) by (unfold vdot, vsub, vscale in *; cbn in *; lra). apply Rmult_integral in K as [K|K]; [lra|exact K]. }
        replace (vdot u (vsub (vadd x (vscale m u)) cf)) with (vdot u (vsub x cf) + m * vdot u u) by (unfold vdot, vsub, vadd, vscale; cbn; ring). rewrite K, U1. ring.
    - intros [O0 E]. destruct (Ov O0 m (Co m E)) as [H Bd]. exists n, (vsub co (vscale m u)). split; [exact P|]. split; [exact H|]. split; [exact Bd|]. fold u. generalize co u. intros. vr. }
  assert (Ab' : above_inside m k f o <-> (vx (tra (comp (sinv A) B)) + m = 0 /\ (b = true \/ (vy (tra (comp (sinv A) B)) = 0 /\ vz (tra (comp (sinv A) B)) = 0)))).
  { unfold above_inside. fold J co. rewrite Ab. split; [tauto|]. intros [E [T|[Ey Ez]]]; [auto|]. split; [|exact E]. apply Hb.
    assert (Et : vsub co cf = vscale m u).
    { rewrite <- (rotation_inv_r (rot A) (vsub co cf) RA). rewrite <- TB, <- TA' at 1. rewrite <- tra_rel.
      assert (Q : tra (comp (sinv A) B) = vscale (- m) (V3 1 0 0)) by (destruct (tra (comp (sinv A) B)); cbn in *; unfold vscale; cbn; f_equal; lra). rewrite Q, mulv_scale, XA. generalize u. intros. vr. }
    pose proof (norm_gt0 _ (poly_nz _ _ P)) as Gn. exists n, (- m * / norm n). split; [exact P|]. cbv zeta. fold co J.
    replace (vadd co (vscale (- m * / norm n) (turned J n))) with cf.
    2: { replace co with (vadd cf (vscale m u)) by (rewrite <- Et; generalize co cf; intros; vr). unfold u, unit. rewrite turned_scale. generalize (turned J n) cf (/ norm n). intros. vr. }
    assert (PW := placed_polygon J Wf n _ P). fold (world k f) in PW. split; [|now apply (side_affine_mean (turned J n))].
    destruct (create_polygon _ _ PW) as (q & Cq & _ & _ & Ecq & _ & _ & _ & Hq). destruct (create_pts _ _ Cq) as (_ & _ & Em & _). rewrite <- Ecq, Em in Hq. exact Hq. }
  split.
  - intros (_ & no & Po). assert (L := proj1 (proj1 Po)). destruct (Nat.eqb_spec (length (snd o)) 1) as [Q|_]; [lia|].
    assert (Op : opposite k f o <-> (vy (snd (logSO3 (rot (comp (sinv A) B)))) = 0 /\ vz (snd (logSO3 (rot (comp (sinv A) B)))) = 0)).
    { rewrite (log_axis (rot (comp (sinv A) B))) by (rewrite rot_rel; apply rotation_mul; [now apply rotation_mtr|exact RB]). rewrite rot_rel, (aligned _ _ RA), XA, (XB no Po). unfold opposite. fold J. split.
      - intros (n' & n'' & P' & P'' & E). rewrite (unit_same n n' _ P P'), (unit_same no n'' _ Po P'') in E. exact E.
      - intros E. exists n, no. split; [exact P|]. split; [exact Po|exact E]. }
    rewrite V, Ab', Op. destruct b; cbn [app]; split.
    + intros [= E1 E2 E3]. auto.
    + intros ((E1 & _) & E2 & E3). rewrite E1, E2, E3. reflexivity.
    + intros [= E1 E2 E3 E4 E5]. auto 7.
    + intros ((E1 & [D|[E2 E3]]) & E4 & E5); [discriminate D|]. rewrite E1, E2, E3, E4, E5. reflexivity.
  - intros (_ & q & Eq). rewrite Eq in V. cbn [length Nat.eqb] in V. rewrite V, Ab'. destruct b; cbn [app]; split.
    + intros [= E1]. auto.
    + intros (E1 & _). now rewrite E1.
    + intros [= E1 E2 E3]. auto.
    + intros (E1 & [D|[E2 E3]]); [discriminate D|]. now rewrite E1, E2, E3.
Qed.

(** * Jacobians *)
Lemma row_zero (J : list (list R)) d : rapp (map (fun _ => 0) J) d = 0.
Proof. revert d. induction J as [|x J IH]; intros [|y d]; cbn; try reflexivity. rewrite IH. ring. Qed.
Lemma row_pick (J : list (list R)) f r i d : (forall x, nth r (f x) 0 = nth i x 0) -> row_times (map f J) r d = row_times J i d.
Proof. intros E. unfold row_times. rewrite map_map. f_equal. apply map_ext. exact E. Qed.
Lemma row_none (J : list (list R)) f r d : (forall x : list R, nth r (f x) 0 = 0) -> row_times (map f J) r d = 0.
Proof. intros E. unfold row_times. rewrite map_map. transitivity (rapp (map (fun _ => 0) J) d); [f_equal; apply map_ext; exact E|apply row_zero]. Qed.

Section J.
Variables (K : R -> kins) (t : R) (d : list R) (cols : nat).
Hypothesis Mv : forall s, In s fl \/ In s ob -> joint_moves (fst s) K t d.
Variables (j i : nat) (f o : option nat * list v3).
Hypothesis Ef : nth_error fl j = Some f.
Hypothesis Eo : nth_error ob i = Some o.

Section Pair.
Variables (sf so : shape).
Hypothesis Cf : create (rev (snd f)) = Some sf.
Hypothesis Co : create (snd o) = Some so.
Hypothesis NN : fst f <> None \/ fst o <> None.
Hypothesis Lc : forall n, fst f = Some n \/ fst o = Some n -> length (jjac (K t) n) = cols.
Definition rel s := comp (sinv (comp (joint_place (fst f) (K s)) (s_M sf))) (comp (joint_place (fst o) (K s)) (s_M so)).
Lemma pair_jacobian : exists J p' w', length J = cols /\ Forall (fun x => length x = 6%nat) J /\
  (forall tmp, length tmp = cols -> Forall (fun x => length x = 6%nat) tmp -> jacobian o6 (rtm isId isZero (Surf (fst f) sf) (Surf (fst o) so)) (K t) cols (repeat 0 6) tmp = Some J) /\
  (forall r, (r < 6)%nat -> row_times J r d = nth r (v3l p' ++ v3l w') 0) /\
  vderiv (fun s => tra (rel s)) t p' /\ (log_ok (fst (logSO3 (rot (rel t)))) -> vderiv (fun s => snd (logSO3 (rot (rel s)))) t w').
Proof.
  assert (Nf : fst f <> Some 0%nat) by (rewrite Forall_forall in Fl; apply (Fl f (nth_error_In _ _ Ef))).
  set (F := Surf (fst f) sf). set (O := Surf (fst o) so). rewrite (rtm_setup F O Nf). set (g := setup _ _ _ _ _).
  assert (Ej1 : g_j1 g = fst f) by (unfold g, setup, rtl; cbn; destruct (fst f) as [[|n]|]; [contradiction|reflexivity|reflexivity]).
  assert (Ej2 : g_j2 g = fst o) by reflexivity.
  assert (I := setup_inv isId isZero isIdP isZeroP o6 (repeat true 6) (rtl F O)). fold g in I.
  assert (Sf : surface (over_turned f)) by (apply over_surface; rewrite Forall_forall in Fl; apply (Fl f (nth_error_In _ _ Ef))).
  assert (So : surface o) by (rewrite Forall_forall in Ob; apply (Ob o (nth_error_In _ _ Eo))).
  assert (Rf : rotation (rot (F1 g))) by (apply (shape_frame (over_turned f) sf Sf Cf)).
  assert (Ro : rotation (rot (F2 g))) by (apply (shape_frame o so So Co)).
  assert (M1 : joint_moves (g_j1 g) K t d) by (rewrite Ej1; apply Mv; left; now apply nth_error_In in Ef).
  assert (M2 : joint_moves (g_j2 g) K t d) by (rewrite Ej2; apply Mv; right; now apply nth_error_In in Eo).
  assert (N : g_j1 g <> None \/ g_j2 g <> None) by (rewrite Ej1, Ej2; exact NN).
  assert (L : forall n, g_j1 g = Some n \/ g_j2 g = Some n -> length (jjac (K t) n) = cols) by (rewrite Ej1, Ej2; exact Lc).
  destruct (gt_rates isId isZero isIdP isZeroP o6 (repeat true 6) (rtl F O) K t d cols good6 Rf Ro M1 M2) as (D1 & D2 & _). fold g in D1, D2. specialize (D2 eq_refl).
  assert (ER : forall s, relpose g (K s) = rel s) by (intros s; unfold relpose, rel; rewrite Ej1; reflexivity).
  destruct (pairs_E g (K t) N cols L) as (Ln & Fc & _ & _ & _).
  set (cs := combine _ _) in *. set (J := map (fun c => v3l (jt g (K t) (dflt (fst c)) (dflt (snd c))) ++ v3l (jo o6 g (K t) (dflt (fst c)) (dflt (snd c)))) cs).
  assert (EJ : forall tmp, length tmp = cols -> Forall (fun x => length x = 6%nat) tmp -> jacobian o6 g (K t) cols (repeat 0 6) tmp = Some J).
  { intros tmp Lt Ft. unfold jacobian. fold cs. rewrite (columns_E o6 (repeat true 6) g (K t) I cs _ _ good6 Fc) by (try (cbn; lia); try exact Ft; lia).
    rewrite skipn_all2, app_nil_r by lia. reflexivity. }
  exists J, (jt g (K t) (japp (jcols (g_j1 g) (K t) cols) d) (japp (jcols (g_j2 g) (K t) cols) d)), (jo o6 g (K t) (japp (jcols (g_j1 g) (K t) cols) d) (japp (jcols (g_j2 g) (K t) cols) d)).
  split; [unfold J; now rewrite map_length|]. split; [|split; [exact EJ|split; [|split]]].
  - apply Forall_forall. intros x Hx. apply in_map_iff in Hx as (y & <- & _). reflexivity.
  - intros r Hr. assert (Fz : Forall (fun c => length c = count (repeat true 6)) (repeat (repeat 0 6) cols)) by (apply Forall_forall; intros x Hx; apply repeat_spec in Hx; subst x; reflexivity).
    destruct (row_E o6 (repeat true 6) g (K t) I N cols (repeat 0 6) (repeat (repeat 0 6) cols) r d good6 L ltac:(cbn; lia) Fz ltac:(rewrite repeat_length; lia) Hr) as (J' & EJ' & _ & _ & _ & Er).
    rewrite EJ in EJ' by (try apply repeat_length; exact Fz). injection EJ' as <-. rewrite Er. do 6 (destruct r as [|r]; [reflexivity|]). lia.
  - eapply vderiv_ext; [|exact D1]. intros s. cbv beta. now rewrite ER.
  - intros Lk. rewrite <- ER in Lk. eapply vderiv_ext; [|exact (D2 Lk)]. intros s. cbv beta. now rewrite ER.
Qed.
End Pair.

Lemma near_at (P : R -> Prop) : near t P -> P t.
Proof. intros (e & He & H). apply H. rewrite Rminus_eq_0, Rabs_R0. exact He. Qed.
Definition log_fine : Prop := forall A B, frame (K t) (over_turned f) A -> frame (K t) o B -> log_ok (fst (logSO3 (mul (mtr (rot A)) (rot B)))).

Lemma contact_values_near m : strictly_closest (K t) fl ob j i -> off_sides (K t) f o -> exists b sf so,
  create (rev (snd f)) = Some sf /\ create (snd o) = Some so /\ selected c (K t) = Done (j, i, b) /\
  pair c (K t) = Done (j, i, b, Surf (fst f) sf, Surf (fst o) so, ty (length (snd o))) /\
  near t (fun s => contact_value isId isZero (set_margin c m) (K s) = Done (row_list b (length (snd o)) m (tra (rel sf so s)) (snd (logSO3 (rot (rel sf so s))))) /\
    complement_value isId isZero (set_margin c m) (K s) = Done (row_list' b (2 * INR j * rad c) (2 * INR i * rad c) (tra (rel sf so s)) (snd (logSO3 (rot (rel sf so s)))))).
Proof.
  intros SC OS. destruct (near_selected fl ob radius c Made Fl K t d Mv j i f o Ef Eo SC OS) as (b & Nr). pose proof (near_at _ Nr) as At. cbv beta in At.
  assert (W : forall s, well fl ob (K s)) by (intros s; exact (all_well fl ob K t d Mv s)).
  destruct (pair_done (K t) j i b f o (W t) At Ef Eo) as (sf & so & Cf & Co & Ep). exists b, sf, so. do 4 (split; [assumption|]).
  eapply near_imp; [|exact Nr]. cbv beta. intros s Es. destruct (value_at (K s) j i b f o m (W s) Es Ef Eo) as (sf' & so' & Cf' & Co' & V).
  rewrite Cf in Cf'. injection Cf' as <-. rewrite Co in Co'. injection Co' as <-. exact V.
Qed.

Definition pick (b : bool) (n : nat) (x : list R) : list R :=
  at_ x 0 :: (if b then [0; 0] else [at_ x 1; at_ x 2]) ++ (if Nat.eqb n 1 then [0; 0] else [at_ x 4; at_ x 5]).
Definition pick' (b : bool) (x : list R) : list R := (if b then [at_ x 1; at_ x 2] else [0; 0]) ++ [at_ x 3].

Theorem contact_jacobians m : strictly_closest (K t) fl ob j i -> off_sides (K t) f o -> polygon o \/ single o ->
  fst f <> None \/ fst o <> None -> (forall n, fst f = Some n \/ fst o = Some n -> length (jjac (K t) n) = cols) ->
  exists J J' JH, length J = cols /\ length J' = cols /\ length JH = cols /\
  Forall (fun x => length x = 5%nat) J /\ Forall (fun x => length x = 3%nat) J' /\ Forall (fun x => length x = 8%nat) JH /\
  (forall tmp tmp', length tmp = cols -> length tmp' = cols -> Forall (fun x => length x = 6%nat) tmp -> Forall (fun x => length x = 6%nat) tmp' ->
    contact_jacobian isId isZero (set_margin c m) (K t) cols tmp = Done J /\ complement_jacobian isId isZero (set_margin c m) (K t) cols tmp = Done J' /\
    hold_jacobian isId isZero (set_margin c m) (K t) cols tmp tmp' = Done JH) /\
  (forall r, (r < 5)%nat -> (r < 3)%nat \/ single o \/ log_fine -> deriv (fun s => row r (contact_value isId isZero (set_margin c m) (K s))) t (row_times J r d)) /\
  (forall r, (r < 3)%nat -> (r < 2)%nat \/ log_fine -> deriv (fun s => row r (complement_value isId isZero (set_margin c m) (K s))) t (row_times J' r d)) /\
  (forall r, (r < 8)%nat -> log_fine -> deriv (fun s => row r (hold_fun_value isId isZero (set_margin c m) (K s))) t (row_times JH r d)).
Proof.
  intros SC OS PS NN Lc. destruct (contact_values_near m SC OS) as (b & sf & so & Cf & Co & Es & Ep & Nr).
  destruct (pair_jacobian sf so Cf Co NN Lc) as (J & p' & w' & LJ & FJ & EJ & RJ & Dp & Dw).
  assert (TY : ty (length (snd o)) = POINT_ON_PLANE /\ Nat.eqb (length (snd o)) 1 = true \/ ty (length (snd o)) = PLANE_ON_PLANE /\ Nat.eqb (length (snd o)) 1 = false).
  { destruct PS as [(_ & n & P)|(_ & p & E)]; [right|left; rewrite E; auto]. assert (L := proj1 (proj1 P)). destruct (length (snd o)) as [|[|[|n']]]; try lia. auto. }
  assert (IJ : forall tmp, length tmp = cols -> Forall (fun x => length x = 6%nat) tmp -> internal_jacobian isId isZero (set_margin c m) (K t) cols tmp = Done (b, ty (length (snd o)), J)).
  { intros tmp Lt Ft. unfold internal_jacobian. change (pair (set_margin c m) (K t)) with (pair c (K t)). rewrite Ep. cbn [rbind]. rewrite firstn_all2 by lia. rewrite (EJ tmp Lt Ft). cbn [defined rbind].
    rewrite skipn_all2, app_nil_r by lia. reflexivity. }
  assert (LF : log_fine -> log_ok (fst (logSO3 (rot (rel sf so t))))).
  { intros Lf. unfold rel. rewrite rot_rel. apply Lf.
    - apply (frame_made (K t) (over_turned f) sf); [apply over_surface; rewrite Forall_forall in Fl; apply (Fl f (nth_error_In _ _ Ef))|change (placed_well (K t) f); apply (all_well fl ob K t d Mv t); left; now apply nth_error_In in Ef|exact Cf].
    - apply (frame_made (K t) o so); [rewrite Forall_forall in Ob; apply (Ob o (nth_error_In _ _ Eo))|apply (all_well fl ob K t d Mv t); right; now apply nth_error_In in Eo|exact Co]. }
  assert (EC : forall tmp, length tmp = cols -> Forall (fun x => length x = 6%nat) tmp -> contact_jacobian isId isZero (set_margin c m) (K t) cols tmp = Done (map (pick b (length (snd o))) J)).
  { intros tmp Lt Ft. unfold contact_jacobian. rewrite (IJ tmp Lt Ft). cbn [rbind]. destruct TY as [[E1 E2]|[E1 E2]]; rewrite E1; unfold pick; rewrite E2; reflexivity. }
  assert (EM : forall tmp, length tmp = cols -> Forall (fun x => length x = 6%nat) tmp -> complement_jacobian isId isZero (set_margin c m) (K t) cols tmp = Done (map (pick' b) J)).
  { intros tmp Lt Ft. unfold complement_jacobian. rewrite (IJ tmp Lt Ft). reflexivity. }
  assert (ST : stack (map (pick b (length (snd o))) J) (map (pick' b) J) = map (fun x => pick b (length (snd o)) x ++ pick' b x) J).
  { unfold stack. generalize J. intros l. induction l as [|x l IH]; [reflexivity|]. cbn [map combine fst snd]. now rewrite IH. }
  assert (L5 : forall x, length (pick b (length (snd o)) x) = 5%nat) by (intros x; unfold pick; destruct b, (Nat.eqb _ _); reflexivity).
  assert (L3 : forall x, length (pick' b x) = 3%nat) by (intros x; unfold pick'; destruct b; reflexivity).
  assert (D5 : forall r, (r < 5)%nat -> (r < 3)%nat \/ single o \/ log_fine -> deriv (fun s => row r (contact_value isId isZero (set_margin c m) (K s))) t (row_times (map (pick b (length (snd o))) J) r d)).
  { intros r Hr Ok. apply (near_deriv (fun s => nth r (row_list b (length (snd o)) m (tra (rel sf so s)) (snd (logSO3 (rot (rel sf so s))))) 0)).
    { eapply near_imp; [|exact Nr]. cbv beta. intros s [E _]. rewrite E. reflexivity. }
    assert (Lo : (3 <= r)%nat -> Nat.eqb (length (snd o)) 1 = true \/ vderiv (fun s => snd (logSO3 (rot (rel sf so s)))) t w').
    { intros H3. destruct Ok as [Ok|[(_ & q & Eq)|Ok]]; [lia|left; rewrite Eq; reflexivity|right; apply Dw, LF, Ok]. }
    unfold row_list. destruct Dp as (Dx & Dy & Dz).
    destruct r as [|[|[|[|[|r]]]]]; [| | | | |lia].
    - rewrite (row_pick J _ 0 0) by reflexivity. rewrite RJ by lia. cbn [nth v3l app]. eapply deriv_eq; [|exact (deriv_add _ _ _ _ _ Dx (deriv_const m t))]. ring.
    - destruct b; [rewrite row_none by reflexivity; exact (deriv_const 0 t)|]. rewrite (row_pick J _ 1 1) by reflexivity. rewrite RJ by lia. exact Dy.
    - destruct b; [rewrite row_none by reflexivity; exact (deriv_const 0 t)|]. rewrite (row_pick J _ 2 2) by reflexivity. rewrite RJ by lia. exact Dz.
    - specialize (Lo ltac:(lia)). destruct (Nat.eqb (length (snd o)) 1) eqn:E1.
      + rewrite row_none by (intros x; unfold pick; rewrite E1; destruct b; reflexivity). destruct b; exact (deriv_const 0 t).
      + destruct Lo as [Lo|(_ & Wy & _)]; [discriminate Lo|]. rewrite (row_pick J _ 3 4) by (intros x; unfold pick; rewrite E1; destruct b; reflexivity). rewrite RJ by lia. destruct b; exact Wy.
    - specialize (Lo ltac:(lia)). destruct (Nat.eqb (length (snd o)) 1) eqn:E1.
      + rewrite row_none by (intros x; unfold pick; rewrite E1; destruct b; reflexivity). destruct b; exact (deriv_const 0 t).
      + destruct Lo as [Lo|(_ & _ & Wz)]; [discriminate Lo|]. rewrite (row_pick J _ 4 5) by (intros x; unfold pick; rewrite E1; destruct b; reflexivity). rewrite RJ by lia. destruct b; exact Wz. }
  assert (D3 : forall r, (r < 3)%nat -> (r < 2)%nat \/ log_fine -> deriv (fun s => row r (complement_value isId isZero (set_margin c m) (K s))) t (row_times (map (pick' b) J) r d)).
  { intros r Hr Ok. apply (near_deriv (fun s => nth r (row_list' b (2 * INR j * rad c) (2 * INR i * rad c) (tra (rel sf so s)) (snd (logSO3 (rot (rel sf so s))))) 0)).
    { eapply near_imp; [|exact Nr]. cbv beta. intros s [_ E]. rewrite E. reflexivity. }
    unfold row_list'. destruct Dp as (Dx & Dy & Dz). destruct r as [|[|[|r]]]; [| | |lia]; cbn [nth].
    - destruct b; [rewrite (row_pick J _ 0 1) by reflexivity; rewrite RJ by lia; cbn [nth v3l app]|rewrite row_none by reflexivity].
      + eapply deriv_eq; [|exact (deriv_add _ _ _ _ _ Dy (deriv_const _ t))]. ring.
      + apply deriv_const.
    - destruct b; [rewrite (row_pick J _ 1 2) by reflexivity; rewrite RJ by lia; cbn [nth v3l app]|rewrite row_none by reflexivity].
      + eapply deriv_eq; [|exact (deriv_add _ _ _ _ _ Dz (deriv_const _ t))]. ring.
      + apply deriv_const.
    - destruct Ok as [Ok|Ok]; [lia|]. destruct (Dw (LF Ok)) as (Wx & _). rewrite (row_pick J _ 2 3) by (intros x; unfold pick'; destruct b; reflexivity). rewrite RJ by lia. exact Wx. }
  exists (map (pick b (length (snd o))) J), (map (pick' b) J), (map (fun x => pick b (length (snd o)) x ++ pick' b x) J).
  rewrite !map_length. do 3 (split; [exact LJ|]).
  split; [apply Forall_forall; intros x Hx; apply in_map_iff in Hx as (y & <- & _); apply L5|].
  split; [apply Forall_forall; intros x Hx; apply in_map_iff in Hx as (y & <- & _); apply L3|].
  split; [apply Forall_forall; intros x Hx; apply in_map_iff in Hx as (y & <- & _); rewrite app_length, L5, L3; reflexivity|].
  split; [|split; [exact D5|split; [exact D3|]]].
  - intros tmp tmp' Lt Lt' Ft Ft'. split; [now apply EC|]. split; [now apply EM|]. unfold hold_jacobian. rewrite (EC tmp Lt Ft). cbn [rbind]. rewrite (EM tmp' Lt' Ft'). cbn [rbind]. now rewrite ST.
  - intros r Hr Lf. destruct (Nat.lt_ge_cases r 5) as [H5|H5].
    + apply (near_deriv (fun s => row r (contact_value isId isZero (set_margin c m) (K s)))).
      { eapply near_imp; [|exact Nr]. cbv beta. intros s [E1 E2]. unfold hold_fun_value. rewrite E1. cbn [rbind]. rewrite E2. cbn [rbind row]. symmetry. apply app_nth1. unfold row_list. destruct b, (Nat.eqb _ _); cbn; lia. }
      replace (row_times (map (fun x => pick b (length (snd o)) x ++ pick' b x) J) r d) with (row_times (map (pick b (length (snd o))) J) r d); [now apply D5; auto|].
      unfold row_times. rewrite !map_map. f_equal. apply map_ext. intros x. symmetry. apply app_nth1. rewrite L5. exact H5.
    + apply (near_deriv (fun s => row (r - 5) (complement_value isId isZero (set_margin c m) (K s)))).
      { eapply near_imp; [|exact Nr]. cbv beta. intros s [E1 E2]. unfold hold_fun_value. rewrite E1. cbn [rbind]. rewrite E2. cbn [rbind row]. symmetry.
        assert (Q : length (row_list b (length (snd o)) m (tra (rel sf so s)) (snd (logSO3 (rot (rel sf so s))))) = 5%nat) by (unfold row_list; destruct b, (Nat.eqb _ _); reflexivity). rewrite app_nth2, Q by lia. reflexivity. }
      replace (row_times (map (fun x => pick b (length (snd o)) x ++ pick' b x) J) r d) with (row_times (map (pick' b) J) (r - 5) d); [apply D3; [lia|auto]|].
      unfold row_times. rewrite !map_map. f_equal. apply map_ext. intros x. symmetry. rewrite app_nth2; rewrite L5; [reflexivity|exact H5].
Qed.

(** * Cases that fail *)
Lemma line_throws b m : selected c (K t) = Done (j, i, b) -> segment o -> fst f <> None \/ fst o <> None -> (forall n, fst f = Some n \/ fst o = Some n -> length (jjac (K t) n) = cols) ->
  (exists v, contact_value isId isZero (set_margin c m) (K t) = Done v) /\
  forall tmp, length tmp = cols -> Forall (fun x => length x = 6%nat) tmp -> contact_jacobian isId isZero (set_margin c m) (K t) cols tmp = Throws.
Proof.
  intros E (_ & p & q & _ & Eq) NN Lc. assert (W := all_well fl ob K t d Mv t). destruct (value_at (K t) j i b f o m W E Ef Eo) as (sf & so & Cf & Co & V & _). split; [eexists; exact V|]. intros tmp Lt Ft.
  destruct (pair_done (K t) j i b f o W E Ef Eo) as (sf' & so' & Cf' & Co' & Ep). unfold contact_jacobian, internal_jacobian. change (pair (set_margin c m) (K t)) with (pair c (K t)). rewrite Ep, Eq. cbn [length ty rbind].
  destruct (pair_jacobian sf' so' Cf' Co' NN Lc) as (J & _ & _ & _ & _ & EJ & _). rewrite firstn_all2, (EJ tmp Lt Ft) by lia. reflexivity.
Qed.
(** two surfaces fixed in the world *)
Lemma null_undefined b m tmp : selected c (K t) = Done (j, i, b) -> fst f = None -> fst o = None -> (0 < cols)%nat -> length tmp = cols ->
  (exists v, contact_value isId isZero (set_margin c m) (K t) = Done v) /\ contact_jacobian isId isZero (set_margin c m) (K t) cols tmp = Undefined.
Proof.
  intros E Nf No Hc Lt. assert (W := all_well fl ob K t d Mv t). destruct (value_at (K t) j i b f o m W E Ef Eo) as (sf & so & Cf & Co & V & _). split; [eexists; exact V|].
  destruct (pair_done (K t) j i b f o W E Ef Eo) as (sf' & so' & Cf' & Co' & Ep). unfold contact_jacobian, internal_jacobian. change (pair (set_margin c m) (K t)) with (pair c (K t)). rewrite Ep. cbn [rbind]. rewrite Nf, No.
  rewrite firstn_all2 by lia. unfold jacobian, rtm. cbn [g_j1 g_j2 sj jcolumns]. destruct cols as [|n]; [lia|]. destruct tmp as [|x tmp]; [discriminate Lt|]. reflexivity.
Qed.
(** extra degrees of freedom: the columns of the temporary matrix *)
Lemma extra_junk b m tmp x : selected c (K t) = Done (j, i, b) -> polygon o -> fst f <> None \/ fst o <> None -> (forall n, fst f = Some n \/ fst o = Some n -> length (jjac (K t) n) = cols) ->
  length tmp = cols -> Forall (fun x => length x = 6%nat) tmp -> exists J, length J = cols /\ contact_jacobian isId isZero (set_margin c m) (K t) cols (tmp ++ [x]) = Done (J ++ [pick b 3 x]).
Proof.
  intros E (_ & n & P) NN Lc Lt Ft. assert (W := all_well fl ob K t d Mv t). destruct (pair_done (K t) j i b f o W E Ef Eo) as (sf & so & Cf & Co & Ep). destruct (pair_jacobian sf so Cf Co NN Lc) as (J & _ & _ & LJ & _ & EJ & _).
  exists (map (pick b 3) J). split; [now rewrite map_length|]. unfold contact_jacobian, internal_jacobian. change (pair (set_margin c m) (K t)) with (pair c (K t)). rewrite Ep. cbn [rbind].
  assert (F1 : firstn cols (tmp ++ [x]) = tmp) by (rewrite firstn_app, Lt, Nat.sub_diag, firstn_all2 by lia; apply app_nil_r).
  assert (F2 : skipn cols (tmp ++ [x]) = [x]) by (rewrite skipn_app, Lt, Nat.sub_diag, skipn_all2 by lia; reflexivity).
  rewrite F1, F2, (EJ tmp Lt Ft). cbn [defined rbind].
  assert (L := proj1 (proj1 P)). destruct (length (snd o)) as [|[|[|n']]]; try lia. cbn [ty]. rewrite map_app. reflexivity.
Qed.
End J.
End G.
