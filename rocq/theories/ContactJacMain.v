(** Contacts: the pair selected, its continuity along a motion. *)
From Coq Require Import Reals List Bool Arith Lra Lia.
From Verif Require Import ContactModel ContactMain GTModel GTSpec.
From Verif Require Import Geo GeoLemmas Rigid ShapeModel ShapeSpec ShapeGeo ShapeProofs ShapeMain ContactNear ContactJacModel ContactJacSpec ContactJacProofs.
Import ListNotations.
Local Open Scope R_scope.
Local Notation norm := Rigid.norm.
Local Ltac vr := apply v3_eq; gcbn; ring.

Section G.
Variables (fl ob : list (option nat * list v3)) (radius : list surf -> R) (c : contact).
Hypothesis Made : create_contact fl ob radius = Done c.
Hypothesis Fl : Forall polygon fl.

Lemma made : length (floors c) = length fl /\ length (objects c) = length ob /\
  (forall j f, nth_error fl j = Some f -> exists s, nth_error (floors c) j = Some (Surf (fst f) s) /\ create (rev (snd f)) = Some s) /\
  (forall i o, nth_error ob i = Some o -> exists s, nth_error (objects c) i = Some (Surf (fst o) s) /\ create (snd o) = Some s).
Proof.
  unfold create_contact in Made. destruct (all add_floor fl) as [fs| |] eqn:EF; try discriminate Made. destruct (all add_object ob) as [os| |] eqn:EO; try discriminate Made.
  injection Made as <-. destruct (all_nth _ _ _ EF) as [LF HF]. destruct (all_nth _ _ _ EO) as [LO HO]. cbn [floors objects].
  split; [exact LF|]. split; [exact LO|]. split.
  - intros j f Hj. destruct (HF j f Hj) as ([j' s] & Es & Ea). rewrite Forall_forall in Fl. destruct (Fl f (nth_error_In _ _ Hj)) as (_ & n & P).
    destruct (floor_made _ _ _ P Ea) as [Ej Ec]. cbn in Ej, Ec. subst j'. eauto.
  - intros i o Hi. destruct (HO i o Hi) as ([j' s] & Es & Ea). destruct (object_made _ _ Ea) as [Ej Ec]. cbn in Ej, Ec. subst j'. eauto.
Qed.

(** center of an object in the joint of a floor *)
Definition seen (k : kins) (f o : option nat * list v3) : v3 := unplaced (joint_at k (fst f)) (mean (world k o)).

Definition fs k := map (at_k k) (floors c).
Definition os k := map (at_k k) (objects c).
Notation dp k := (floor_dp (fs k) (os k) nowhere).
Notation dn k := (floor_dn (fs k) (os k) nowhere).
Definition far k j i := if Rlt_dec (dp k j i) 0 then dn k j i ^ 2 else dp k j i ^ 2 + dn k j i ^ 2.

Lemma nth_fs k j s : nth_error (floors c) j = Some s -> nth j (fs k) nowhere = at_k k s.
Proof. intros H. apply nth_error_nth. unfold fs. rewrite nth_error_map, H. reflexivity. Qed.
Lemma nth_os k i s : nth_error (objects c) i = Some s -> nth i (os k) nowhere = at_k k s.
Proof. intros H. apply nth_error_nth. unfold os. rewrite nth_error_map, H. reflexivity. Qed.
Lemma center_at k o s : placed_well k o -> create (snd o) = Some s -> center (joint_at k (fst o), s) = mean (world k o).
Proof.
  intros W E. destruct (create_pts _ _ E) as (_ & _ & C & _). unfold world. rewrite mean_placed; [|exact W|intros Z; rewrite Z in E; discriminate E].
  rewrite <- C. unfold center, update, placed. cbn [fst snd]. destruct (joint_at k (fst o)); reflexivity.
Qed.

Lemma pair_at k j i f o s : placed_well k f -> placed_well k o -> nth_error fl j = Some f -> nth_error ob i = Some o -> nth_error (floors c) j = Some (Surf (fst f) s) -> create (rev (snd f)) = Some s ->
  forall n, convex_polygon n (snd f) ->
  let u := seen k f o in let a := vsub u (vscale (dn k j i) (s_N s)) in
  dn k j i = vdot (s_N s) (vsub u (s_C s)) /\ signed_distance (snd f) a (dp k j i) /\ in_plane n (snd f) a /\
  (exists so, nth_error (objects c) i = Some (Surf (fst o) so) /\ create (snd o) = Some so /\
    fst (pair_dist (at_k k (Surf (fst f) s)) (at_k k (Surf (fst o) so))) = Val (dp k j i) /\
    snd (pair_dist (at_k k (Surf (fst f) s)) (at_k k (Surf (fst o) so))) = dn k j i /\
    inside_of k (Surf (fst f) s) (Surf (fst o) so) = isInsideLocal s a) /\
  distance_to (hull (snd f)) u (sqrt (far k j i)) /\ apart k f o (sqrt (far k j i)).
Proof.
  intros Wf Wo Ef Eo Es Cs n P u a. destruct made as (_ & _ & _ & HO). destruct (HO i o Eo) as (so & Eso & Co).
  pose proof (rev_polygon _ _ P) as P'.
  destruct (pair_local _ _ (joint_at k (fst f)) s (joint_at k (fst o), so) Wf P' Cs) as (dp' & Ep & Ip & Sp & Ii & D).
  rewrite (center_at k o so Wo Co) in Ep, Ip, Sp, Ii, D. fold u in Ep, Ip, Sp, Ii, D. fold (seen k f o) in Ep, Ip, Sp, Ii, D. fold u in Ep, Ip, Sp, Ii, D.
  assert (E1 : dp k j i = dp') by (unfold floor_dp; rewrite (nth_fs _ _ _ Es), (nth_os _ _ _ Eso); unfold at_k; cbn [sj ss]; fold (joint_at k (fst f)) (joint_at k (fst o)); rewrite Ep; reflexivity).
  assert (E2 : dn k j i = vdot (s_N s) (vsub u (s_C s))) by (unfold floor_dn; rewrite (nth_fs _ _ _ Es), (nth_os _ _ _ Eso); unfold at_k; cbn [sj ss]; fold (joint_at k (fst f)) (joint_at k (fst o)); rewrite Ep; reflexivity).
  unfold a. rewrite E2. split; [reflexivity|]. rewrite E1. split; [|split; [|split; [|split]]].
  - destruct Sp as (A & B & C). split; [|split].
    + rewrite A. now rewrite hull_rev_iff.
    + split; [destruct (proj1 B) as (x & X & Y); exists x; split; [now apply boundary_rev_iff|exact Y]|intros x X; apply (proj2 B); now apply boundary_rev_iff].
    + intros Q. destruct (C Q) as [(x & X & Y) M]. split; [exists x; split; [now apply hull_rev_iff|exact Y]|intros y Y'; apply M; now apply hull_rev_iff].
  - unfold in_plane in *. destruct P as [(L & PP & _) _]. cbv zeta in PP. rewrite vertex_rev in Ip by lia.
    specialize (PP (length (snd f) - 1 - 0)%nat ltac:(lia)). unfold vdot, vsub, vopp in *. cbn in *. lra.
  - exists so. split; [exact Eso|]. split; [exact Co|]. unfold at_k; cbn [sj ss]; fold (joint_at k (fst f)) (joint_at k (fst o)). rewrite Ep. split; [reflexivity|]. split; [reflexivity|].
    unfold inside_of, at_k. cbn [sj ss fst]. fold (joint_at k (fst f)) (joint_at k (fst o)). change (d_center (update (joint_at k (fst o)) so)) with (center (joint_at k (fst o), so)).
    rewrite (center_at k o so Wo Co). exact Ii.
  - unfold far. rewrite E1, E2. destruct D as [(x & X & Y) M]. split; [exists x; split; [now apply hull_rev_iff|exact Y]|intros y Y'; apply M; now apply hull_rev_iff].
  - unfold far. rewrite E1, E2. unfold apart, world at 1. apply (placed_distance (joint_at k (fst f)) Wf (hull (snd f))); [intros; now apply placed_hull|].
    destruct D as [(x & X & Y) M]. split; [exists x; split; [now apply hull_rev_iff|exact Y]|intros y Y'; apply M; now apply hull_rev_iff].
Qed.

Definition well k := forall s, In s fl \/ In s ob -> placed_well k s.
Lemma floor_at k j f : well k -> nth_error fl j = Some f -> placed_well k f /\ (exists n, convex_polygon n (snd f)) /\ exists s, nth_error (floors c) j = Some (Surf (fst f) s) /\ create (rev (snd f)) = Some s.
Proof.
  intros W E. destruct made as (_ & _ & HF & _). pose proof (nth_error_In _ _ E) as I. rewrite Forall_forall in Fl. split; [apply W; auto|]. split; [apply (Fl f I)|apply (HF j f E)].
Qed.
Lemma get {A} (l : list A) i : (i < length l)%nat -> exists x, nth_error l i = Some x.
Proof. intros H. destruct (nth_error l i) eqn:E; [eauto|]. apply nth_error_None in E. lia. Qed.

Lemma readable_ok k : well k -> readable c k = true.
Proof.
  intros W. unfold readable. destruct made as (LF & LO & HF & HO). apply forallb_forall. intros sf If. apply forallb_forall. intros so Io.
  apply In_nth_error in If as [j Ej]. apply In_nth_error in Io as [i Ei].
  assert (Hj : (j < length fl)%nat) by (rewrite <- LF; apply nth_error_Some; congruence). assert (Hi : (i < length ob)%nat) by (rewrite <- LO; apply nth_error_Some; congruence).
  destruct (get _ _ Hj) as [f Ef]. destruct (get _ _ Hi) as [o Eo]. destruct (floor_at k j f W Ef) as (Wf & (n & P) & s & Es & Cs).
  assert (Wo : placed_well k o) by (apply W; right; now apply nth_error_In in Eo).
  destruct (pair_at k j i f o s Wf Wo Ef Eo Es Cs n P) as (_ & _ & _ & (so' & Eso & _ & V & _) & _).
  rewrite Ej in Es. injection Es as ->. rewrite Ei in Eso. injection Eso as ->. rewrite V. reflexivity.
Qed.
Lemma selected_at k : well k -> fl <> [] -> ob <> [] -> exists j i b f o, selected c k = Done (j, i, b) /\ nth_error fl j = Some f /\ nth_error ob i = Some o /\ (b = true <-> dp k j i < 0) /\
  forall j' i', (j' < length fl)%nat -> (i' < length ob)%nat -> far k j i <= far k j' i'.
Proof.
  intros W NF NO. unfold selected. rewrite (readable_ok k W). fold (fs k) (os k). destruct made as (LF & LO & _).
  assert (L1 : length (fs k) = length fl) by (unfold fs; now rewrite map_length). assert (L2 : length (os k) = length ob) by (unfold os; now rewrite map_length). rewrite L1, L2.
  pose proof (selection (dp k) (dn k) (length fl) (length ob)) as S. cbv zeta in S.
  destruct (ContactModel.select (dp k) (dn k) (length fl) (length ob)) as [[[j i] b]|].
  - destruct S as (Hj & Hi & B & M). destruct (get _ _ Hj) as [f Ef]. destruct (get _ _ Hi) as [o Eo]. exists j, i, b, f, o.
    split; [reflexivity|]. repeat (split; [assumption|]). intros j' i' Hj' Hi'. apply M; assumption.
  - destruct S as [S|S]; apply length_zero_iff_nil in S; contradiction.
Qed.
Lemma far_pos k j i : 0 <= far k j i.
Proof. unfold far. destruct Rlt_dec; nra. Qed.
Lemma selected_closest k j i b : well k -> selected c k = Done (j, i, b) -> closest k fl ob j i.
Proof.
  intros W E. assert (NN : fl <> [] /\ ob <> []).
  { unfold selected in E. rewrite (readable_ok k W) in E. fold (fs k) (os k) in E. destruct made as (LF & LO & _).
    pose proof (selection (dp k) (dn k) (length (fs k)) (length (os k))) as S. cbv zeta in S. destruct (ContactModel.select _ _ _ _) as [[[j0 i0] b0]|]; [|discriminate E].
    destruct S as (Hj & Hi & _). unfold fs, os in Hj, Hi. rewrite map_length in Hj, Hi. split; intros Z; rewrite Z in *; cbn in *; lia. }
  destruct (selected_at k W (proj1 NN) (proj2 NN)) as (j0 & i0 & b0 & f & o & E' & Ef & Eo & _ & M). rewrite E in E'. injection E' as <- <- <-.
  exists f, o. split; [exact Ef|]. split; [exact Eo|]. intros j' i' f' o' r r' Ef' Eo' D D'.
  destruct (floor_at k j f W Ef) as (Wf & (n & P) & s & Es & Cs). destruct (floor_at k j' f' W Ef') as (Wf' & (n' & P') & s' & Es' & Cs').
  assert (Wo : placed_well k o) by (apply W; right; now apply nth_error_In in Eo). assert (Wo' : placed_well k o') by (apply W; right; now apply nth_error_In in Eo').
  destruct (pair_at k j i f o s Wf Wo Ef Eo Es Cs n P) as (_ & _ & _ & _ & _ & A). destruct (pair_at k j' i' f' o' s' Wf' Wo' Ef' Eo' Es' Cs' n' P') as (_ & _ & _ & _ & _ & A').
  rewrite (distance_unique _ _ _ _ D A), (distance_unique _ _ _ _ D' A'). apply sqrt_le_1_alt, M; apply nth_error_Some; congruence.
Qed.
End G.
