(** Contacts: surfaces as built by the constructor, selection of the pair at a configuration. *)
From Coq Require Import Reals List Bool Arith Lra Lia.
From Verif Require Import ContactModel ContactMain GTModel GTSpec.
From Verif Require Import Geo GeoLemmas Rigid ShapeModel ShapeSpec ShapeGeo ShapeProofs ShapeMain ContactNear ContactJacModel ContactJacSpec.
Import ListNotations.
Local Open Scope R_scope.
Local Notation norm := Rigid.norm.
Local Ltac vr := apply v3_eq; gcbn; ring.

(** * Surfaces *)
Lemma create_pts pts s : create pts = Some s -> s_pts s = pts /\ s_dim s = length pts /\ s_C s = mean pts /\ tra (s_M s) = s_C s.
Proof.
  unfold create, init, mean. intros E. rewrite vapp_const. destruct pts as [|p [|q [|r l]]]; [discriminate E| | |]; injection E as <-; cbn [s_pts s_dim s_C s_M tra]; repeat split.
  - apply v3_eq; cbn; field.
  - apply v3_eq; cbn; field.
  - f_equal. generalize (vsum (p :: q :: r :: l)). intros. vr.
Qed.
Lemma create_some p l : exists s, create (p :: l) = Some s.
Proof. unfold create, init. destruct l as [|q [|r l]]; eauto. Qed.
Lemma copy_create pts s : create pts = Some s -> copy s = Some s.
Proof. intros E. unfold copy. rewrite (proj1 (create_pts _ _ E)). exact E. Qed.
Lemma object_made o s : add_object o = Done s -> sj s = fst o /\ create (snd o) = Some (ss s).
Proof.
  unfold add_object. destruct (create (snd o)) as [s0|] eqn:E; cbn; [|discriminate]. rewrite (copy_create _ _ E). cbn. intros [= <-]. auto.
Qed.
Lemma floor_made f s n : convex_polygon n (snd f) -> add_floor f = Done s -> sj s = fst f /\ create (rev (snd f)) = Some (ss s).
Proof.
  intros P. unfold add_floor. destruct (create (snd f)) as [s0|] eqn:E; cbn; [|discriminate]. rewrite (copy_create _ _ E). cbn.
  destruct (reverse_right _ _ _ P E) as (s' & R & C & _). rewrite R. cbn. rewrite (copy_create _ _ C). cbn. intros [= <-]. auto.
Qed.
Lemma all_nth {A B} (f : A -> res B) l : forall l', all f l = Done l' -> length l' = length l /\
  forall i x, nth_error l i = Some x -> exists y, nth_error l' i = Some y /\ f x = Done y.
Proof.
  induction l as [|a l IH]; intros l' E; cbn in E; [injection E as <-; split; [reflexivity|intros [|i] x H; discriminate H]|].
  destruct (f a) as [b| |] eqn:Ea; try discriminate E. cbn in E. destruct (all f l) as [bs| |]; try discriminate E. injection E as <-.
  destruct (IH bs eq_refl) as [L H]. split; [cbn; congruence|]. intros [|i] x Hx; [injection Hx as <-; exists b; auto|exact (H i x Hx)].
Qed.
Lemma mean_placed J pts : rigid J -> pts <> [] -> mean (map (placed J) pts) = placed J (mean pts).
Proof.
  intros RJ N. unfold mean. rewrite map_length, placed_vapp by (try exact RJ; apply repeat_length).
  assert (T : total (repeat 1 (length pts)) = INR (length pts)).
  { generalize (length pts). intros m. induction m; [reflexivity|]. rewrite S_INR. cbn [repeat total]. rewrite IHm. ring. }
  rewrite T. assert (P : INR (length pts) <> 0) by (apply not_0_INR; destruct pts; [congruence|discriminate]).
  assert (Pl : forall p, placed J p = vadd (turned J p) (placed J v0)).
  { intros p. pose proof (placed_sub J RJ p v0) as E. replace (vsub p v0) with p in E by vr. rewrite <- E. generalize (placed J p) (placed J v0). intros. vr. }
  rewrite (Pl (vscale _ _)). assert (S : forall a v, turned J (vscale a v) = vscale a (turned J v)) by (intros; unfold turned; destruct J; [apply mulv_scale|reflexivity]).
  rewrite S. generalize (turned J (vapp pts (repeat 1 (length pts)))) (placed J v0). intros. apply v3_eq; gcbn; field; exact P.
Qed.
Lemma turned_scale J a v : turned J (vscale a v) = vscale a (turned J v).
Proof. unfold turned. destruct J; [apply mulv_scale|reflexivity]. Qed.
Lemma unplaced_move J x l v : rigid J -> unplaced J (vsub x (vscale l (turned J v))) = vsub (unplaced J x) (vscale l v).
Proof.
  intros RJ. destruct J as [M|]; cbn [unplaced turned]; [|reflexivity]. unfold actInv.
  replace (vsub (vsub x (vscale l (mulv (rot M) v))) (tra M)) with (vsub (vsub x (tra M)) (vscale l (mulv (rot M) v))) by (generalize (mulv (rot M) v) (tra M); intros; vr).
  rewrite mulv_sub, mulv_scale, rotation_inv by exact RJ. reflexivity.
Qed.
Lemma line_plane c N C : vdot N N = 1 -> linePlaneIntersection c N C N = vsub c (vscale (vdot N (vsub c C)) N).
Proof.
  intros U. unfold linePlaneIntersection. rewrite U. assert (Eq : vdot N (vsub C c) / 1 = - vdot N (vsub c C)) by (unfold vdot, vsub; cbn; field). rewrite Eq.
  generalize (vdot N (vsub c C)). intros. vr.
Qed.

(** distances of a pair, in the frame of the joint of the floor *)
Lemma pair_local n pts J s o : rigid J -> convex_polygon n pts -> create pts = Some s ->
  let u := unplaced J (center o) in let dn := vdot (s_N s) (vsub u (s_C s)) in let a := vsub u (vscale dn (s_N s)) in
  exists dp, pair_dist (J, s) o = (Val dp, dn) /\ in_plane n pts a /\ signed_distance pts a dp /\
    isInside (update J s) J s (intersection (update J s) (center o) (d_normal (update J s))) = isInsideLocal s a /\
    distance_to (hull pts) u (sqrt (if Rlt_dec dp 0 then dn ^ 2 else dp ^ 2 + dn ^ 2)).
Proof.
  intros RJ H E u dn a. destruct (pair_right n pts None s (None, Shape [] 0 u v0 [] [] [] sid) I H E) as (dp & dn' & E1 & D).
  destruct (create_polygon _ _ H) as (s0 & E0 & _ & N0 & C0 & _ & _ & _ & Hc). rewrite E in E0. injection E0 as <-. rewrite <- C0 in Hc.
  assert (UN : vdot (s_N s) (s_N s) = 1) by (rewrite N0; apply normalize_unit, (poly_nz _ _ H)).
  assert (UT : vdot (turned J (s_N s)) (turned J (s_N s)) = 1) by (now rewrite turned_dot).
  unfold pair_dist in E1. cbn [fst snd update d_center d_normal s_C distance intersection] in E1. unfold intersection in E1. cbn [d_center d_normal] in E1. rewrite (line_plane u _ _ UN) in E1. fold dn a in E1.
  injection E1 as Ea Ed. change (distanceLocal s a = Val dp) in Ea. subst dn'. exists dp. fold (placed None) in D. cbn [placed fst snd s_C] in D.
  assert (Pl : in_plane n pts a).
  { assert (PN : vdot n (vsub a (s_C s)) = 0).
    { assert (Q : vdot (s_N s) (vsub a (s_C s)) = 0).
      { unfold a. replace (vdot (s_N s) (vsub (vsub u (vscale dn (s_N s))) (s_C s))) with (vdot (s_N s) (vsub u (s_C s)) - dn * vdot (s_N s) (s_N s)) by (unfold vdot, vsub, vscale; cbn; ring). rewrite UN. fold dn. ring. }
      rewrite N0, normalize_E in Q by apply (poly_nz _ _ H). pose proof (norm_gt0 _ (poly_nz _ _ H)) as Pn. pose proof (Rinv_0_lt_compat _ Pn).
      replace (vdot (vscale (/ norm n) n) (vsub a (s_C s))) with (/ norm n * vdot n (vsub a (s_C s))) in Q by (unfold vdot, vscale; cbn; ring). apply Rmult_integral in Q as [Q|Q]; [lra|exact Q]. }
    pose proof (hull_plane _ _ (proj1 H) _ Hc) as Q. unfold in_plane in *. unfold vdot, vsub in *. cbn in *. lra. }
  assert (Ex : intersection (update J s) (center o) (d_normal (update J s)) = vsub (center o) (vscale dn (turned J (s_N s))) /\ vdot (d_normal (update J s)) (vsub (center o) (d_center (update J s))) = dn).
  { assert (En : d_normal (update J s) = turned J (s_N s)) by (unfold update, turned; destruct J; reflexivity).
    assert (Ec : d_center (update J s) = placed J (s_C s)) by (unfold update, placed; destruct J; reflexivity).
    assert (Q : vdot (turned J (s_N s)) (vsub (center o) (placed J (s_C s))) = dn).
    { unfold dn, u. rewrite <- (placed_un J RJ (center o)) at 1. rewrite placed_sub, turned_dot by exact RJ. reflexivity. }
    unfold intersection. rewrite En, Ec, line_plane, Q by exact UT. auto. }
  destruct Ex as [Ex Edn]. split; [|split; [|split; [|split]]].
  - unfold pair_dist. cbn [fst snd]. fold (center o). rewrite Edn, Ex. f_equal. rewrite <- Ea. unfold distance.
    replace (match J with Some _ => actInv (d_oMj (update J s)) (vsub (center o) (vscale dn (turned J (s_N s)))) | None => vsub (center o) (vscale dn (turned J (s_N s))) end)
      with (unplaced J (vsub (center o) (vscale dn (turned J (s_N s))))) by (destruct J; reflexivity).
    now rewrite unplaced_move.
  - exact Pl.
  - destruct (distance_right _ _ _ _ H E Pl) as (r & Er & S). rewrite Er in Ea. injection Ea as <-. exact S.
  - rewrite Ex. unfold isInside.
    replace (match J with Some _ => isInsideLocal s (actInv (d_oMj (update J s)) (vsub (center o) (vscale dn (turned J (s_N s))))) | None => isInsideLocal s (vsub (center o) (vscale dn (turned J (s_N s)))) end)
      with (isInsideLocal s (unplaced J (vsub (center o) (vscale dn (turned J (s_N s)))))) by (destruct J; reflexivity).
    now rewrite unplaced_move.
  - assert (M : map (placed None) pts = pts) by apply map_id. rewrite M in D. exact D.
Qed.
