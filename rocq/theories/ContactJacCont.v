(** The pair selected does not change near a time where it is strictly the closest. *)
From Coq Require Import Reals List Bool Arith Lra Lia.
From Verif Require Import ContactModel ContactMain GTModel GTSpec.
From Verif Require Import Geo GeoLemmas Rigid ShapeModel ShapeSpec ShapeGeo ShapeProofs ShapeMain ContactNear ContactJacModel ContactJacSpec ContactJacProofs ContactJacMain.
Import ListNotations.
Local Open Scope R_scope.
Local Notation norm := Rigid.norm.
Local Ltac vr := apply v3_eq; gcbn; ring.

Lemma point_deriv j K t d p : joint_moves j K t d -> exists v, vderiv (fun s => placed (joint_at (K s) j) p) t v.
Proof.
  destruct j as [j|]; cbn [joint_at option_map placed joint_moves]; [|intros _; exists v0; apply vderiv_const].
  intros (_ & Mr & Mt). eexists. unfold act. apply vderiv_add; [|exact Mt]. apply (vderiv_mulv (fun s => rot (place (K s) j)) (fun _ => p)); [exact Mr|apply vderiv_const].
Qed.
Lemma unpoint_deriv j K t d g v : joint_moves j K t d -> vderiv g t v -> exists w, vderiv (fun s => unplaced (joint_at (K s) j) (g s)) t w.
Proof.
  destruct j as [j|]; cbn [joint_at option_map unplaced joint_moves]; [|intros _ D; exists v; exact D].
  intros (_ & Mr & Mt) D. eexists. unfold actInv. apply (vderiv_mulv (fun s => mtr (rot (place (K s) j))) (fun s => vsub (g s) (tra (place (K s) j)))); [apply mderiv_tr, Mr|].
  apply vderiv_sub; [exact D|exact Mt].
Qed.
Lemma moves_well K t d (s : option nat * list v3) : joint_moves (fst s) K t d -> forall x, placed_well (K x) s.
Proof. unfold placed_well. destruct (fst s) as [j|]; cbn; [intros [H _]; exact H|auto]. Qed.
Lemma seen_deriv K t d f o : joint_moves (fst f) K t d -> joint_moves (fst o) K t d -> snd o <> [] -> exists w, vderiv (fun s => seen (K s) f o) t w.
Proof.
  intros Hf Ho N. destruct (point_deriv (fst o) K t d (mean (snd o)) Ho) as [v D]. destruct (unpoint_deriv (fst f) K t d _ v Hf D) as [w D'].
  exists w. eapply vderiv_ext; [|exact D']. intros s. cbv beta. unfold seen, world. rewrite mean_placed; [reflexivity|apply (moves_well K t d o Ho)|exact N].
Qed.

Lemma sign_near pts a b r r' : signed_distance pts a r -> signed_distance pts b r' -> r <> 0 -> norm (vsub b a) < / 2 * Rabs r -> (r' < 0 <-> r < 0).
Proof.
  intros (S1 & S2 & S3) (T1 & T2 & T3) NZ N. destruct (Rtotal_order r 0) as [L|[L|L]]; [|contradiction|].
  - rewrite (Rabs_left _ L) in *. split; [auto|intros _]. destruct (Rlt_dec r' 0) as [|G]; [assumption|exfalso]. apply Rnot_lt_le in G. rewrite (Rabs_right r') in T2 by lra.
    assert (H : ~ ~ hull pts a) by (intros Q; apply S1 in Q; lra).
    assert (Le : r' <= norm (vsub b a)).
    { destruct (Rle_dec r' (norm (vsub b a))) as [|Q]; [assumption|]. destruct H. intros Ha. apply Q. destruct (Rle_lt_or_eq_dec _ _ G) as [P|<-]; [|apply norm_nonneg]. apply (proj2 (T3 P)), Ha. }
    destruct T2 as [(x & Bx & Nx) _]. pose proof (proj2 S2 x Bx). pose proof (triangle_sub a b x). rewrite (norm_swap a b) in *. lra.
  - rewrite (Rabs_right r) in * by lra. split; [|lra]. intros G. exfalso.
    assert (H : ~ ~ hull pts b) by (intros Q; apply T1 in Q; lra). destruct H. intros Hb. pose proof (proj2 (S3 L) b Hb). rewrite (norm_swap a b) in *. lra.
Qed.
Lemma sub_zero p q : vsub p q = v0 -> p = q.
Proof. intros Q. assert (Qx := f_equal vx Q). assert (Qy := f_equal vy Q). assert (Qz := f_equal vz Q). cbn in Qx, Qy, Qz. apply v3_eq; lra. Qed.
Definition outer_m (v : v3) := M3 (vscale (vx v) v) (vscale (vy v) v) (vscale (vz v) v).

Section G.
Variables (fl ob : list (option nat * list v3)) (radius : list surf -> R) (c : contact).
Hypothesis Made : create_contact fl ob radius = Done c.
Hypothesis Fl : Forall polygon fl.
Notation dp k := (floor_dp (fs c k) (os c k) nowhere).
Notation dn k := (floor_dn (fs c k) (os c k) nowhere).
Variables (K : R -> kins) (t : R) (d : list R).
Hypothesis Mv : forall s, In s fl \/ In s ob -> joint_moves (fst s) K t d.

Lemma all_well s : well fl ob (K s).
Proof. intros x Hx. apply (moves_well K t d), Mv, Hx. Qed.
Lemma object_some i o : nth_error ob i = Some o -> snd o <> [].
Proof. intros E. destruct (made fl ob radius c Made Fl) as (_ & _ & _ & HO). destruct (HO i o E) as (s & _ & C). intros Z. rewrite Z in C. discriminate C. Qed.

Lemma data j i f o : nth_error fl j = Some f -> nth_error ob i = Some o -> exists n s, convex_polygon n (snd f) /\ nth_error (floors c) j = Some (Surf (fst f) s) /\ create (rev (snd f)) = Some s /\
  forall x, let u := seen (K x) f o in let a := vsub u (vscale (dn (K x) j i) (s_N s)) in
  dn (K x) j i = vdot (s_N s) (vsub u (s_C s)) /\ signed_distance (snd f) a (dp (K x) j i) /\ in_plane n (snd f) a /\
  distance_to (hull (snd f)) u (sqrt (far c (K x) j i)) /\ apart (K x) f o (sqrt (far c (K x) j i)).
Proof.
  intros Ef Eo. destruct (floor_at fl ob radius c Made Fl (K t) j f (all_well t) Ef) as (_ & (n & P) & s & Es & Cs). exists n, s. split; [exact P|]. split; [exact Es|]. split; [exact Cs|].
  intros x. assert (Wf : placed_well (K x) f) by (apply all_well; left; now apply nth_error_In in Ef). assert (Wo : placed_well (K x) o) by (apply all_well; right; now apply nth_error_In in Eo).
  destruct (pair_at fl ob radius c Made Fl (K x) j i f o s Wf Wo Ef Eo Es Cs n P) as (A & B & C & _ & D & E). auto.
Qed.

Lemma near_far j i f o j' i' f' o' : nth_error fl j = Some f -> nth_error ob i = Some o -> nth_error fl j' = Some f' -> nth_error ob i' = Some o' ->
  far c (K t) j i < far c (K t) j' i' -> near t (fun s => far c (K s) j i < far c (K s) j' i').
Proof.
  intros Ef Eo Ef' Eo' L. destruct (data j i f o Ef Eo) as (n & s & _ & _ & _ & D). destruct (data j' i' f' o' Ef' Eo') as (n' & s' & _ & _ & _ & D').
  destruct (seen_deriv K t d f o) as [w W]; [apply Mv; left; now apply nth_error_In in Ef|apply Mv; right; now apply nth_error_In in Eo|now apply (object_some i)|].
  destruct (seen_deriv K t d f' o') as [w' W']; [apply Mv; left; now apply nth_error_In in Ef'|apply Mv; right; now apply nth_error_In in Eo'|now apply (object_some i')|].
  assert (G : sqrt (far c (K t) j i) < sqrt (far c (K t) j' i')) by (apply sqrt_lt_1_alt; split; [apply far_pos|exact L]).
  set (e := (sqrt (far c (K t) j' i') - sqrt (far c (K t) j i)) / 2). assert (E : 0 < e) by (unfold e; lra).
  eapply near_imp; [|apply near_and; [exact (vderiv_near _ _ _ e W E)|exact (vderiv_near _ _ _ e W' E)]].
  cbv beta. intros x [N N']. apply sqrt_lt_0_alt. destruct (D x) as (_ & _ & _ & A & _). destruct (D' x) as (_ & _ & _ & A' & _). destruct (D t) as (_ & _ & _ & B & _). destruct (D' t) as (_ & _ & _ & B' & _).
  pose proof (distance_lipschitz _ _ _ _ _ A B). pose proof (distance_lipschitz _ _ _ _ _ B' A'). rewrite (norm_swap (seen (K t) f' o')) in *. unfold e in *. lra.
Qed.

Lemma off_zero j i f o n s : nth_error fl j = Some f -> nth_error ob i = Some o -> convex_polygon n (snd f) -> create (rev (snd f)) = Some s ->
  let a := vsub (seen (K t) f o) (vscale (dn (K t) j i) (s_N s)) in off_sides (K t) f o -> ~ boundary (snd f) a.
Proof.
  intros Ef Eo P Cs a Off B. assert (Wf : placed_well (K t) f) by (apply all_well; left; now apply nth_error_In in Ef).
  pose proof (rev_polygon _ _ P) as P'. destruct (create_polygon _ _ P') as (s0 & E0 & _ & N0 & _). rewrite Cs in E0. injection E0 as <-.
  apply (placed_boundary (joint_at (K t) (fst f)) Wf) in B. fold (world (K t) f) in B.
  assert (E : placed (joint_at (K t) (fst f)) a = vadd (mean (world (K t) o)) (vscale (dn (K t) j i * / norm (vopp n)) (turned (joint_at (K t) (fst f)) n))).
  { rewrite <- (placed_un _ Wf (vadd (mean (world (K t) o)) _)). f_equal.
    replace (vadd (mean (world (K t) o)) (vscale (dn (K t) j i * / norm (vopp n)) (turned (joint_at (K t) (fst f)) n))) with (vsub (mean (world (K t) o)) (vscale (- (dn (K t) j i * / norm (vopp n))) (turned (joint_at (K t) (fst f)) n))) by vr.
    rewrite unplaced_move by exact Wf. fold (seen (K t) f o). unfold a. rewrite N0, normalize_E by apply (poly_nz _ _ P'). vr. }
  rewrite E in B. exact (Off _ _ P B).
Qed.

Lemma near_inside j i f o : nth_error fl j = Some f -> nth_error ob i = Some o -> off_sides (K t) f o -> near t (fun s => dp (K s) j i < 0 <-> dp (K t) j i < 0).
Proof.
  intros Ef Eo Off. destruct (data j i f o Ef Eo) as (n & s & P & Es & Cs & D). pose proof (off_zero j i f o n s Ef Eo P Cs Off) as NB. cbv zeta in NB.
  destruct (seen_deriv K t d f o) as [w W]; [apply Mv; left; now apply nth_error_In in Ef|apply Mv; right; now apply nth_error_In in Eo|now apply (object_some i)|].
  set (a := fun x => vsub (seen (K x) f o) (vscale (dn (K x) j i) (s_N s))).
  assert (Wa : exists w', vderiv a t w').
  { eexists. eapply vderiv_ext with (f := fun x => vsub (seen (K x) f o) (mulv (outer_m (s_N s)) (vsub (seen (K x) f o) (s_C s)))).
    - intros x. unfold a. destruct (D x) as (-> & _). f_equal. unfold outer_m. apply v3_eq; gcbn; ring.
    - apply vderiv_sub; [exact W|]. apply (vderiv_mulv (fun _ => outer_m (s_N s)) (fun x => vsub (seen (K x) f o) (s_C s))); [apply mderiv_const|]. apply vderiv_sub; [exact W|apply vderiv_const]. }
  destruct Wa as [w' Wa]. destruct (D t) as (_ & (S1 & S2 & S3) & _). fold (a t) in S1, S2, S3, NB.
  assert (NZ : dp (K t) j i <> 0). { intros Z. rewrite Z, Rabs_R0 in S2. destruct S2 as [(x & Bx & Nx) _]. apply NB. replace (a t) with x; [exact Bx|].
    symmetry. apply sub_zero, vdot_zero. rewrite <- norm_square, Nx. ring. }
  assert (PA : 0 < Rabs (dp (K t) j i)) by (now apply Rabs_pos_lt).
  eapply near_imp; [|exact (vderiv_near _ _ _ _ Wa (Rmult_lt_0_compat _ _ (ltac:(lra) : 0 < / 2) PA))].
  cbv beta. intros x N. destruct (D x) as (_ & (T1 & T2 & T3) & _). fold (a x) in T1, T2, T3.
  now apply (sign_near (snd f) (a t) (a x)); [split; [exact S1|split; [exact S2|exact S3]]|split; [exact T1|split; [exact T2|exact T3]]| |].
Qed.

Theorem near_selected j i f o : nth_error fl j = Some f -> nth_error ob i = Some o -> strictly_closest (K t) fl ob j i -> off_sides (K t) f o ->
  exists b, near t (fun s => selected c (K s) = Done (j, i, b)).
Proof.
  intros Ef Eo (f0 & o0 & Ef0 & Eo0 & St) Off. rewrite Ef in Ef0. injection Ef0 as <-. rewrite Eo in Eo0. injection Eo0 as <-.
  assert (NF : fl <> []) by (intros Z; rewrite Z in Ef; destruct j; discriminate Ef). assert (NO : ob <> []) by (intros Z; rewrite Z in Eo; destruct i; discriminate Eo).
  assert (FarT : forall j' i', (j' < length fl)%nat -> (i' < length ob)%nat -> (j', i') <> (j, i) -> near t (fun s => far c (K s) j i < far c (K s) j' i')).
  { intros j' i' Hj Hi Ne. destruct (get _ _ Hj) as [f' Ef']. destruct (get _ _ Hi) as [o' Eo']. apply (near_far j i f o j' i' f' o'); try assumption. apply sqrt_lt_0_alt.
    destruct (data j i f o Ef Eo) as (n1 & s1 & _ & _ & _ & D). destruct (data j' i' f' o' Ef' Eo') as (n2 & s2 & _ & _ & _ & D').
    destruct (D t) as (_ & _ & _ & _ & A). destruct (D' t) as (_ & _ & _ & _ & A'). exact (St j' i' f' o' _ _ Ef' Eo' Ne A A'). }
  exists (if Rlt_dec (dp (K t) j i) 0 then true else false).
  eapply near_imp; [|apply near_and; [|exact (near_inside j i f o Ef Eo Off)]].
  2: { apply near_lt with (n := length fl) (P := fun j' s => forall i', (i' < length ob)%nat -> (j', i') <> (j, i) -> far c (K s) j i < far c (K s) j' i').
       intros j' Hj. apply near_lt with (P := fun i' s => (j', i') <> (j, i) -> far c (K s) j i < far c (K s) j' i'). intros i' Hi.
       destruct (Nat.eq_dec j' j) as [->|]; [destruct (Nat.eq_dec i' i) as [->|]|].
       - eapply near_imp; [|apply near_true]. intros s _ Z. now destruct Z.
       - eapply near_imp; [|apply (FarT j i' Hj Hi)]; [auto|congruence].
       - eapply near_imp; [|apply (FarT j' i' Hj Hi)]; [auto|congruence]. }
  cbv beta. intros s [Lt In]. destruct (selected_at fl ob radius c Made Fl (K s) (all_well s) NF NO) as (j0 & i0 & b & f0 & o0 & E & Ef0 & Eo0 & B & M).
  assert (Hj0 : (j0 < length fl)%nat) by (apply nth_error_Some; congruence). assert (Hi0 : (i0 < length ob)%nat) by (apply nth_error_Some; congruence).
  assert (Q : (j0, i0) = (j, i)).
  { destruct (Nat.eq_dec j0 j) as [->|]; [destruct (Nat.eq_dec i0 i) as [->|]; [reflexivity|]|].
    all: exfalso; assert (Hj : (j < length fl)%nat) by (apply nth_error_Some; congruence); assert (Hi : (i < length ob)%nat) by (apply nth_error_Some; congruence); specialize (M j i Hj Hi).
    - specialize (Lt j Hj i0 Hi0 ltac:(congruence)). lra.
    - specialize (Lt j0 Hj0 i0 Hi0 ltac:(congruence)). lra. }
  injection Q as -> ->. rewrite E. do 2 f_equal. destruct (Rlt_dec (dp (K t) j i) 0) as [L|L].
  - apply B, In, L.
  - destruct b; [|reflexivity]. exfalso. apply L, In, B. reflexivity.
Qed.
End G.
