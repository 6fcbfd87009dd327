(** The contact of convex shapes only depends on the relative pose of the joints. *)
From Coq Require Import ZArith Reals Lra Lia List Bool Arith.
From Verif Require Import ContactModel.
From Verif Require Import Geo GeoLemmas Rigid ShapeModel GTModel GTSpec SE3Proofs GTProofs ContactJacModel RelPoseModel RelPoseSpec RelPoseProofs.
Import ListNotations.
Local Open Scope R_scope.

Lemma vdot_tr m a b : vdot (mulv m a) b = vdot a (mulv (mtr m) b).
Proof. destruct m as [[? ? ?] [? ? ?] [? ? ?]], a, b. gcbn. ring. Qed.
Lemma act_comp A B p : act (comp A B) p = act A (act B p).
Proof. unfold act, comp. cbn [rot tra]. rewrite mulvA, mulv_add. unfold act. now rewrite vadd_A. Qed.
Lemma act_sid p : act sid p = p.
Proof. unfold act, sid. cbn [rot tra]. now rewrite mul1v, vadd_0. Qed.
Lemma actInv_sinv M p : ShapeModel.actInv M p = act (sinv M) p.
Proof. unfold ShapeModel.actInv, act, sinv. cbn [rot tra]. rewrite mulv_sub. generalize (mulv (mtr (rot M)) p), (mulv (mtr (rot M)) (tra M)). geo. Qed.
Lemma actInv_act M p : rotation (rot M) -> ShapeModel.actInv M (act M p) = p.
Proof. intros R. rewrite actInv_sinv, <- act_comp, sinv_l by exact R. apply act_sid. Qed.

Definition where_ (j : option se3) : se3 := match j with Some M => M | None => sid end.
Lemma dist_rel jf s jo t : rotation (rot (where_ jf)) ->
  pair_dist (jf, s) (jo, t) =
  let A := act (comp (sinv (where_ jf)) (where_ jo)) (s_C t) in
  (distanceLocal s (linePlaneIntersection A (s_N s) (s_C s) (s_N s)), vdot (s_N s) (vsub A (s_C s))).
Proof.
  intros R. unfold pair_dist. cbn [fst snd].
  assert (C : d_center (update jo t) = act (where_ jo) (s_C t)) by (destruct jo; cbn; [reflexivity|now rewrite act_sid]).
  rewrite C. cbv zeta. rewrite act_comp. generalize (act (where_ jo) (s_C t)). intros X. rewrite <- actInv_sinv.
  destruct jf as [M|]; cbn [where_ update distance intersection d_normal d_center d_oMj] in *.
  - set (n := s_N s) in *. set (c := s_C s) in *.
    assert (D : forall y, vdot (mulv (rot M) n) (vsub (act M c) y) = vdot n (vsub c (ShapeModel.actInv M y))).
    { intros y. rewrite vdot_tr. f_equal. unfold ShapeModel.actInv, act. rewrite !mulv_sub, mulv_add, (rotation_inv _ _ R).
      generalize (mulv (mtr (rot M)) (tra M)), (mulv (mtr (rot M)) y). destruct c. geo. }
    assert (NN : vdot (mulv (rot M) n) (mulv (rot M) n) = vdot n n) by (rewrite vdot_tr, (rotation_inv _ _ R); reflexivity).
    f_equal.
    + unfold distance. f_equal. unfold intersection, linePlaneIntersection. cbn [d_center d_normal d_oMj]. rewrite D, NN.
      generalize (vdot n (vsub c (ShapeModel.actInv M X)) / vdot n n). intros x. unfold ShapeModel.actInv.
      rewrite !mulv_sub, mulv_add, mulv_scale, (rotation_inv _ _ R).
      generalize (mulv (mtr (rot M)) (tra M)), (mulv (mtr (rot M)) X). destruct n. geo.
    + rewrite vdot_tr. f_equal. unfold ShapeModel.actInv, act. rewrite !mulv_sub, mulv_add, (rotation_inv _ _ R).
      generalize (mulv (mtr (rot M)) (tra M)), (mulv (mtr (rot M)) X). destruct c. geo.
  - rewrite actInv_sinv, sinv_sid, act_sid. unfold distance, intersection. reflexivity.
Qed.

Lemma fold_ext {A B} (f f' : A -> B -> A) l : (forall a b, In b l -> f a b = f' a b) -> forall a, fold_left f l a = fold_left f' l a.
Proof. induction l as [|x l IH]; intros H a; [reflexivity|]. cbn. rewrite H by now left. apply IH. intros; apply H. now right. Qed.
Lemma select_ext dp dn dp' dn' nf no : (forall j i, (j < nf)%nat -> (i < no)%nat -> dp j i = dp' j i /\ dn j i = dn' j i) ->
  ContactModel.select dp dn nf no = ContactModel.select dp' dn' nf no.
Proof.
  intros H. unfold ContactModel.select. f_equal. apply fold_ext. intros a [j i] I. unfold pairs in I. apply in_flat_map in I as (j' & J & I).
  apply in_map_iff in I as (i' & E & I). injection E as -> ->. apply in_seq in J, I. destruct (H j i ltac:(lia) ltac:(lia)) as [E1 E2].
  unfold sel_step, ContactModel.dist. cbn [fst snd]. rewrite E1, E2. reflexivity.
Qed.
Lemma forallb_same {A} (f g : A -> bool) l : (forall x, In x l -> f x = g x) -> forallb f l = forallb g l.
Proof. induction l as [|x l IH]; intros H; [reflexivity|]. cbn. rewrite H by now left. f_equal. apply IH. intros; apply H. now right. Qed.

Section C.
Variables (isId : m3 -> bool) (isZero : v3 -> bool) (c : contact) (k k' : kins).
Hypothesis (P : proper k) (P' : proper k').
Hypothesis H : forall f o, In f (floors c) -> In o (objects c) -> seen (sj f, sj o) k = seen (sj f, sj o) k'.
Lemma jp_rot kk j : proper kk -> rotation (rot (joint_place j kk)).
Proof. intros [_ Q]. destruct j; [apply Q|apply rotation_1]. Qed.
Lemma where_at kk s : where_ (fst (at_k kk s)) = joint_place (sj s) kk.
Proof. unfold at_k. cbn [fst]. destruct (sj s); reflexivity. Qed.
Lemma dist_same f o : In f (floors c) -> In o (objects c) -> pair_dist (at_k k f) (at_k k o) = pair_dist (at_k k' f) (at_k k' o).
Proof.
  intros Hf Ho. unfold at_k at 1 2 3 4. rewrite !dist_rel.
  - change (option_map (place k) (sj f)) with (fst (at_k k f)). change (option_map (place k) (sj o)) with (fst (at_k k o)).
    change (option_map (place k') (sj f)) with (fst (at_k k' f)). change (option_map (place k') (sj o)) with (fst (at_k k' o)).
    rewrite !where_at. pose proof (H f o Hf Ho) as E. unfold seen in E. cbn [fst snd] in E. rewrite E. reflexivity.
  - change (option_map (place k') (sj f)) with (fst (at_k k' f)). rewrite where_at. now apply jp_rot.
  - change (option_map (place k) (sj f)) with (fst (at_k k f)). rewrite where_at. now apply jp_rot.
Qed.
Lemma selected_same : selected c k = selected c k'.
Proof.
  unfold selected. assert (E : readable c k = readable c k').
  { unfold readable. apply forallb_same. intros f Hf. apply forallb_same. intros o Ho. now rewrite dist_same. }
  rewrite E. destruct (readable c k'); [|reflexivity]. f_equal. rewrite !map_length. apply select_ext. intros j i Hj Hi.
  unfold floor_dp, floor_dn.
  assert (N : forall kk l n, (n < length l)%nat -> exists s, In s l /\ nth n (map (at_k kk) l) nowhere = at_k kk s /\ nth_error l n = Some s).
  { intros kk l n L. destruct (nth_error l n) as [s|] eqn:Q; [|apply nth_error_None in Q; lia].
    exists s. split; [eapply nth_error_In, Q|]. split; [|reflexivity]. apply nth_error_nth. now rewrite nth_error_map, Q. }
  destruct (N k _ _ Hj) as (f & If & -> & Nf), (N k _ _ Hi) as (o & Io & -> & No), (N k' _ _ Hj) as (f' & _ & -> & Nf'), (N k' _ _ Hi) as (o' & _ & -> & No').
  rewrite Nf in Nf'. injection Nf' as <-. rewrite No in No'. injection No' as <-. rewrite dist_same by assumption. auto.
Qed.
Lemma poseE g kk : proper kk -> GTModel.pose g kk = GTModel.actInv (F1 g) (comp (seen (g_j1 g, g_j2 g) kk) (F2 g)).
Proof.
  intros Q. unfold GTModel.pose, seen. cbn [fst snd]. rewrite compA. change (M2 g kk) with (joint_place (g_j2 g) kk).
  destruct (g_j1 g) as [j|] eqn:J; cbn [joint_place].
  - rewrite (actInvE (M1 kk j)) by (apply Q). reflexivity.
  - now rewrite sinv_sid, comp_sid_l.
Qed.
Lemma internal_same : internal_value isId isZero c k = internal_value isId isZero c k'.
Proof.
  unfold internal_value, pair. rewrite selected_same. destruct (selected c k') as [[[j i] b]| |]; cbn [rbind]; try reflexivity.
  destruct (nth_error (objects c) i) as [o|] eqn:Eo; cbn [defined rbind]; [|reflexivity].
  destruct (nth_error (floors c) j) as [f|] eqn:Ef; cbn [defined rbind]; [|reflexivity].
  destruct (copy (ss f)) as [fs|]; cbn [built rbind]; [|reflexivity].
  destruct (contactType (ss o) (ss (Surf (sj f) fs))) as [ty| |]; cbn [rbind]; try reflexivity.
  do 2 f_equal. unfold raw. cbn [orientation position so3 ContactJacModel.o6].
  rewrite !poseE by assumption. cbn [rtm g_j1 g_j2 F1 F2 sj ss]. rewrite (H f o); [reflexivity|eapply nth_error_In, Ef|eapply nth_error_In, Eo].
Qed.
End C.

Lemma index_place k a b : proper k -> jindex a = jindex b -> joint_place a k = joint_place b k.
Proof.
  intros [Q _] E. destruct a as [[|a]|], b as [[|b]|]; cbn in *; try discriminate; try congruence.
Qed.
Lemma contact_depends : forall (isId : m3 -> bool) (isZero : v3 -> bool) c, contact_joints c <> nobody ->
  floors c <> [] /\ objects c <> [] /\
  (forall f o, In f (floors c) -> In o (objects c) ->
     exists a b, pair_of (contact_joints c) a b /\ jindex a = jindex (sj f) /\ jindex b = jindex (sj o)) /\
  forall k k', proper k -> proper k' -> seen (contact_joints c) k = seen (contact_joints c) k' ->
    contact_value isId isZero c k = contact_value isId isZero c k' /\
    complement_value isId isZero c k = complement_value isId isZero c k' /\
    hold_fun_value isId isZero c k = hold_fun_value isId isZero c k'.
Proof.
  intros isId isZero c. unfold contact_joints. destruct (floors c) as [|f0 fl] eqn:EF; [congruence|]. destruct (objects c) as [|o0 ol] eqn:EO; [congruence|].
  rewrite <- EF, <- EO. destruct (forallb _ (floors c)) eqn:A; [|congruence]. destruct (forallb _ (objects c)) eqn:B; [|congruence].
  intros N. rewrite forallb_forall in A, B.
  assert (A' : forall f, In f (floors c) -> jindex (sj f) = jindex (sj f0)) by (intros; now apply Nat.eqb_eq, A).
  assert (B' : forall f, In f (objects c) -> jindex (sj f) = jindex (sj o0)) by (intros; now apply Nat.eqb_eq, B).
  split; [now rewrite EF|]. split; [now rewrite EO|]. split.
  - intros f o Hf Ho. exists (sj f0), (sj o0). rewrite (A' f Hf), (B' o Ho). split; [apply in_order_pair|auto].
  - intros k k' P P' E. apply (seen_pair k k' _ (sj f0) (sj o0) P P' (in_order_pair _ _)) in E.
    assert (H : forall f o, In f (floors c) -> In o (objects c) -> seen (sj f, sj o) k = seen (sj f, sj o) k').
    { intros f o Hf Ho. unfold seen in *. cbn [fst snd] in *.
      rewrite (index_place k _ _ P (A' f Hf)), (index_place k _ _ P (B' o Ho)), (index_place k' _ _ P' (A' f Hf)), (index_place k' _ _ P' (B' o Ho)). exact E. }
    pose proof (internal_same isId isZero c k k' P P' H) as I. unfold hold_fun_value, contact_value, complement_value. rewrite I. auto.
Qed.
