(** Relative poses of joints and constraints. *)
From Coq Require Import String ZArith Reals Lra Lia List Bool Arith.
From Verif Require Import Geo GeoLemmas Rigid LogModel LogSpec RotProofs LogProofs LogMain SE3Proofs GTModel GTSpec GTTheorems.
From Verif Require Import SegModel SegSpec SegProofs EcsModel ImplModel ImplSpec ImplProofs SaveProofs ContactJacModel RelPoseModel RelPoseSpec.
Import ListNotations.
Local Open Scope R_scope.

(** * The logarithm is injective on rotations of less than a half turn *)
Lemma log_axis m : rotation m -> 0 < angle m < PI ->
  exists u c, vdot u u = 1 /\ m = about u (angle m) /\ snd (logSO3 m) = vscale c u /\
    (/ 1000000 < angle m /\ c = angle m \/ angle m <= / 1000000 /\ c = sin (angle m)).
Proof.
  intros H B. destruct (mid_axis m H B) as (u & U & V & M & W). pose proof pi_big.
  destruct (Rlt_dec (/ 1000000) (angle m)) as [L|L].
  - exists u, (angle m). rewrite (log_mid m H) by lra. cbn [snd]. repeat split; auto.
  - exists u, (sin (angle m)). split; [exact U|]. split; [exact M|]. split; [|right; lra].
    unfold logSO3. destruct (Rlt_dec (angle m) (PI - / 100)); [|lra].
    destruct (Rlt_dec (/ 1000000) (angle m)); [lra|]. cbn [snd]. rewrite V. destruct u; cv; f_equal; field.
Qed.
Lemma log_zero m : rotation m -> angle m = 0 -> snd (logSO3 m) = v0.
Proof.
  intros H A. pose proof (angle_0 m H A) as ->. unfold logSO3. rewrite A. pose proof pi_big.
  destruct (Rlt_dec 0 (PI - / 100)); [|lra]. destruct (Rlt_dec (/ 1000000) 0); [lra|]. cbn [snd]. cv. f_equal; ring.
Qed.
Lemma vscale_norm c u : vdot u u = 1 -> vdot (vscale c u) (vscale c u) = c * c.
Proof. destruct u as [x y z]. cv. intros E. replace (c * c) with (c * c * (x * x + y * y + z * z)) by (rewrite E; ring). ring. Qed.
Lemma log_inj m m' : rotation m -> rotation m' -> angle m < PI -> angle m' < PI ->
  snd (logSO3 m) = snd (logSO3 m') -> m = m'.
Proof.
  intros H H' A A' E. pose proof (angle_bounds m H) as B. pose proof (angle_bounds m' H') as B'. pose proof pi_big as P.
  assert (SP : forall t, 0 < t < PI -> 0 < sin t) by (intros t Ht; apply sin_gt_0; lra).
  destruct (Req_dec (angle m) 0) as [Z|Z], (Req_dec (angle m') 0) as [Z'|Z'].
  - now rewrite (angle_0 m H Z), (angle_0 m' H' Z').
  - exfalso. destruct (log_axis m' H') as (u & c & U & _ & L & D); [lra|]. rewrite (log_zero m H Z), L in E.
    pose proof (vscale_norm c u U) as N. rewrite <- E in N. replace (vdot v0 v0) with 0 in N by (cv; ring).
    specialize (SP (angle m') ltac:(lra)). destruct D as [[? ->]|[? ->]]; nra.
  - exfalso. destruct (log_axis m H) as (u & c & U & _ & L & D); [lra|]. rewrite (log_zero m' H' Z'), L in E.
    pose proof (vscale_norm c u U) as N. rewrite E in N. replace (vdot v0 v0) with 0 in N by (cv; ring).
    specialize (SP (angle m) ltac:(lra)). destruct D as [[? ->]|[? ->]]; nra.
  - destruct (log_axis m H) as (u & c & U & M & L & D); [lra|]. destruct (log_axis m' H') as (u' & c' & U' & M' & L' & D'); [lra|].
    rewrite L, L' in E. pose proof (vscale_norm c u U) as N. rewrite E, (vscale_norm c' u' U') in N.
    pose proof (SP (angle m) ltac:(lra)) as S. pose proof (SP (angle m') ltac:(lra)) as S'.
    assert (C : 0 < c) by (destruct D as [[? ->]|[? ->]]; lra). assert (C' : 0 < c') by (destruct D' as [[? ->]|[? ->]]; lra).
    assert (CC : c = c') by nra.
    assert (UU : u = u').
    { subst c'. destruct u as [x y z], u' as [x' y' z']. unfold vscale in E. cbn in E. injection E as E1 E2 E3.
      f_equal; apply (Rmult_eq_reg_l c); lra. }
    assert (TT : angle m = angle m').
    { destruct D as [[D1 D2]|[D1 D2]], D' as [[D1' D2']|[D1' D2']]; [lra| | |].
      - pose proof (sin_lt_x (angle m') ltac:(lra)). lra.
      - pose proof (sin_lt_x (angle m) ltac:(lra)). lra.
      - apply sin_inj; lra. }
    rewrite M, M', UU, TT. reflexivity.
Qed.

(** * Pairs *)
Lemma in_order_pair a b : pair_of (in_order a b) a b.
Proof.
  unfold pair_of, in_order. destruct (Nat.leb_spec (jindex a) (jindex b)) as [E|E]; cbn [fst snd]; split; auto;
    destruct a, b; cbn in *; auto; lia.
Qed.
Lemma seen_swap k a b : proper k -> seen (b, a) k = sinv (seen (a, b) k).
Proof.
  intros P. unfold seen. cbn [fst snd]. assert (Q : forall j, rotation (rot (joint_place j k))) by (intros [j|]; [apply P|apply rotation_1]).
  rewrite sinv_comp, sinvK; auto. now apply rot_sinv.
Qed.
Lemma seen_pair k k' p a b : proper k -> proper k' -> pair_of p a b -> (seen p k = seen p k' <-> seen (a, b) k = seen (a, b) k').
Proof.
  intros P P' [[-> | ->] _]; [reflexivity|]. split; intros E.
  - now rewrite (seen_swap k b a P), (seen_swap k' b a P'), E.
  - now rewrite (seen_swap k a b P), (seen_swap k' a b P'), E.
Qed.

Lemma filter_full m : length (filter (fun b : bool => b) m) = length m -> m = repeat true (length m).
Proof.
  assert (B : forall m : list bool, (length (filter (fun b => b) m) <= length m)%nat) by (induction m0 as [|[] m0 IH]; cbn; lia).
  induction m as [|[] m IH]; cbn; intros E; [reflexivity|f_equal; apply IH; lia|specialize (B m); lia].
Qed.
(** * Transformation functions *)
Section GT.
Variables (isId : m3 -> bool) (isZero : v3 -> bool) (quat : m3 -> list R).
Hypothesis (HI : forall m, isId m = true -> m = m1) (HZ : forall v, isZero v = true -> v = v0) (HQ : forall m, length (quat m) = 4%nat).
Variables (o : opts) (mask : list bool) (l : list setter).
Hypothesis (GM : good_mask o mask).
Let g := setup isId isZero o mask l.
Hypothesis (RF1 : rotation (rot (F1 g))) (RF2 : rotation (rot (F2 g))).

Lemma relposeE k : proper k -> relpose g k = comp (sinv (F1 g)) (comp (seen (g_j1 g, g_j2 g) k) (F2 g)).
Proof.
  intros P. unfold relpose, seen. cbn [fst snd]. assert (Q : forall j, rotation (rot (joint_place j k))) by (intros [j|]; [apply P|apply rotation_1]).
  rewrite sinv_comp by auto. now rewrite !compA.
Qed.
Lemma relpose_seen k k' : proper k -> proper k' -> (relpose g k = relpose g k' <-> seen (gt_joints g) k = seen (gt_joints g) k').
Proof.
  intros P P'. unfold gt_joints. rewrite (seen_pair k k' _ _ _ P P' (in_order_pair _ _)), !relposeE by assumption.
  split; [|now intros ->]. intros E. apply comp_inj in E; [|now apply rot_sinv]. now apply comp_inj_r in E.
Qed.
Lemma relpose_rot k : proper k -> rotation (rot (relpose g k)).
Proof.
  intros P. assert (Q : forall j, rotation (rot (joint_place j k))) by (intros [j|]; [apply P|apply rotation_1]).
  unfold relpose. repeat first [apply rot_comp|apply rot_sinv]; auto.
Qed.
Lemma value_of k : proper k -> value quat o g k = select (mask ++ if so3 o then [true] else []) (coords quat o (relpose g k)).
Proof. intros [_ P]. apply gt_value; auto. Qed.
Lemma gt_depends k k' : proper k -> proper k' -> seen (gt_joints g) k = seen (gt_joints g) k' -> value quat o g k = value quat o g k'.
Proof. intros P P' E. rewrite !value_of by assumption. now rewrite (proj2 (relpose_seen k k' P P') E). Qed.

Lemma count_all : count mask = 6%nat -> position o = true /\ orientation o = true /\ mask = repeat true 6.
Proof.
  intros C. destruct GM as (L & _ & _). unfold count in C.
  assert (B : forall m : list bool, (length (filter (fun b => b) m) <= length m)%nat) by (induction m as [|[] m IH]; cbn; lia).
  assert (L6 : length mask = 6%nat) by (specialize (B mask); destruct (position o), (orientation o); cbn in L; lia).
  split; [destruct (position o); [reflexivity|destruct (orientation o); cbn in L; lia]|].
  split; [destruct (orientation o); [reflexivity|destruct (position o); cbn in L; lia]|].
  rewrite <- L6. apply filter_full. lia.
Qed.

(** all six rows *)
Lemma gt_constrained k k' : proper k -> proper k' -> count mask = 6%nat ->
  (if so3 o then forall a b, rotation a -> rotation b -> quat a = quat b -> a = b
   else angle (rot (relpose g k)) < PI /\ angle (rot (relpose g k')) < PI) ->
  value quat o g k = value quat o g k' -> seen (gt_joints g) k = seen (gt_joints g) k'.
Proof.
  intros P P' C A E. apply (relpose_seen k k' P P'). destruct (count_all C) as (Po & Or & Em).
  rewrite !value_of, Em in E by assumption. unfold coords in E. rewrite Po, Or in E.
  pose proof (relpose_rot k P) as Rk. pose proof (relpose_rot k' P') as Rk'.
  destruct (relpose g k) as [m v], (relpose g k') as [m' v']. cbn [rot tra] in *.
  assert (T : v = v' /\ m = m'); [|destruct T; congruence].
  destruct (so3 o).
  - pose proof (HQ m) as L. pose proof (HQ m') as L'.
    destruct (quat m) as [|a [|b [|c [|d [|? ?]]]]] eqn:Q; try discriminate. destruct (quat m') as [|a' [|b' [|c' [|d' [|? ?]]]]] eqn:Q'; try discriminate.
    cbn in E. injection E as E1 E2 E3 E4 E5 E6 E7. split; [now apply v3_eq|]. apply A; auto. rewrite Q, Q'. congruence.
  - cbn in E. injection E as E1 E2 E3 E4 E5 E6. split; [now apply v3_eq|]. apply log_inj; try tauto. now apply v3_eq.
Qed.
End GT.

(** * Constraints *)
Lemma full_rows {F} (c : impl F) : impl_reach c -> ((cardinal (m_inactive c) =? 0)%Z = true <-> Forall (fun b => b = true) (m_mask c)).
Proof.
  intros R. assert (I : m_inactive c = inactive_rows (m_mask c)) by (induction R; auto).
  rewrite I. destruct (mask_rows_ok (m_mask c)) as (_ & B & _).
  assert (N : nonneg (inactive_rows (m_mask c))) by (apply positive_nonneg, shrink_positive, true_segs_positive).
  rewrite Z.eqb_eq. split.
  - intros E. apply Forall_forall. intros b Hb. destruct b; [reflexivity|exfalso].
    apply In_nth_error in Hb. destruct Hb as [n Hn]. apply (card0 _ N E (Z.of_nat n)). apply B. split; [lia|]. now rewrite Nat2Z.id.
  - intros E. apply nocover_card; [exact N|]. intros i Hi. apply B in Hi. destruct Hi as [_ Hi]. apply nth_error_In in Hi.
    rewrite Forall_forall in E. specialize (E _ Hi). discriminate.
Qed.
Lemma constrained_some {F} nv (c : impl F) d : impl_reach c -> constrained_joints nv c d <> nobody ->
  constrained_joints nv c d = d /\ nv = 6%nat /\ Forall (fun b => b = true) (m_mask c).
Proof.
  intros R. unfold constrained_joints. destruct (nv =? 6)%nat eqn:E; [|cbn; congruence].
  destruct (cardinal (m_inactive c) =? 0)%Z eqn:G; [|cbn; congruence]. cbn. intros _.
  apply Nat.eqb_eq in E. repeat split; auto. now apply full_rows.
Qed.
Lemma constrained_all {F} (c : impl F) d : impl_reach c -> Forall (fun b => b = true) (m_mask c) -> constrained_joints 6 c d = d.
Proof. intros R A. unfold constrained_joints. apply (full_rows c R) in A. rewrite A. reflexivity. Qed.
Lemma select_all {A} (l : list A) m : length m = length l -> Forall (fun b => b = true) m -> select m l = l.
Proof. revert l. induction m as [|b m IH]; intros [|x l] L H; try discriminate; [reflexivity|]. inversion H; subst. cbn. f_equal. apply IH; auto. Qed.

Lemma select_length {A} m (l : list A) : length l = length m -> length (select m l) = count m.
Proof. revert l. unfold count. induction m as [|[] m IH]; intros [|x l] L; try discriminate; cbn in *; auto. Qed.

Lemma gt_constraint : forall (isId : m3 -> bool) (isZero : v3 -> bool) (quat : m3 -> list R),
  (forall m, isId m = true -> m = m1) -> (forall v, isZero v = true -> v = v0) -> (forall m, length (quat m) = 4%nat) ->
  forall o mask l, good_mask o mask -> let g := setup isId isZero o mask l in rotation (rot (F1 g)) -> rotation (rot (F2 g)) ->
  forall F (c : impl F), impl_reach c -> length (m_mask c) = count mask ->
  let p := constrained_joints (count mask) c (gt_joints g) in p <> nobody ->
  pair_of p (g_j1 g) (g_j2 g) /\
  forall k k', proper k -> proper k' ->
    (if so3 o then forall a b, rotation a -> rotation b -> quat a = quat b -> a = b
     else angle (rot (relpose g k)) < PI /\ angle (rot (relpose g k')) < PI) ->
    same_rows o (m_mask c) (value quat o g k) (value quat o g k') -> seen p k = seen p k'.
Proof.
  intros isId isZero quat HI HZ HQ o mask l GM g R1 R2 F c R L p N. subst p.
  destruct (constrained_some _ _ _ R N) as (-> & C & A). split; [apply in_order_pair|].
  intros k k' P P' H E. apply (gt_constrained isId isZero quat HI HZ HQ o mask l GM R1 R2 k k' P P' C H).
  destruct (count_all o mask GM C) as (Po & Or & Em). unfold same_rows in E. destruct (so3 o) eqn:S; [exact E|].
  assert (LV : forall k, proper k -> length (value quat o g k) = 6%nat).
  { intros k0 P0. unfold g. rewrite (value_of isId isZero quat HI HZ HQ o mask l GM k0 P0). unfold coords. rewrite Po, Or, S, Em. reflexivity. }
  rewrite !select_all in E; auto; rewrite L, C, LV; auto.
Qed.

(** * Joints of a robot *)
Lemma moved_seen rb mot q kk i j : moved rb mot q kk -> proper kk -> nth_error rb i = Some j ->
  seen (j_parent j, Some (S i)) kk = mot (S i) (own q j).
Proof.
  intros M P N. unfold seen. cbn [fst snd]. cbn [joint_place]. rewrite (M i j N). apply comp_cancel.
  destruct (j_parent j); [apply P|apply rotation_1].
Qed.
Lemma joint_at_in rb : forall b r i j, joint_at rb b r = Some (i, j) ->
  (b <= i)%nat /\ nth_error rb (i - b) = Some j /\ (j_rank j <= r < j_rank j + j_size j)%Z.
Proof.
  induction rb as [|x rb IH]; intros b r i j; cbn [joint_at]; [discriminate|].
  destruct ((j_rank x <=? r) && (r <? j_rank x + j_size x))%Z eqn:E.
  - intros [= <- <-]. rewrite Nat.sub_diag. apply andb_true_iff in E as [E1 E2]. split; [lia|]. split; [reflexivity|].
    apply Z.leb_le in E1. apply Z.ltb_lt in E2. lia.
  - intros H. destruct (IH _ _ _ _ H) as (A & B & C). split; [lia|]. split; [|exact C].
    replace (i - b)%nat with (S (i - S b)) by lia. exact B.
Qed.
Lemma follow_ge rb : forall r i j, follow r rb -> nth_error rb i = Some j -> (r <= j_rank j)%Z /\ (0 < j_size j)%Z.
Proof.
  induction rb as [|x rb IH]; intros r [|i] j F N; try discriminate; cbn in F, N; destruct F as (F1 & F2 & F3).
  - injection N as <-. lia.
  - destruct (IH _ _ _ F3 N). lia.
Qed.
Lemma joint_at_rank rb : forall b r i j, follow r rb -> nth_error rb i = Some j -> joint_at rb b (j_rank j) = Some (b + i, j)%nat.
Proof.
  induction rb as [|x rb IH]; intros b r [|i] j F N; try discriminate; cbn in F, N; destruct F as (F1 & F2 & F3); cbn [joint_at].
  - injection N as <-. rewrite Nat.add_0_r. replace ((j_rank x <=? j_rank x) && (j_rank x <? j_rank x + j_size x))%Z with true; [reflexivity|].
    symmetry. apply andb_true_iff. split; [apply Z.leb_le; lia|apply Z.ltb_lt; lia].
  - destruct (follow_ge rb _ _ _ F3 N) as [G _].
    replace ((j_rank x <=? j_rank j) && (j_rank j <? j_rank x + j_size x))%Z with false; [rewrite (IH _ _ _ _ F3 N); f_equal; f_equal; lia|].
    symmetry. apply andb_false_iff. right. apply Z.ltb_ge. lia.
Qed.
Lemma parent_first rb i j : good_robot rb -> nth_error rb i = Some j -> in_order (Some (S i)) (j_parent j) = (j_parent j, Some (S i)).
Proof.
  intros (G & _ & _) N. specialize (G i j N). unfold in_order. cbn [jindex].
  destruct (Nat.leb_spec (S i) (jindex (j_parent j))); [lia|reflexivity].
Qed.

Lemma explicit_constant : forall rb input out, good_robot rb -> explicit_joints rb input out <> nobody ->
  input = O /\ exists r i j, out = [(r, j_size j)] /\ nth_error rb i = Some j /\ (j_rank j <= r < j_rank j + j_size j)%Z /\
    explicit_joints rb input out = (j_parent j, Some (S i)).
Proof.
  intros rb input out G. unfold explicit_joints. destruct (input =? 0)%nat eqn:E; [|cbn; congruence]. cbn [negb].
  destruct out as [|[r n] [|? ?]]; try congruence. cbn [fst snd].
  destruct (joint_at rb 1 r) as [[i j]|] eqn:J; [|congruence]. destruct (n =? j_size j)%Z eqn:S; [|congruence].
  intros _. apply Nat.eqb_eq in E. apply Z.eqb_eq in S. subst n. split; [exact E|].
  destruct (joint_at_in _ _ _ _ _ J) as (A & B & C). destruct i as [|i]; [lia|]. cbn in B. rewrite Nat.sub_0_r in B.
  exists r, i, j. split; [reflexivity|]. split; [exact B|]. split; [exact C|]. now apply (parent_first rb).
Qed.
Lemma explicit_aligned : forall rb i j, good_robot rb -> nth_error rb i = Some j ->
  explicit_joints rb 0 [(j_rank j, j_size j)] = (j_parent j, Some (S i)) /\
  forall mot q q' k k', moved rb mot q k -> moved rb mot q' k' -> proper k -> proper k' ->
    vars q (j_rank j) (j_size j) = vars q' (j_rank j) (j_size j) -> seen (j_parent j, Some (S i)) k = seen (j_parent j, Some (S i)) k'.
Proof.
  intros rb i j G N. split.
  - unfold explicit_joints. cbn [Nat.eqb negb fst snd]. destruct G as (G1 & G2 & G3).
    rewrite (joint_at_rank rb 1 0 i j G2 N), Z.eqb_refl. now apply (parent_first rb).
  - intros mot q q' k k' M M' P P' E. rewrite (moved_seen rb mot q k i j), (moved_seen rb mot q' k' i j) by assumption.
    unfold own. now rewrite E.
Qed.
Lemma locked_whole : forall rb i j, good_robot rb -> nth_error rb i = Some j ->
  exists lk, whole_lock rb (S i) = Some lk /\ locked_joints rb lk = Some (j_parent j, Some (S i)) /\
  forall mot q q' k k', moved rb mot q k -> moved rb mot q' k' -> proper k -> proper k' ->
    vars q (j_rank j) (j_size j) = vars q' (j_rank j) (j_size j) -> seen (j_parent j, Some (S i)) k = seen (j_parent j, Some (S i)) k'.
Proof.
  intros rb i j G N. exists (mklj (j_name j) (Some (S i))). unfold whole_lock. cbn [Nat.sub]. rewrite Nat.sub_0_r, N. split; [reflexivity|]. split.
  - unfold locked_joints. cbn [lj_name lj_joint Nat.sub]. rewrite Nat.sub_0_r, N.
    replace (existsb _ rb) with true by (symmetry; apply existsb_exists; exists j; split; [eapply nth_error_In, N|apply String.eqb_refl]).
    cbn [negb]. destruct G as (G & _). specialize (G i j N). destruct (Nat.leb_spec (jindex (j_parent j)) (S i)); [reflexivity|lia].
  - apply (explicit_aligned rb i j G N).
Qed.
Lemma locked_part : forall rb lk, ~ In (lj_name lk) (map j_name rb) -> locked_joints rb lk = Some nobody.
Proof.
  intros rb lk N. unfold locked_joints. replace (existsb _ rb) with false; [reflexivity|].
  symmetry. apply not_true_is_false. intros E. apply existsb_exists in E as (j & H & E). apply String.eqb_eq in E. apply N. rewrite <- E. now apply in_map.
Qed.

Lemma reported {F} nv (c : impl F) d : impl_reach c ->
  (constrained_joints nv c d <> nobody <-> nv = 6%nat /\ Forall (fun b => b = true) (m_mask c) /\ d <> nobody) /\
  (constrained_joints nv c d <> nobody -> constrained_joints nv c d = d).
Proof.
  intros R. split; [split|].
  - intros N. destruct (constrained_some nv c d R N) as (E & A & B). rewrite E in N. auto.
  - intros (-> & A & N). now rewrite (constrained_all c d R A).
  - intros N. now apply (constrained_some nv c d R).
Qed.

(** * Wrong answers *)
Definition o6 := Opts true true true false.
Definition no_id (_ : m3) := false. Definition no_zero (_ : v3) := false. Definition quat4 (_ : m3) := [0; 0; 0; 0].
Definition ones := repeat true 6.
(** joint 2 seen from the world *)
Definition at2 (M : se3) : kins := Kins (fun i => if (i =? 2)%nat then M else sid) (fun _ => []).
Definition ga := setup no_id no_zero o6 ones [SetJ1 (Some 1%nat); SetJ2 (Some 2%nat)].
Definition ta := M3 (V3 0 1 0) (V3 1 0 0) (V3 0 0 (-1)).
Definition tb := M3 (V3 0 (-1) 0) (V3 (-1) 0 0) (V3 0 0 (-1)).
Lemma at2_proper M : rotation (rot M) -> proper (at2 M).
Proof. intros H. split; [reflexivity|]. intros i. cbn. destruct (i =? 2)%nat; [exact H|apply rotation_1]. Qed.
Lemma ta_rot : rotation ta. Proof. split; cbv -[Rmult Rplus Rminus Ropp IZR]; [repeat f_equal; ring|ring]. Qed.
Lemma tb_rot : rotation tb. Proof. split; cbv -[Rmult Rplus Rminus Ropp IZR]; [repeat f_equal; ring|ring]. Qed.
Lemma ga_rel M : relpose ga (at2 M) = M.
Proof. unfold relpose. cbn. rewrite comp_sid_r, sinv_sid, comp_sid_l. apply comp_sid_r. Qed.
Lemma ga_seen M : seen (gt_joints ga) (at2 M) = M.
Proof. unfold seen. cbn. rewrite sinv_sid. apply comp_sid_l. Qed.
Lemma ga_mask : good_mask o6 ones. Proof. repeat split; discriminate. Qed.
Lemma ga_value M : rotation (rot M) -> value quat4 o6 ga (at2 M) = v3l (tra M) ++ v3l (snd (logSO3 (rot M))).
Proof.
  intros H. unfold ga. rewrite (value_of no_id no_zero quat4) by (try (intros; reflexivity); try discriminate; try exact ga_mask; now apply at2_proper).
  fold ga. rewrite ga_rel. destruct M as [m v]. cbn. reflexivity.
Qed.
Lemma same_log : logSO3 ta = logSO3 tb.
Proof.
  unfold logSO3. assert (A : angle ta = angle tb) by (unfold angle, trace; cbn; reflexivity). rewrite A.
  destruct (Rlt_dec (angle tb) (PI - / 100)); f_equal.
  - unfold ta, tb. cv. f_equal; ring.
  - unfold ta, tb. cbn. unfold sgn. destruct (Rlt_dec 1 1); [lra|]. destruct (Rlt_dec (-1) (-1)); [lra|]. reflexivity.
Qed.
