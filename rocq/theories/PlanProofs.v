From Coq Require Import Reals List Bool ZArith Lia Lra Ratan.
From Verif Require Import Geo GeoLemmas SegModel SegSpec SegProofs ViewModel ViewProofs EcsModel EcsJacModel EcsJacSpec FunModel ImplFunModel LogDeriv VisSpec VisProofs PlanModel PlanSpec.
Import ListNotations.
Local Open Scope R_scope.

Lemma dotf_delta (l : list R) : forall i o, dotf (fun k => if (Z.of_nat (o + i) =? Z.of_nat (o + k))%Z then 1 else 0) l = nth i l 0.
Proof.
  assert (Z0 : forall (l : list R) c, (forall k, c k = 0) -> dotf c l = 0).
  { induction l0 as [|x t IH]; intros c H; cbn; [reflexivity|]. rewrite H, IH by (intros k; apply H). ring. }
  induction l as [|x t IH]; intros i o; cbn [dotf nth]; [destruct i; reflexivity|]. destruct i as [|i].
  - rewrite Z.eqb_refl, Z0; [ring|]. intros k. destruct (Z.eqb_spec (Z.of_nat (o + 0)) (Z.of_nat (o + S k))); [lia|reflexivity].
  - destruct (Z.eqb_spec (Z.of_nat (o + S i)) (Z.of_nat (o + 0))); [lia|]. rewrite <- (IH i (S o)). rewrite Rmult_0_l, Rplus_0_l.
    apply dotf_ext. intros k. now rewrite <- !plus_n_Sm.
Qed.
Lemma log2_asin c s : c * c + s * s = 1 -> 0 < c -> log2 c s = asin s.
Proof.
  intros U C. assert (c <= 1) by nra. assert (B : -1 <= c <= 1) by lra.
  assert (A1 : 0 <= acos c < PI / 2).
  { split; [apply acos_bound|]. apply Rnot_le_lt. intros L. destruct (acos_bound c). assert (X := cos_le_0 (acos c) L ltac:(lra)). rewrite cos_acos in X; lra. }
  assert (S1 : sin (acos c) = sqrt (s * s)) by (rewrite sin_acos by lra; f_equal; unfold Rsqr; lra).
  unfold log2. destruct (Rle_dec 0 s) as [P|P].
  - rewrite <- (asin_sin (acos c)) by lra. rewrite S1, sqrt_square by lra. reflexivity.
  - rewrite <- (asin_sin (- acos c)) by lra. rewrite sin_neg, S1. replace (s * s) with ((- s) * (- s)) by ring. rewrite sqrt_square by lra. f_equal; ring.
Qed.
Lemma d_asin x : -1 < x < 1 -> deriv asin x (1 / sqrt (1 - x²)).
Proof. intros B. pose proof (derive_pt_asin x B) as P. apply derive_pt_eq_1 in P. exact P. Qed.
Lemma d_acos x : -1 < x < 1 -> deriv acos x (- (1 / sqrt (1 - x²))).
Proof. intros B. pose proof (derive_pt_acos x B) as P. apply derive_pt_eq_1 in P. eapply deriv_eq; [|exact P]. unfold Rdiv. ring. Qed.
Lemma log2_deriv (c s : R -> R) w : (forall t, c t * c t + s t * s t = 1) -> c 0 <> -1 ->
  deriv c 0 (- s 0 * w) -> deriv s 0 (c 0 * w) -> deriv (fun t => log2 (c t) (s t)) 0 w.
Proof.
  intros U N Dc Ds. pose proof (U 0) as U0.
  destruct (Rlt_dec 0 (c 0)) as [P|P].
  - destruct (deriv_near c 0 _ 0 2 Dc) as (eps & E & H); [nra|].
    apply (deriv_loc (fun t => asin (s t)) _ 0 _ eps E).
    { intros t Ht. symmetry. apply log2_asin; [apply U|]. now apply H. }
    assert (B : -1 < s 0 < 1) by nra.
    eapply deriv_eq; [|exact (derivable_pt_lim_comp s asin 0 _ _ Ds (d_asin (s 0) B))].
    replace (1 - (s 0)²) with (c 0 * c 0) by (unfold Rsqr; lra). rewrite sqrt_square by lra. field. lra.
  - assert (NS : s 0 <> 0) by (intros Z; apply N; rewrite Z in U0; nra).
    assert (B : -1 < c 0 < 1) by nra.
    assert (Da := derivable_pt_lim_comp c acos 0 _ _ Dc (d_acos (c 0) B)).
    replace (1 - (c 0)²) with (s 0 * s 0) in Da by (unfold Rsqr; lra).
    destruct (Rlt_dec 0 (s 0)) as [Q|Q].
    + destruct (deriv_near s 0 _ 0 2 Ds) as (eps & E & H); [nra|].
      apply (deriv_loc (fun t => acos (c t)) _ 0 _ eps E).
      { intros t Ht. unfold log2. destruct (Rle_dec 0 (s t)) as [?|n]; [reflexivity|]. destruct n. apply Rlt_le, (H t Ht). }
      rewrite sqrt_square in Da by lra. eapply deriv_eq; [|exact Da]. field. lra.
    + destruct (deriv_near s 0 _ (-2) 0 Ds) as (eps & E & H); [nra|].
      apply (deriv_loc (fun t => - acos (c t)) _ 0 _ eps E).
      { intros t Ht. unfold log2. destruct (Rle_dec 0 (s t)) as [n|?]; [|reflexivity]. destruct (H t Ht). lra. }
      replace (s 0 * s 0) with ((- s 0) * (- s 0)) in Da by ring. rewrite sqrt_square in Da by lra.
      eapply deriv_eq; [|exact (deriv_opp _ _ _ Da)]. field. lra.
Qed.
Lemma angle_deriv k (a b : R -> list R) wa wb : (forall s, unit_at k (a s)) -> (forall s, unit_at k (b s)) ->
  spins k a wa -> spins k b wb -> ~ opposite k (a 0) (b 0) ->
  deriv (fun s => log2 (rel_c (nth k (a s) 0) (nth (S k) (a s) 0) (nth k (b s) 0) (nth (S k) (b s) 0))
                       (rel_s (nth k (a s) 0) (nth (S k) (a s) 0) (nth k (b s) 0) (nth (S k) (b s) 0))) 0 (wa - wb).
Proof.
  intros Ua Ub [A1 A2] [B1 B2] N. unfold unit_at in *. unfold rel_c, rel_s. apply log2_deriv.
  - intros t. specialize (Ua t). specialize (Ub t). revert Ua Ub. generalize (nth k (a t) 0) (nth (S k) (a t) 0) (nth k (b t) 0) (nth (S k) (b t) 0). intros; nra.
  - intros Z. apply N. specialize (Ua 0). specialize (Ub 0). unfold opposite. revert Z Ua Ub. clear.
    generalize (nth k (a 0) 0) (nth (S k) (a 0) 0) (nth k (b 0) 0) (nth (S k) (b 0) 0). intros x y u v Z Ua Ub.
    assert (Q : (x + u) * (x + u) + (y + v) * (y + v) = 0).
    { replace ((x + u) * (x + u) + (y + v) * (y + v)) with ((x * x + y * y) + (u * u + v * v) + 2 * (u * x + v * y)) by ring. rewrite Z, Ua, Ub. ring. }
    destruct (Rplus_sqr_eq_0 _ _ Q). lra.
  - eapply deriv_eq; [|exact (deriv_add _ _ _ _ _ (deriv_mul _ _ _ _ _ B1 A1) (deriv_mul _ _ _ _ _ B2 A2))]. cbv beta. ring.
  - eapply deriv_eq; [|exact (deriv_sub _ _ _ _ _ (deriv_mul _ _ _ _ _ B1 A2) (deriv_mul _ _ _ _ _ B2 A1))]. cbv beta. ring.
Qed.

Section Main.
Variables (g : ifun R R) (q : R -> Z -> R) (dq : Z -> R) (J : mat R).
Let out s := map (q s) (indices (if_out g)).
Let val s := if_f g (map (q s) (indices (if_in g))).
Let F := if_J g (map (q 0) (indices (if_in g))).
Let Vout := pick dq (if_outv g).
Let Vin := rate F (map dq (indices (if_inv g))).

Lemma id_rows nq nv : (0 <= nv)%Z -> shaped g (fac_id nq nv) (q 0) J ->
  exists J', if_jacobian 0 g (q 0) J = Some J' /\
  forall i, (i < Z.to_nat nv)%nat -> ksum 0 Rplus (Z.to_nat (if_nv g)) (fun j => at_ J' (Z.of_nat i) j * dq j) = Vout i - Vin i.
Proof.
  intros Hn Sh.
  destruct (jac_rows g (fac_id nq nv) (q 0) J Sh) as (J' & EJ & ER); [exact Hn|split; reflexivity|intros M; split; reflexivity|].
  exists J'. split; [exact EJ|]. intros i Hi. rewrite ER by exact Hi.
  cbn [fa_out fa_in fa_v fac_id at_]. fold F.
  rewrite (dotf_delta _ i 0).
  unfold Vout, pick, Rminus. f_equal. unfold Vin, rate. clear.
  assert (G : forall (c : nat -> R) v, dotf (fun k => - c k) v = - dotf c v).
  { intros c v. revert c. induction v as [|x v IH]; intros c; cbn [dotf]; [lra|]. rewrite IH. ring. }
  rewrite <- G. reflexivity.
Qed.
Lemma id_jacobian nq nv : (0 <= nv)%Z -> shaped g (fac_id nq nv) (q 0) J ->
  (forall i, (i < Z.to_nat nv)%nat -> deriv (fun s => nth i (if_sub g (out s) (val s)) 0) 0 (Vout i - Vin i)) ->
  exists J', if_jacobian 0 g (q 0) J = Some J' /\ jacobian_is_derivative g (Z.to_nat nv) q dq J'.
Proof.
  intros Hn Sh D. destruct (id_rows nq nv Hn Sh) as (J' & E & R). exists J'. split; [exact E|].
  intros i Hi. rewrite (R i Hi). eapply deriv_ext; [|exact (D i Hi)]. intros s. unfold if_value. now rewrite !vread_indices.
Qed.
Lemma sub_rn_nth a : forall b i, length a = length b -> nth i (sub_rn a b) 0 = nth i a 0 - nth i b 0.
Proof.
  induction a as [|x a IH]; intros [|y b] i L; try discriminate L; cbn [sub_rn].
  - destruct i; cbn; ring.
  - destruct i; cbn; [reflexivity|]. apply IH. now injection L.
Qed.
Lemma vector_jacobian n : (0 <= n)%Z -> shaped g (fac_id n n) (q 0) J -> if_sub g = sub_rn ->
  (forall s, length (val s) = Z.to_nat n) ->
  (forall i, (i < Z.to_nat n)%nat -> deriv (fun s => nth i (out s) 0) 0 (Vout i)) ->
  (forall i, (i < Z.to_nat n)%nat -> deriv (fun s => nth i (val s) 0) 0 (Vin i)) ->
  exists J', if_jacobian 0 g (q 0) J = Some J' /\ jacobian_is_derivative g (Z.to_nat n) q dq J'.
Proof.
  intros Hn Sh Sub L Do Dv. apply (id_jacobian n n Hn Sh). intros i Hi. rewrite Sub.
  apply (deriv_ext (fun s => nth i (out s) 0 - nth i (val s) 0)); [|apply deriv_sub; auto].
  intros s. symmetry. apply sub_rn_nth. rewrite L. unfold out. rewrite map_length. exact (sh_qo _ _ _ _ Sh).
Qed.
Lemma so2_jacobian : shaped g (fac_id 2 1) (q 0) J -> if_sub g = sub_so2 ->
  (forall s, unit_at 0 (out s)) -> (forall s, unit_at 0 (val s)) -> spins 0 out (Vout 0%nat) -> spins 0 val (Vin 0%nat) ->
  ~ opposite 0 (out 0) (val 0) ->
  exists J', if_jacobian 0 g (q 0) J = Some J' /\ jacobian_is_derivative g 1 q dq J'.
Proof.
  intros Sh Sub Uo Uv So Sv N. apply (id_jacobian 2 1 ltac:(lia) Sh). intros i Hi. rewrite Sub.
  destruct i as [|i]; [|cbn in Hi; lia]. exact (angle_deriv 0 out val _ _ Uo Uv So Sv N).
Qed.
Lemma r2so2_jacobian : shaped g (fac_id 4 3) (q 0) J -> if_sub g = sub_r2so2 ->
  (forall s, unit_at 2 (out s)) -> (forall s, unit_at 2 (val s)) ->
  slides out (Vout 0%nat) (Vout 1%nat) -> spins 2 out (Vout 2%nat) -> slides val (Vin 0%nat) (Vin 1%nat) -> spins 2 val (Vin 2%nat) ->
  ~ opposite 2 (out 0) (val 0) ->
  exists J', if_jacobian 0 g (q 0) J = Some J' /\ jacobian_is_derivative g 3 q dq J'.
Proof.
  intros Sh Sub Uo Uv [L1 L2] So [L3 L4] Sv N. apply (id_jacobian 4 3 ltac:(lia) Sh). intros i Hi. rewrite Sub.
  destruct i as [|[|[|i]]]; [| | |cbn in Hi; lia].
  - exact (deriv_sub _ _ _ _ _ L1 L3).
  - exact (deriv_sub _ _ _ _ _ L2 L4).
  - exact (angle_deriv 2 out val _ _ Uo Uv So Sv N).
Qed.
Lemma log2_0 : log2 1 0 = 0.
Proof. unfold log2. rewrite acos_1. destruct (Rle_dec 0 0); lra. Qed.
Lemma se2_jacobian : shaped g (fac_id 4 3) (q 0) J -> if_sub g = sub_se2 ->
  (forall s, unit_at 2 (out s)) -> (forall s, unit_at 2 (val s)) ->
  slides_body out (Vout 0%nat) (Vout 1%nat) -> spins 2 out (Vout 2%nat) -> slides_body val (Vin 0%nat) (Vin 1%nat) -> spins 2 val (Vin 2%nat) ->
  (forall k, (k < 4)%nat -> nth k (out 0) 0 = nth k (val 0) 0) ->
  exists J', if_jacobian 0 g (q 0) J = Some J' /\ jacobian_is_derivative g 3 q dq J'.
Proof.
  intros Sh Sub Uo Uv [L1 L2] So [L3 L4] Sv E. apply (id_jacobian 4 3 ltac:(lia) Sh). intros i Hi. rewrite Sub.
  pose proof (E 0%nat ltac:(lia)) as E0. pose proof (E 1%nat ltac:(lia)) as E1. pose proof (E 2%nat ltac:(lia)) as E2. pose proof (E 3%nat ltac:(lia)) as E3.
  pose proof (Uv 0) as U0. unfold unit_at in U0.
  assert (Dth := angle_deriv 2 out val _ _ Uo Uv So Sv).
  assert (N : ~ opposite 2 (out 0) (val 0)) by (intros [A B]; rewrite E2 in A; rewrite E3 in B; nra).
  specialize (Dth N). change (deriv (fun s => angle2 (out s) (val s)) 0 (Vout 2%nat - Vin 2%nat)) in Dth.
  assert (T0 : angle2 (out 0) (val 0) = 0).
  { unfold angle2, rel_c, rel_s. rewrite E2, E3, U0. replace (nth 2 (val 0) 0 * nth 3 (val 0) 0 - nth 3 (val 0) 0 * nth 2 (val 0) 0) with 0 by ring. exact log2_0. }
  set (th := fun s => angle2 (out s) (val s)) in *. change (th 0 = 0) in T0.
  destruct (deriv_near th 0 _ (- / 10000) (/ 10000) Dth) as (eps & P & Near); [rewrite T0; lra|].
  assert (Dal : deriv (fun s => se2_alpha (th s)) 0 0).
  { apply (deriv_loc (fun s => 1 - th s * th s / 12 - th s * th s * (th s * th s) / 720) _ 0 _ eps P).
    - intros s Hs. unfold se2_alpha. destruct (Rlt_dec (Rabs (th s)) (/ 10000)) as [_|n]; [reflexivity|]. destruct n.
      destruct (Near s Hs). apply Rabs_def1; lra.
    - assert (D2 := deriv_mul _ _ _ _ _ Dth Dth). assert (D4 := deriv_mul _ _ _ _ _ D2 D2).
      eapply deriv_eq; [|apply deriv_sub; [apply deriv_sub; [apply deriv_const|]|]].
      2:{ apply (deriv_ext (fun s => / 12 * (th s * th s))); [intros; field|]. apply deriv_scale, D2. }
      2:{ apply (deriv_ext (fun s => / 720 * (th s * th s * (th s * th s)))); [intros; field|]. apply deriv_scale, D4. }
      cbv beta. rewrite T0. ring. }
  assert (A0 : se2_alpha (th 0) = 1).
  { rewrite T0. unfold se2_alpha. rewrite Rabs_R0. destruct (Rlt_dec 0 (/ 10000)) as [_|n]; [field|lra]. }
  assert (Dx := deriv_sub _ _ _ _ _ L1 L3). assert (Dy := deriv_sub _ _ _ _ _ L2 L4). destruct Sv as [Vc Vs].
  assert (Dpx := deriv_add _ _ _ _ _ (deriv_mul _ _ _ _ _ Vc Dx) (deriv_mul _ _ _ _ _ Vs Dy)).
  assert (Dpy := deriv_sub _ _ _ _ _ (deriv_mul _ _ _ _ _ Vc Dy) (deriv_mul _ _ _ _ _ Vs Dx)).
  assert (Dh : deriv (fun s => th s / 2) 0 ((Vout 2%nat - Vin 2%nat) / 2)).
  { apply (deriv_ext (fun s => / 2 * th s)); [intros; field|]. eapply deriv_eq; [|exact (deriv_scale (/ 2) _ _ _ Dth)]. field. }
  destruct i as [|[|[|i]]]; [| | |cbn in Hi; lia].
  - eapply deriv_eq; [|exact (deriv_add _ _ _ _ _ (deriv_mul _ _ _ _ _ Dal Dpx) (deriv_mul _ _ _ _ _ Dh Dpy))].
    cbv beta. rewrite A0, T0, E0, E1, E2, E3.
    transitivity ((nth 2 (val 0) 0 * nth 2 (val 0) 0 + nth 3 (val 0) 0 * nth 3 (val 0) 0) * (Vout 0%nat - Vin 0%nat)); [field|rewrite U0; ring].
  - eapply deriv_eq; [|exact (deriv_sub _ _ _ _ _ (deriv_mul _ _ _ _ _ Dal Dpy) (deriv_mul _ _ _ _ _ Dh Dpx))].
    cbv beta. rewrite A0, T0, E0, E1, E2, E3.
    transitivity ((nth 2 (val 0) 0 * nth 2 (val 0) 0 + nth 3 (val 0) 0 * nth 3 (val 0) 0) * (Vout 1%nat - Vin 1%nat)); [field|rewrite U0; ring].
  - exact Dth.
Qed.
End Main.
