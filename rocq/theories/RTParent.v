(** Linear rows of the explicit relative transformation with a parent joint. *)
From Coq Require Import Reals Lra Lia List Bool Arith ZArith.
From Verif Require Import Geo GeoLemmas Rigid RigidExamples SegModel ViewModel LogMain GTModel GTSpec GTExamples SE3Proofs RTModel RTSpec RTProofs RTExamples.
Import ListNotations.
Local Open Scope R_scope.

Definition pair_lin (A : m3) (c w : v3) (c1 cp : twist) : v3 :=
  mulv A (vsub (vsub (vcross c (vsub (ang cp) (ang c1))) (vcross w (ang cp))) (vsub (lin cp) (lin c1))).
Lemma pair_lin_japp A c w (h u v : Z -> twist) : (forall i, lin (h i) = pair_lin A c w (u i) (v i)) ->
  forall l d, lin (japp (map h l) d) = pair_lin A c w (japp (map u l) d) (japp (map v l) d).
Proof.
  intros H. induction l as [|i l IH]; intros d; [cbn; unfold pair_lin; cbn; geo|]. destruct d as [|x d]; [cbn; unfold pair_lin; cbn; geo|].
  cbn [map japp tadd tscale lin]. rewrite IH, H. unfold pair_lin. cbn [tadd tscale lin ang].
  generalize (lin (u i)) (ang (u i)) (lin (v i)) (ang (v i)) (lin (japp (map u l) d)) (ang (japp (map u l) d)) (lin (japp (map v l) d)) (ang (japp (map v l) d)). intros.
  rewrite <- mulv_scale, <- mulv_add. f_equal. geo.
Qed.
Lemma vread_all {B} (g : Z -> B) l : vread g l = map g (vread (fun i => i) l).
Proof. apply (vread_map g (fun i => i)). Qed.

Lemma rt_jac_parent_linear f K t d j : built f -> good_frames f -> has_parent f = Some j -> input_moves f (r_j1 f) K t d -> input_moves f (Some j) K t d ->
  rot (place (K t) j) = m1 -> rot (place1 f (K t)) = m1 ->
  vderiv (fun s => tra (rt_value f (K s))) t (lin (japp (rt_jacobian f (K t)) d)).
Proof.
  intros B G HP M MP Ip I1.
  assert (RC : rotation (rot (r_C f))) by (rewrite B; destruct G as (? & ? & ?); repeat (apply rot_comp || apply rot_sinv); assumption).
  destruct MP as [RP MP].
  assert (PP : forall s, parent_place f (K s) = place (K s) j) by (intros s; rewrite <- parentE, HP; reflexivity).
  destruct G as (RF1 & RF2 & RPos).
  assert (V : forall s, rt_value f (K s) = comp (sinv (r_pos f)) (comp (sinv (place (K s) j)) (comp (place1 f (K s)) (r_C f)))).
  { intros s. rewrite (rt_valueE f (K s) B (conj RF1 (conj RF2 RPos))), PP, B; [|rewrite PP; apply RP]. rewrite sinv_comp by (apply RP || exact RPos). now rewrite compA. }
  set (d1 := match r_j1 f with Some n => japp (vread (fun i => nth (Z.to_nat i) (jjac (K t) n) t0) (r_in f)) d | None => t0 end).
  set (dp := japp (vread (fun i => nth (Z.to_nat i) (jjac (K t) j) t0) (r_in f)) d) in *.
  assert (M1 : moves (fun s => place1 f (K s)) t d1 /\ forall s, rotation (rot (place1 f (K s)))).
  { unfold place1, d1. destruct (r_j1 f); [destruct M; auto|]. split; [apply moves_const|intros; apply rotation_1]. }
  destruct M1 as [M1 RJ].
  assert (DX : moves (fun s => comp (place1 f (K s)) (r_C f)) t (adinv (r_C f) d1)) by (apply (moves_right (r_C f) (fun s => place1 f (K s))); assumption).
  assert (RX : rotation (rot (comp (place1 f (K t)) (r_C f)))) by (apply rot_comp; auto).
  assert (DY := moves_comp (fun s => sinv (place (K s) j)) (fun s => comp (place1 f (K s)) (r_C f)) t _ _ RX (moves_inv _ t _ RP MP) DX). cbv beta in DY.
  assert (RY : rotation (rot (comp (sinv (place (K t) j)) (comp (place1 f (K t)) (r_C f))))) by (apply rot_comp; [apply rot_sinv, RP|exact RX]).
  assert (DV := proj2 (moves_left (sinv (r_pos f)) (fun s => comp (sinv (place (K s) j)) (comp (place1 f (K s)) (r_C f))) t _ RY DY)). cbv beta in DV.
  eapply vderiv_ext; [intros s; now rewrite (V s)|]. eapply vderiv_eq; [|exact DV].
  assert (D1 : d1 = japp (vread (col_of (K t) (r_j1 f)) (r_in f)) d).
  { unfold d1, col_of. destruct (r_j1 f); [reflexivity|]. rewrite vread_all. generalize (vread (fun i => i) (r_in f)). clear. intros l. revert d. induction l; intros [|x d]; cbn; auto. rewrite <- IHl. unfold tadd, tscale, t0. cbn. f_equal; geo. }
  assert (Dp : dp = japp (vread (col_of (K t) (has_parent f)) (r_in f)) d) by (rewrite HP; reflexivity).
  unfold rt_jacobian. rewrite vread_all.
  rewrite (pair_lin_japp (mtr (rot (r_pos f))) (tra (r_C f)) (vsub (tra (place (K t) j)) (tra (place1 f (K t)))) _ (col_of (K t) (r_j1 f)) (col_of (K t) (has_parent f))).
  - rewrite <- !vread_all, <- D1, <- Dp. unfold pair_lin. cbn [comp sinv rot tra act tadd topp adinv lin ang]. rewrite Ip, I1, !mulvA.
    generalize (mtr (rot (r_pos f))). intros m. f_equal. rewrite !mtr1, !mul1v, mul1m, mulv_add, !(rotation_inv_r _ _ RC). unfold act. rewrite I1, mul1v.
    generalize (lin dp) (ang dp) (lin d1) (ang d1) (tra (place (K t) j)) (tra (place1 f (K t))) (tra (r_C f)). clear. geo.
  - intros i. unfold rt_col. rewrite HP. cbn [lin]. rewrite Ip. unfold place1 in *. unfold pair_lin, skewm. destruct (r_j1 f) as [n|].
    + rewrite I1. cbn [lin ang]. rewrite !cross_matrixE, mtr1, mulm1, mul1v. reflexivity.
    + cbn [col_of]. rewrite !cross_matrixE, mtr1, mulm1, mul1v. cbn [sid tra t0 lin ang]. now rewrite !vsub_0.
Qed.

(** joint 1 does not move, joint 2 turns, at time 0 *)
Lemma K_ex_0 : rot (place (K_ex 0) 2) = m1 /\ rot (place (K_ex 0) 1) = m1.
Proof. split; [|reflexivity]. cbn. unfold rotz. rewrite cos_0, sin_0. unfold m1. repeat f_equal. all: ring. Qed.
Lemma case_parent_linear : good_frames f_tp /\ has_parent f_tp = Some 2%nat /\ input_moves f_tp (r_j1 f_tp) K_ex 0 [1] /\ input_moves f_tp (Some 2%nat) K_ex 0 [1] /\
  rot (place (K_ex 0) 2) = m1 /\ rot (place1 f_tp (K_ex 0)) = m1.
Proof.
  split; [apply case_parent|]. split; [reflexivity|]. split; [|split; [|exact K_ex_0]].
  - split; [intros; exact m1_rotation|]. change (moves (fun s => place (K_ex s) 1) 0 (japp [t0] [1])). rewrite japp1. exact (still_moves (SE3 m1 (V3 0 0 1)) 0).
  - split; [intros; exact (rotz_rotation s)|]. change (moves (fun s => place (K_ex s) 2) 0 (japp [Tw (mulv (mtr (rotz 0)) ex) ez] [1])). rewrite japp1. exact (turn_moves 0).
Qed.
