(** Neighbourhoods of a time, continuity of distances. *)
From Coq Require Import Reals List Lra Lia.
From Verif Require Import Geo GeoLemmas Rigid ShapeSpec ShapeGeo.
Import ListNotations.
Local Open Scope R_scope.

Definition near (t : R) (P : R -> Prop) : Prop := exists e, 0 < e /\ forall s, Rabs (s - t) < e -> P s.
Lemma near_and t (P Q : R -> Prop) : near t P -> near t Q -> near t (fun s => P s /\ Q s).
Proof.
  intros (e & E & H) (e' & E' & H'). exists (Rmin e e'). split; [now apply Rmin_pos|].
  intros s S. split; [apply H|apply H']; eapply Rlt_le_trans; try exact S; [apply Rmin_l|apply Rmin_r].
Qed.
Lemma near_imp t (P Q : R -> Prop) : (forall s, P s -> Q s) -> near t P -> near t Q.
Proof. intros I (e & E & H). exists e. auto. Qed.
Lemma near_true t : near t (fun _ => True).
Proof. exists 1. split; [lra|auto]. Qed.
Lemma near_lt t (P : nat -> R -> Prop) n : (forall i, (i < n)%nat -> near t (P i)) -> near t (fun s => forall i, (i < n)%nat -> P i s).
Proof.
  induction n as [|n IH]; intros H; [eapply near_imp; [|apply near_true]; intros; lia|].
  eapply near_imp; [|apply near_and; [apply IH; intros; apply H; lia|apply (H n); lia]].
  cbv beta. intros s [A B] i Hi. destruct (PeanoNat.Nat.eq_dec i n) as [->|]; [exact B|apply A; lia].
Qed.
Lemma near_deriv f g t d : near t (fun s => f s = g s) -> deriv f t d -> deriv g t d.
Proof.
  intros (e & E & H) D eps Pe. destruct (D eps Pe) as [del Hd]. assert (Pm : 0 < Rmin e del) by (apply Rmin_pos; [exact E|apply cond_pos]).
  exists (mkposreal _ Pm). intros h N L. cbn in L. rewrite <- !H.
  - apply Hd; [exact N|]. eapply Rlt_le_trans; [exact L|apply Rmin_r].
  - rewrite Rminus_diag_eq, Rabs_R0 by reflexivity. exact E.
  - replace (t + h - t) with h by ring. eapply Rlt_le_trans; [exact L|apply Rmin_l].
Qed.
Lemma deriv_near f t d e : deriv f t d -> 0 < e -> near t (fun s => Rabs (f s - f t) < e).
Proof.
  intros D P. pose proof (derivable_continuous_pt f t (exist _ d D)) as C. destruct (C e P) as (a & A & H). exists a. split; [exact A|].
  intros s S. destruct (Req_dec s t) as [->|N]; [rewrite Rminus_diag_eq, Rabs_R0 by reflexivity; exact P|].
  apply H. split; [split; [exact I|auto]|exact S].
Qed.

(** * Norm *)
Lemma dot_le a b : vdot a b <= norm a * norm b.
Proof.
  unfold norm. rewrite <- sqrt_mult_alt by apply vdot_pos. destruct (Rle_or_lt (vdot a b) 0) as [N|P]; [pose proof (sqrt_pos (vdot a a * vdot b b)); lra|].
  rewrite <- (sqrt_square (vdot a b)) at 1 by lra. apply sqrt_le_1_alt. destruct a as [a1 a2 a3], b as [b1 b2 b3]. unfold vdot. cbn.
  assert (0 <= (a1*b2-a2*b1)*(a1*b2-a2*b1) + (a2*b3-a3*b2)*(a2*b3-a3*b2) + (a1*b3-a3*b1)*(a1*b3-a3*b1)) by (repeat apply Rplus_le_le_0_compat; apply Rle_0_sqr).
  replace ((a1 * a1 + a2 * a2 + a3 * a3) * (b1 * b1 + b2 * b2 + b3 * b3)) with ((a1*b1+a2*b2+a3*b3)*(a1*b1+a2*b2+a3*b3) + ((a1*b2-a2*b1)*(a1*b2-a2*b1) + (a2*b3-a3*b2)*(a2*b3-a3*b2) + (a1*b3-a3*b1)*(a1*b3-a3*b1))) by ring. lra.
Qed.
Lemma norm_nonneg v : 0 <= norm v.
Proof. apply sqrt_pos. Qed.
Lemma norm_square v : norm v * norm v = vdot v v.
Proof. apply sqrt_sqrt, vdot_pos. Qed.
Lemma triangle a b : norm (vadd a b) <= norm a + norm b.
Proof.
  pose proof (norm_nonneg a). pose proof (norm_nonneg b). pose proof (norm_nonneg (vadd a b)).
  apply Rsqr_incr_0_var; [|lra]. unfold Rsqr. rewrite norm_square. pose proof (dot_le a b). pose proof (norm_square a). pose proof (norm_square b).
  replace (vdot (vadd a b) (vadd a b)) with (vdot a a + 2 * vdot a b + vdot b b) by (unfold vdot, vadd; cbn; ring). nra.
Qed.
Lemma norm_swap a b : norm (vsub a b) = norm (vsub b a).
Proof. unfold norm. f_equal. unfold vdot, vsub. cbn. ring. Qed.
Lemma triangle_sub a b c : norm (vsub a c) <= norm (vsub a b) + norm (vsub b c).
Proof. replace (vsub a c) with (vadd (vsub a b) (vsub b c)) by (apply v3_eq; gcbn; ring). apply triangle. Qed.
Lemma distance_lipschitz A a b r r' : distance_to A a r -> distance_to A b r' -> r <= r' + norm (vsub a b).
Proof. intros [_ M] [(y & Y & <-) _]. pose proof (M y Y). pose proof (triangle_sub a b y). lra. Qed.
Lemma norm_coords v e : Rabs (vx v) < e -> Rabs (vy v) < e -> Rabs (vz v) < e -> norm v < 2 * e.
Proof.
  intros X Y Z. assert (0 < e) by (pose proof (Rabs_pos (vx v)); lra).
  apply Rabs_def2 in X, Y, Z. rewrite <- (sqrt_square (2 * e)) by lra. apply sqrt_lt_1_alt. unfold vdot. nra.
Qed.
Lemma vderiv_near f t d e : vderiv f t d -> 0 < e -> near t (fun s => norm (vsub (f s) (f t)) < e).
Proof.
  intros (X & Y & Z) P. assert (P2 : 0 < e / 2) by lra.
  eapply near_imp; [|apply near_and; [apply (deriv_near _ _ _ _ X P2)|apply near_and; [apply (deriv_near _ _ _ _ Y P2)|apply (deriv_near _ _ _ _ Z P2)]]].
  cbv beta. intros s (A & B & C). replace e with (2 * (e / 2)) by field. now apply norm_coords.
Qed.
