From Coq Require Import Reals Lra Ranalysis1 Ratan.
From Verif Require Import Geo GeoLemmas Rigid LogModel LogSpec RotProofs.
Local Open Scope R_scope.

(** * Trace and antisymmetric part *)
Lemma vee_norm m : rotation m -> vdot (vee m) (vee m) = (1 + trace m) * (3 - trace m).
Proof.
  intros H. pose proof (sym_part m H) as S.
  assert (A : trace (outer (vee m) (vee m)) = vdot (vee m) (vee m)) by (destruct (vee m); cv; ring).
  rewrite <- A, <- S. destruct m as [[] [] []]; cv; ring.
Qed.
Lemma vdot_pos v : 0 <= vdot v v.
Proof. unfold vdot. nra. Qed.
Lemma trace_bounds m : rotation m -> -1 <= trace m <= 3.
Proof. intros H. pose proof (vee_norm m H) as A. pose proof (vdot_pos (vee m)). rewrite A in H0. split; nra. Qed.
Lemma angleE m : rotation m -> angle m = acos ((trace m - 1) / 2).
Proof.
  intros H. destruct (trace_bounds m H). unfold angle.
  destruct (Rlt_dec 3 (trace m)); [lra|]. destruct (Rlt_dec (trace m) (-1)); [lra|]. reflexivity.
Qed.
Lemma angle_bounds m : rotation m -> 0 <= angle m <= PI.
Proof. intros H. rewrite (angleE m H). apply acos_bound. Qed.
Lemma cos_angle m : rotation m -> cos (angle m) = (trace m - 1) / 2.
Proof. intros H. rewrite (angleE m H). apply cos_acos. destruct (trace_bounds m H). lra. Qed.
Lemma sin_angle m : rotation m -> 0 <= sin (angle m) /\ 4 * (sin (angle m) * sin (angle m)) = vdot (vee m) (vee m).
Proof.
  intros H. pose proof (angle_bounds m H) as B. split.
  - apply sin_ge_0; lra.
  - rewrite (vee_norm m H). pose proof (sin2_cos2 (angle m)) as E. rewrite (cos_angle m H) in E. unfold Rsqr in E. lra.
Qed.

(** * Rotation of angle [a] about a unit vector *)
Definition about (u : v3) (a : R) : m3 :=
  madd (madd (mscale (cos a) m1) (mscale (1 - cos a) (outer u u))) (mscale (sin a) (cross_matrix u)).

Lemma axis m : rotation m -> 0 < angle m < PI ->
  exists u, vdot u u = 1 /\ vee m = vscale (2 * sin (angle m)) u /\ m = about u (angle m).
Proof.
  intros H B. pose proof (sin_gt_0 (angle m) (proj1 B) (proj2 B)) as S.
  destruct (sin_angle m H) as [_ N]. pose proof (cos_angle m H) as C. pose proof (sin2_cos2 (angle m)) as E. unfold Rsqr in E.
  exists (vscale (/ (2 * sin (angle m))) (vee m)).
  set (s := sin (angle m)) in *. set (c := cos (angle m)) in *.
  pose proof (sym_part m H) as Y.
  assert (V : vee m = vscale (2 * s) (vscale (/ (2 * s)) (vee m))).
  { destruct (vee m); cv; f_equal; field; lra. }
  split; [|split].
  - assert (vdot (vscale (/ (2 * s)) (vee m)) (vscale (/ (2 * s)) (vee m)) = vdot (vee m) (vee m) / (4 * (s * s))).
    { destruct (vee m); cv; field; lra. } rewrite H0, <- N. field. lra.
  - exact V.
  - assert (T : trace m = 1 + 2 * c) by lra. rewrite T in Y.
    assert (P : 0 < 1 + c) by nra.
    set (u := vscale (/ (2 * s)) (vee m)) in *.
    assert (U : madd (madd m (mtr m)) (mscale (- (2 * c)) m1) = mscale (2 * (1 - c)) (outer u u)).
    { assert (O : outer (vee m) (vee m) = mscale (4 * (s * s)) (outer u u)) by (rewrite V; destruct u; cv; f_equal; f_equal; ring).
      rewrite O in Y. replace (4 * (s * s)) with (2 * (1 + c) * (2 * (1 - c))) in Y by nra.
      assert (K : forall a b, mscale (1 + (1 + 2 * c)) a = mscale (2 * (1 + c) * (2 * (1 - c))) b -> a = mscale (2 * (1 - c)) b).
      { intros a b Q. transitivity (mscale (/ (2 * (1 + c))) (mscale (1 + (1 + 2 * c)) a)).
        - destruct a as [[] [] []]; cv; f_equal; f_equal; field; lra.
        - rewrite Q. destruct b as [[] [] []]; cv; f_equal; f_equal; field; lra. }
      apply K in Y. rewrite <- Y. destruct m as [[] [] []]; cv; f_equal; f_equal; ring. }
    assert (W : vee m = vscale (2 * s) u) by exact V.
    unfold about. fold s c. clearbody u. clear V Y N E T C H B. clearbody s c. destruct m as [[] [] []], u as [ux uy uz].
    cvin U. cvin W. injection W as w1 w2 w3. injection U as u1 u2 u3 u4 u5 u6 u7 u8 u9.
    cv. f_equal; f_equal; lra.
Qed.

Lemma about_0 u : about u 0 = m1.
Proof. unfold about. rewrite cos_0, sin_0. destruct u; cv; f_equal; f_equal; ring. Qed.
Lemma about_deriv u th t : vdot u u = 1 -> mderiv (fun s => about u (s * th)) t (mul (about u (t * th)) (cross_matrix (vscale th u))).
Proof.
  intros U.
  assert (C : deriv (fun s => cos (s * th)) t (- sin (t * th) * th)).
  { apply (derivable_pt_lim_comp (fun s => s * th) cos); [|apply derivable_pt_lim_cos].
    eapply deriv_eq; [|apply (deriv_mul (fun s => s) (fun _ => th) t 1 0); [apply derivable_pt_lim_id|apply deriv_const]]. ring. }
  assert (S : deriv (fun s => sin (s * th)) t (cos (t * th) * th)).
  { apply (derivable_pt_lim_comp (fun s => s * th) sin); [|apply derivable_pt_lim_sin].
    eapply deriv_eq; [|apply (deriv_mul (fun s => s) (fun _ => th) t 1 0); [apply derivable_pt_lim_id|apply deriv_const]]. ring. }
  assert (L : forall i k e, deriv (fun s => cos (s * th) * i + (1 - cos (s * th)) * k + sin (s * th) * e) t
                 (- sin (t * th) * th * (i - k) + cos (t * th) * th * e)).
  { intros i k e. eapply deriv_eq; [|apply deriv_add; [apply deriv_add|]].
    2:{ apply (deriv_mul (fun s => cos (s * th)) (fun _ => i) t _ 0 C (deriv_const i t)). }
    2:{ apply (deriv_mul (fun s => 1 - cos (s * th)) (fun _ => k) t _ 0 (deriv_sub _ _ _ _ _ (deriv_const 1 t) C) (deriv_const k t)). }
    2:{ apply (deriv_mul (fun s => sin (s * th)) (fun _ => e) t _ 0 S (deriv_const e t)). }
    ring. }
  destruct u as [ux uy uz]. cvin U.
  unfold mderiv, vderiv, about. cv.
  repeat split; (eapply deriv_eq; [|apply L]); 
    set (s := sin (t * th)); set (c := cos (t * th)); clearbody s c;
    pose proof (f_equal (fun x => s * th * x) U) as K; cbv beta in K; lra.
Qed.
Lemma about_turns u th : vdot u u = 1 -> turns_to (vscale th u) (about u th).
Proof.
  intros U. exists (fun s => about u (s * th)). split; [|split].
  - rewrite Rmult_0_l. apply about_0.
  - intros t. apply about_deriv, U.
  - now rewrite Rmult_1_l.
Qed.
