From Coq Require Import Reals Lra List.
From Verif Require Import Geo GeoLemmas Rigid.
Import ListNotations.
Local Open Scope R_scope.

(** rotation about the vertical axis *)
Definition rotz (s : R) : m3 := M3 (V3 (cos s) (- sin s) 0) (V3 (sin s) (cos s) 0) (V3 0 0 1).
Definition ez : v3 := V3 0 0 1.
Definition ex : v3 := V3 1 0 0.
(** a body that turns about a vertical axis and moves forward *)
Definition turn (s : R) : se3 := SE3 (rotz s) (V3 (s + 1) 0 0).

Lemma rotz_rotation s : rotation (rotz s).
Proof.
  assert (H := sin2_cos2 s). unfold Rsqr in H. split.
  - unfold mul, mulv, mtr, rotz, m1, vdot. cbn. f_equal; f_equal; nra.
  - unfold det, rotz, vdot, vcross. cbn. nra.
Qed.
Lemma turn_moves s : moves turn s (Tw (mulv (mtr (rotz s)) ex) ez).
Proof.
  split.
  - cbn [rot turn]. repeat split; cbn; try apply deriv_const; (eapply deriv_eq; [|first [apply derivable_pt_lim_cos|apply derivable_pt_lim_sin|apply deriv_opp, derivable_pt_lim_sin|apply deriv_const]]); unfold vdot; cbn; ring.
  - cbn [tra rot turn lin]. rewrite rotation_inv_r by apply rotz_rotation. repeat split; cbn; try apply deriv_const.
    eapply deriv_eq; [|apply (deriv_add (fun x => x) (fun _ => 1) s 1 0); [apply derivable_pt_lim_id|apply deriv_const]]. ring.
Qed.
Definition still (M : se3) (s : R) : se3 := M.
Lemma still_moves M s : moves (still M) s t0.
Proof.
  split; cbn [still].
  - eapply mderiv_eq; [|exact (mderiv_const (rot M) s)]. destruct M as [m v]. unfold still. cbn [rot ang t0]. clear. geo.
  - eapply vderiv_eq; [|exact (vderiv_const (tra M) s)]. cbn [lin t0]. symmetry. apply mulv_0.
Qed.
