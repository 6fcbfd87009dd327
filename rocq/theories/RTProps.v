From Coq Require Import Reals List Bool ZArith.
From Verif Require Import Geo GeoLemmas Rigid LogModel LogSpec GTModel GTSpec GTExamples RTModel RTSpec RTProofs RTExamples RTParent.
Import ListNotations.
Local Open Scope R_scope.

(** The pose given to joint 2 is the one, and the only one, for which the implicit function has
    the right hand side as value. *)
Theorem C52_output : forall exp6 log6 parent j1 pos F1 F2 inVel k rhs x,
  let f := rt_create parent j1 pos F1 F2 inVel in
  good_frames f -> rotation (rot (parent_place f k)) -> rotation (rot (place1 f k)) -> rotation (rot rhs) ->
  log_inverted exp6 log6 f rhs ->
  (x = output_value exp6 log6 f k rhs <-> implicit_value f k x = rhs).
Proof. exact (fun exp6 log6 parent j1 pos F1 F2 inVel k rhs x => output_iff exp6 log6 (rt_create parent j1 pos F1 F2 inVel) k rhs x eq_refl). Qed.
Print Assumptions C52_output.

Theorem C52_rhs_roundtrip : forall exp6 log6 f M, good_frames f -> log_inverted exp6 log6 f M ->
  exp2imp exp6 f (imp2exp log6 f M) = M.
Proof. exact rhs_roundtrip. Qed.
Print Assumptions C52_rhs_roundtrip.

(** The other way round, the explicit right hand side is recovered when the logarithm recovers
    it; full turns are lost. *)
Theorem C52_explicit_rhs : forall exp6 log6 f v, good_frames f -> imp2exp log6 f (exp2imp exp6 f v) = log6 (exp6 v).
Proof. exact rhs_roundtrip'. Qed.
Print Assumptions C52_explicit_rhs.
Theorem C52_explicit_rhs_refuted : forall exp6 log6, (forall v, screws_to v (exp6 v)) ->
  forall f, good_frames f -> exists v, imp2exp log6 f (exp2imp exp6 f v) <> v.
Proof. exact rhs_turns_lost. Qed.
Print Assumptions C52_explicit_rhs_refuted.

Example C52_case : good_frames f_ex /\ rotation (rot rhs_ex) /\ log_inverted exp_fun logSE3 f_ex rhs_ex.
Proof. exact case_rhs. Qed.
Example C52_case_exp : forall v, screws_to v (exp_fun v).
Proof. exact exp_screws. Qed.

(** Without a parent joint, the Jacobian gives the velocity of the value. *)
Theorem C54_jacobian : forall parent j1 pos F1 F2 inVel K t d, let f := rt_create parent j1 pos F1 F2 inVel in
  good_frames f -> has_parent f = None -> input_moves f (r_j1 f) K t d ->
  moves (fun s => rt_value f (K s)) t (japp (rt_jacobian f (K t)) d).
Proof. exact (fun parent j1 pos F1 F2 inVel K t d => rt_jac_free (rt_create parent j1 pos F1 F2 inVel) K t d eq_refl). Qed.
Print Assumptions C54_jacobian.
(** and with a right hand side, the velocity of the pose computed from it *)
Theorem C54_jacobian_output : forall exp6 log6 is_neutral, (forall M, is_neutral M = true -> M = sid) ->
  forall parent j1 pos F1 F2 inVel K t d rhs, let f := rt_create parent j1 pos F1 F2 inVel in
  good_frames f -> has_parent f = None -> input_moves f (r_j1 f) K t d -> rotation (rot rhs) -> log_inverted exp6 log6 f rhs ->
  moves (fun s => output_value exp6 log6 f (K s) rhs) t (japp (jac_output exp6 log6 f is_neutral (K t) rhs) d).
Proof. exact (fun exp6 log6 is_neutral H parent j1 pos F1 F2 inVel K t d rhs => jac_output_free exp6 log6 is_neutral H (rt_create parent j1 pos F1 F2 inVel) K t d rhs eq_refl). Qed.
Print Assumptions C54_jacobian_output.
(** With a parent joint, the angular rows give the opposite of the angular velocity. *)
Theorem C54_parent_angular : forall parent j1 pos F1 F2 inVel K t d j, let f := rt_create parent j1 pos F1 F2 inVel in
  good_frames f -> has_parent f = Some j -> input_moves f (r_j1 f) K t d -> input_moves f (Some j) K t d ->
  exists T, moves (fun s => rt_value f (K s)) t T /\ ang (japp (rt_jacobian f (K t)) d) = vopp (ang T).
Proof. exact (fun parent j1 pos F1 F2 inVel K t d j => rt_jac_parent (rt_create parent j1 pos F1 F2 inVel) K t d j eq_refl). Qed.
Print Assumptions C54_parent_angular.
(** Where the parent and joint 1 are not turned, the linear rows are the derivative of the translation. *)
Theorem C54_parent_linear : forall parent j1 pos F1 F2 inVel K t d j, let f := rt_create parent j1 pos F1 F2 inVel in
  good_frames f -> has_parent f = Some j -> input_moves f (r_j1 f) K t d -> input_moves f (Some j) K t d ->
  rot (place (K t) j) = m1 -> rot (place1 f (K t)) = m1 ->
  vderiv (fun s => tra (rt_value f (K s))) t (lin (japp (rt_jacobian f (K t)) d)).
Proof. exact (fun parent j1 pos F1 F2 inVel K t d j => rt_jac_parent_linear (rt_create parent j1 pos F1 F2 inVel) K t d j eq_refl). Qed.
Print Assumptions C54_parent_linear.
(** In general the linear rows are wrong too, even for joints that only translate. *)
Theorem C54_parent_refuted : exists f K t d T, good_frames f /\ input_moves f (r_j1 f) K t d /\ input_moves f (has_parent f) K t d /\
  r_C f = comp (r_F1 f) (sinv (r_F2 f)) /\
  moves (fun s => rt_value f (K s)) t T /\ ang T = v0 /\ lin (japp (rt_jacobian f (K t)) d) <> lin T.
Proof. exact parent_linear_refuted. Qed.
Print Assumptions C54_parent_refuted.
(** If joint 2 has its velocity in R^3 x SO(3), as RelativePose accepts, the linear rows are
    not the derivative of its translation, even without a parent. *)
Theorem C54_r3xso3_refuted : exists f K t d v, good_frames f /\ has_parent f = None /\ input_moves f (r_j1 f) K t d /\
  r_C f = comp (r_F1 f) (sinv (r_F2 f)) /\
  vderiv (fun s => tra (rt_value f (K s))) t v /\ lin (japp (rt_jacobian f (K t)) d) <> v.
Proof. exact r3xso3_refuted. Qed.
Print Assumptions C54_r3xso3_refuted.

Example C54_case : good_frames f_ex /\ has_parent f_ex = None /\ input_moves f_ex (r_j1 f_ex) K_ex 1 [1].
Proof. exact (conj f_ex_frames (conj eq_refl case_moves)). Qed.
Example C54_case_parent : good_frames f_tp /\ has_parent f_tp = Some 2%nat /\ input_moves f_tp (r_j1 f_tp) K_ex 1 [1] /\ input_moves f_tp (Some 2%nat) K_ex 1 [1].
Proof. exact case_parent. Qed.
Example C54_case_parent_linear : good_frames f_tp /\ has_parent f_tp = Some 2%nat /\ input_moves f_tp (r_j1 f_tp) K_ex 0 [1] /\ input_moves f_tp (Some 2%nat) K_ex 0 [1] /\
  rot (place (K_ex 0) 2) = m1 /\ rot (place1 f_tp (K_ex 0)) = m1.
Proof. exact case_parent_linear. Qed.
