(** C92: center of mass between the feet.

    [called s]: state of the expressions of the function after construction and any use;
    [feet_rows]: the four rows; [on_strip z l r c]: c is on a line of direction z through
    the segment from l to r. *)
From Coq Require Import Reals List Bool Arith.
From Verif Require Import Geo SymModel SymSpec SymExamples CbfModel CbfSpec CbfProofs.
Import ListNotations.
Local Open Scope R_scope.

(** Value: the rows selected, in order, whatever was evaluated before. *)
Theorem C92_value : forall jl jr jref pl pr pref s mask q result, called jl jr jref pl pr s -> length mask = 4%nat -> length result = feet_size mask ->
  feet_value jl jr jref pl pr pref mask q s result = Some (kept mask (feet_rows jl jr jref pl pr pref q)).
Proof. exact feet_value_exact. Qed.
Print Assumptions C92_value.

(** If the feet are at the same height along the last axis of the reference joint, the signs of
    the last three rows tell whether the center of mass is between them. *)
Theorem C92_between : forall jl jr jref pl pr pref s q result r0 r1 r2 r3, called jl jr jref pl pr s -> length result = 4%nat -> rotation (jR q jref) ->
  let l := at_joint q jl pl in let r := at_joint q jr pr in l <> r -> vdot (vsub r l) (axis q jref) = 0 ->
  feet_value jl jr jref pl pr pref [true; true; true; true] q s result = Some [r0; r1; r2; r3] ->
  (r1 = 0 /\ 0 <= r2 /\ r3 <= 0 <-> on_strip (axis q jref) l r (com q)).
Proof. exact feet_between. Qed.
Print Assumptions C92_between.
Example C92_between_case : let q := stand (V3 1 0 0) v0 (V3 (1/2) 0 1) in rotation (jR q 2) /\ at_joint q 0 v0 <> at_joint q 1 v0 /\
  vdot (vsub (at_joint q 1 v0) (at_joint q 0 v0)) (axis q 2) = 0 /\ on_strip (axis q 2) (at_joint q 0 v0) (at_joint q 1 v0) (com q) /\
  feet_value 0 1 2 v0 v0 v0 full q blank [7; 7; 7; 7] = Some [1; 0; 1/2; - (1/2)].
Proof. exact between_case. Qed.

(** Otherwise they do not. *)
Theorem C92_sloped_refuted : exists q result r0 r1 r2 r3, called 0 1 2 v0 v0 blank /\ length result = 4%nat /\ rotation (jR q 2) /\
  at_joint q 0 v0 <> at_joint q 1 v0 /\ on_strip (axis q 2) (at_joint q 0 v0) (at_joint q 1 v0) (com q) /\
  feet_value 0 1 2 v0 v0 v0 full q blank result = Some [r0; r1; r2; r3] /\ r1 = 0 /\ 0 < r2 /\ 0 < r3.
Proof. exact sloped_wrong. Qed.
Print Assumptions C92_sloped_refuted.

(** The reference point is not attached to the reference joint, contrary to the documentation. *)
Theorem C92_height_refuted : exists q q' pref result v, called 0 1 2 v0 v0 blank /\ length result = 4%nat /\ rotation (jR q 2) /\
  at_joint q 2 pref <> at_joint q' 2 pref /\ com q = com q' /\
  feet_value 0 1 2 v0 v0 pref full q blank result = Some v /\ feet_value 0 1 2 v0 v0 pref full q' blank result = Some v /\
  nth 0 v 0 <> vz (vsub (com q') (at_joint q' 2 pref)).
Proof. exact height_wrong. Qed.
Print Assumptions C92_height_refuted.

(** Jacobian: each column of the joint Jacobians gives the derivative, the others are not written. *)
Theorem C92_jacobian : forall jl jr jref pl pr pref mask cols J, length mask = 4%nat -> Forall (fun c => called jl jr jref pl pr (snd c)) cols ->
  (length cols <= length J)%nat -> Forall (fun c => length c = feet_size mask) J ->
  exists J', feet_jacobian jl jr jref pl pr mask cols J = Some J' /\ length J' = length J /\ Forall (fun c => length c = feet_size mask) J' /\
  skipn (length cols) J' = skipn (length cols) J /\
  forall k q s Q s1 result val i, nth_error cols k = Some (q, s) -> motion Q -> Q 0 = q -> called jl jr jref pl pr s1 -> length result = feet_size mask ->
    (forall t, feet_value jl jr jref pl pr pref mask (Q t) s1 result = Some (val t)) -> (i < feet_size mask)%nat ->
    deriv (fun t => nth i (val t) 0) 0 (nth i (nth k J' []) 0).
Proof. exact feet_jacobian_spec. Qed.
Print Assumptions C92_jacobian.
Example C92_jacobian_case : motion (spin (V3 1 0 0)) /\ called 0 1 2 v0 v0 blank /\ feet_size [true; false; true; true] = 3%nat.
Proof. exact jacobian_case. Qed.

(** So the columns of extra degrees of freedom keep any content. *)
Theorem C92_extra_refuted : forall x, length x = 4%nat -> exists c J, called 0 1 2 v0 v0 (snd c) /\ length J = 1%nat /\
  feet_jacobian 0 1 2 v0 v0 full [c] [[0; 0; 0; 0]; x] = Some (J ++ [x]).
Proof. exact extra_wrong. Qed.
Print Assumptions C92_extra_refuted.

(** A mask of less than four flags is read out of bounds; with more, rows are not written. *)
Theorem C92_short_mask : forall jl jr jref pl pr pref mask q s result cols J, (length mask < 4)%nat ->
  feet_value jl jr jref pl pr pref mask q s result = None /\ feet_jacobian jl jr jref pl pr mask cols J = None.
Proof. exact feet_short. Qed.
Print Assumptions C92_short_mask.
Theorem C92_long_mask_refuted : forall x, exists mask q, feet_size mask = 5%nat /\ exists v, length v = 4%nat /\
  feet_value 0 1 2 v0 v0 v0 mask q blank ([0; 0; 0; 0] ++ [x]) = Some (v ++ [x]).
Proof. exact long_wrong. Qed.
Print Assumptions C92_long_mask_refuted.
