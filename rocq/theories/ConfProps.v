From Coq Require Import Reals List Bool Arith.
From Verif Require Import Geo Rigid RigidExamples LogModel ConfModel ConfSpec ConfProofs ConfExamples.
Import ListNotations.
Local Open Scope R_scope.

(** The value is half of the weighted sum of the squares of the coordinates of the difference. *)
Theorem C73_distance : forall (Q : Type) n (diff : Q -> nat -> R) ws q,
  2 * cc_value n diff ws q = fold_right Rplus 0 (map (fun i => nth i ws 0 * Rsqr (diff q i)) (seq 0 n)).
Proof. exact @cc_value_half. Qed.
Print Assumptions C73_distance.

(** With non-negative weights the value is zero exactly where all the coordinates of the difference
    to the goal that have a weight are zero, and positive elsewhere. *)
Theorem C73_value : forall (Q : Type) n (diff : Q -> nat -> R) ws q, (forall i, (i < n)%nat -> 0 <= nth i ws 0) ->
  0 <= cc_value n diff ws q /\ (cc_value n diff ws q = 0 <-> forall i, (i < n)%nat -> nth i ws 0 <> 0 -> diff q i = 0).
Proof. exact @cc_value_zero. Qed.
Print Assumptions C73_value.

(** The Jacobian is the derivative of the value where the derivative of the difference only mixes
    variables that have the same weight... *)
Theorem C73_jacobian : forall (Q : Type) n (diff : Q -> nat -> R) dd ws A t v, diff_moves n diff dd A t v -> same_weights n dd ws (A t) ->
  deriv (fun s => cc_value n diff ws (A s)) t (apply n (cc_jacobian n diff dd ws (A t)) v).
Proof. exact @cc_jac. Qed.
Print Assumptions C73_jacobian.

(** ... as in vector spaces, for any weights. *)
Theorem C73_jacobian_vector : forall n (goal : nat -> R) ws A t v, (forall i, (i < n)%nat -> deriv (fun s => A s i) t (v i)) ->
  let diff (q : nat -> R) i := goal i - q i in let dd (_ : nat -> R) i j := if (i =? j)%nat then -1 else 0 in
  deriv (fun s => cc_value n diff ws (A s)) t (apply n (cc_jacobian n diff dd ws (A t)) v).
Proof. exact (fun n goal ws A t v H => cc_jac n _ _ ws A t v (vector_moves n goal A t v H) (same_vector n goal ws (A t))). Qed.
Print Assumptions C73_jacobian_vector.

(** For a rotation and a mask selecting one of its three coordinates it is not: a velocity for which
    the value changes is given a null derivative. *)
Theorem C73_rotation_refuted : exists g A t v ws, (forall s, rotation (A s)) /\ mderiv A t (mul (A t) (cross_matrix v)) /\
  diff_moves 3 (so3_diff g) (so3_dd g) A t (vel v) /\ mask_weights (repeat 1 3) [true; false; false] = Some ws /\
  exists D, deriv (fun s => cc_value 3 (so3_diff g) ws (A s)) t D /\ D <> 0 /\
    apply 3 (cc_jacobian 3 (so3_diff g) (so3_dd g) ws (A t)) (vel v) = 0.
Proof. exact (ex_intro _ m1 (ex_intro _ A_ex (ex_intro _ 0 (ex_intro _ ez (ex_intro _ [1; 0; 0] (conj A_ex_rotation (conj A_ex_moves (conj A_ex_diff (conj eq_refl rotation_wrong))))))))). Qed.
Print Assumptions C73_rotation_refuted.

(** Weights and active parameters: the flags of a joint are cleared iff all its weights are zero. *)
Theorem C73_weights : forall d ws, good_dev d ->
  (length ws <> d_nv d -> set_weights d ws = None) /\
  (length ws = d_nv d -> exists c, set_weights d ws = Some c /\ c_w c = ws /\ length (c_act c) = d_nq d /\ length (c_actd c) = d_nv d /\
    (forall k, (k < d_nq d)%nat -> nth k (c_act c) false = false <-> exists j, In j (d_joints d) /\ inq j k /\ forall i, inv j i -> nth i ws 0 = 0) /\
    (forall k, (k < d_nv d)%nat -> nth k (c_actd c) false = false <-> exists j, In j (d_joints d) /\ inv j k /\ forall i, inv j i -> nth i ws 0 = 0)).
Proof. exact set_weights_spec. Qed.
Print Assumptions C73_weights.

(** The value does not depend on inactive parameters, their columns in the Jacobian are null. *)
Theorem C73_inactive_value : forall d ws c diff q q', good_dev d -> local_diff d diff -> set_weights d ws = Some c ->
  (forall k, (k < d_nq d)%nat -> nth k (c_act c) false = true -> q k = q' k) ->
  cc_value (d_nv d) diff ws q = cc_value (d_nv d) diff ws q'.
Proof. exact cc_active. Qed.
Print Assumptions C73_inactive_value.
Theorem C73_inactive_column : forall d ws c (Q : Type) (diff : Q -> nat -> R) dd q k, good_dev d -> set_weights d ws = Some c ->
  (k < d_nv d)%nat -> nth k (c_actd c) false = false -> cc_jacobian (d_nv d) diff dd ws q k = 0.
Proof. exact cc_inactive_column. Qed.
Print Assumptions C73_inactive_column.

(** Weights given by a mask: a flag that is missing counts as true; a false flag beyond the number
    of degrees of freedom is a write out of bounds. *)
Theorem C73_mask : forall mask n c, match mask_weights (repeat c n) mask with
  | Some ws => length ws = n /\ forall i, (i < n)%nat -> nth i ws 0 = if nth i mask true then c else 0
  | None => exists i, (n <= i < length mask)%nat /\ nth i mask true = false end.
Proof. exact mask_weights_spec. Qed.
Print Assumptions C73_mask.

Example C73_case : good_dev dev_ex /\ mask_weights (repeat 1 8) [true; false; false; false; false; false; false; false] = Some [1; 0; 0; 0; 0; 0; 0; 0] /\
  option_map c_act (set_weights dev_ex [1; 0; 0; 0; 0; 0; 0; 0]) = Some [true; true; true; true; true; true; true; false; true] /\
  option_map c_actd (set_weights dev_ex [1; 0; 0; 0; 0; 0; 0; 0]) = Some [true; true; true; true; true; true; false; true] /\
  set_weights dev_ex [1; 0] = None.
Proof. exact case_conf. Qed.
Example C73_case_uniform : diff_moves 3 (so3_diff m1) (so3_dd m1) A_ex 0 (vel ez) /\ same_weights 3 (so3_dd m1) [2; 2; 2] (A_ex 0).
Proof. exact (conj A_ex_diff (same_uniform (so3_dd m1) 2 (A_ex 0))). Qed.
Example C73_case_local : good_dev dev_vec /\ local_diff dev_vec (fun q i => INR i - q i) /\
  option_map c_act (set_weights dev_vec [0; 1; 0]) = Some [false; true; true].
Proof. exact case_local. Qed.
