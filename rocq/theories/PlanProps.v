From Coq Require Import Reals List ZArith.
From Verif Require Import Geo SegModel SegSpec ViewModel FunModel ImplFunModel VisSpec PlanModel PlanSpec PlanProofs PlanExamples.
Import ListNotations.
Local Open Scope R_scope.

(** Output in a vector space.  [case_vector] meets the hypotheses. *)
Theorem C77_vector : forall (g : ifun R R) (q : R -> Z -> R) (dq : Z -> R) (J : mat R) (n : Z),
  let out s := map (q s) (indices (if_out g)) in
  let val s := if_f g (map (q s) (indices (if_in g))) in
  let F := if_J g (map (q 0) (indices (if_in g))) in
  (0 <= n)%Z -> shaped g (fac_id n n) (q 0) J -> if_sub g = sub_rn ->
  (forall s, length (val s) = Z.to_nat n) ->
  (forall i, (i < Z.to_nat n)%nat -> deriv (fun s => nth i (out s) 0) 0 (pick dq (if_outv g) i)) ->
  (forall i, (i < Z.to_nat n)%nat -> deriv (fun s => nth i (val s) 0) 0 (rate F (map dq (indices (if_inv g))) i)) ->
  exists J', if_jacobian 0 g (q 0) J = Some J' /\ jacobian_is_derivative g (Z.to_nat n) q dq J'.
Proof. exact vector_jacobian. Qed.
Print Assumptions C77_vector.

(** Output in SO(2).  [case_so2] meets the hypotheses. *)
Theorem C77_so2 : forall (g : ifun R R) (q : R -> Z -> R) (dq : Z -> R) (J : mat R),
  let out s := map (q s) (indices (if_out g)) in
  let val s := if_f g (map (q s) (indices (if_in g))) in
  let F := if_J g (map (q 0) (indices (if_in g))) in
  shaped g (fac_id 2 1) (q 0) J -> if_sub g = sub_so2 ->
  (forall s, unit_at 0 (out s)) -> (forall s, unit_at 0 (val s)) ->
  spins 0 out (pick dq (if_outv g) 0%nat) -> spins 0 val (rate F (map dq (indices (if_inv g))) 0%nat) ->
  ~ opposite 0 (out 0) (val 0) ->
  exists J', if_jacobian 0 g (q 0) J = Some J' /\ jacobian_is_derivative g 1 q dq J'.
Proof. exact so2_jacobian. Qed.
Print Assumptions C77_so2.

(** Output in R^2 x SO(2).  [case_r2so2] meets the hypotheses. *)
Theorem C77_r2so2 : forall (g : ifun R R) (q : R -> Z -> R) (dq : Z -> R) (J : mat R),
  let out s := map (q s) (indices (if_out g)) in
  let val s := if_f g (map (q s) (indices (if_in g))) in
  let F := if_J g (map (q 0) (indices (if_in g))) in
  let Vout := pick dq (if_outv g) in let Vin := rate F (map dq (indices (if_inv g))) in
  shaped g (fac_id 4 3) (q 0) J -> if_sub g = sub_r2so2 ->
  (forall s, unit_at 2 (out s)) -> (forall s, unit_at 2 (val s)) ->
  slides out (Vout 0%nat) (Vout 1%nat) -> spins 2 out (Vout 2%nat) ->
  slides val (Vin 0%nat) (Vin 1%nat) -> spins 2 val (Vin 2%nat) ->
  ~ opposite 2 (out 0) (val 0) ->
  exists J', if_jacobian 0 g (q 0) J = Some J' /\ jacobian_is_derivative g 3 q dq J'.
Proof. exact r2so2_jacobian. Qed.
Print Assumptions C77_r2so2.

(** Output in SE(2), at a configuration where the constraint holds.  [case_se2] meets the hypotheses. *)
Theorem C77_se2 : forall (g : ifun R R) (q : R -> Z -> R) (dq : Z -> R) (J : mat R),
  let out s := map (q s) (indices (if_out g)) in
  let val s := if_f g (map (q s) (indices (if_in g))) in
  let F := if_J g (map (q 0) (indices (if_in g))) in
  let Vout := pick dq (if_outv g) in let Vin := rate F (map dq (indices (if_inv g))) in
  shaped g (fac_id 4 3) (q 0) J -> if_sub g = sub_se2 ->
  (forall s, unit_at 2 (out s)) -> (forall s, unit_at 2 (val s)) ->
  slides_body out (Vout 0%nat) (Vout 1%nat) -> spins 2 out (Vout 2%nat) ->
  slides_body val (Vin 0%nat) (Vin 1%nat) -> spins 2 val (Vin 2%nat) ->
  (forall k, (k < 4)%nat -> nth k (out 0) 0 = nth k (val 0) 0) ->
  exists J', if_jacobian 0 g (q 0) J = Some J' /\ jacobian_is_derivative g 3 q dq J'.
Proof. exact se2_jacobian. Qed.
Print Assumptions C77_se2.

(** Away from the constraint the Jacobian for SE(2) is not the derivative. *)
Theorem C77_se2_refuted : exists g q dq J J', shaped g (fac_id 4 3) (q 0) J /\ if_sub g = sub_se2 /\
  let out s := map (q s) (indices (if_out g)) in
  let val s := if_f g (map (q s) (indices (if_in g))) in
  let F := if_J g (map (q 0) (indices (if_in g))) in
  let Vout := pick dq (if_outv g) in let Vin := rate F (map dq (indices (if_inv g))) in
  (forall s, unit_at 2 (out s)) /\ (forall s, unit_at 2 (val s)) /\
  slides_body out (Vout 0%nat) (Vout 1%nat) /\ spins 2 out (Vout 2%nat) /\
  slides_body val (Vin 0%nat) (Vin 1%nat) /\ spins 2 val (Vin 2%nat) /\
  ~ opposite 2 (out 0) (val 0) /\
  if_jacobian 0 g (q 0) J = Some J' /\ ~ jacobian_is_derivative g 3 q dq J'.
Proof. exact refuted_se2. Qed.
Print Assumptions C77_se2_refuted.
