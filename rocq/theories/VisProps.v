From Coq Require Import Reals List ZArith.
From Verif Require Import Geo Rigid SegModel SegSpec ViewModel FunModel ImplFunModel LogModel VisModel VisSpec VisProofs VisExamples.
Import ListNotations.
Local Open Scope R_scope.

(** Output in SE(3).  [case_se3] meets the hypotheses. *)
Theorem C77_se3 : forall (g : ifun R R) (q : R -> Z -> R) (dq : Z -> R) (J : mat R),
  let out s := map (q s) (indices (if_out g)) in
  let val s := if_f g (map (q s) (indices (if_in g))) in
  let F := if_J g (map (q 0) (indices (if_in g))) in
  shaped g fac_se3 (q 0) J -> if_sub g = sub_se3 ->
  (forall s, rotation (rot (se3_of (out s)))) -> (forall s, rotation (rot (se3_of (val s)))) ->
  moves (fun s => se3_of (out s)) 0 (vec6 (pick dq (if_outv g))) ->
  moves (fun s => se3_of (val s)) 0 (vec6 (rate F (map dq (indices (if_inv g))))) ->
  let th := fst (logSO3 (rot (comp (sinv (se3_of (val 0))) (se3_of (out 0))))) in
  / 1000000 < th < PI /\ th <> / 100 \/ th = 0 ->
  exists J', if_jacobian 0 g (q 0) J = Some J' /\ jacobian_is_derivative g 6 q dq J'.
Proof. exact se3_jacobian. Qed.
Print Assumptions C77_se3.

(** Output in R^3 x SO(3).  [case_r3so3] meets the hypotheses. *)
Theorem C77_r3so3 : forall (g : ifun R R) (q : R -> Z -> R) (dq : Z -> R) (J : mat R),
  let out s := map (q s) (indices (if_out g)) in
  let val s := if_f g (map (q s) (indices (if_in g))) in
  let F := if_J g (map (q 0) (indices (if_in g))) in
  shaped g fac_r3so3 (q 0) J -> if_sub g = sub_r3so3 ->
  (forall s, rotation (rot (se3_of (out s)))) -> (forall s, rotation (rot (se3_of (val s)))) ->
  moves_r3so3 (fun s => se3_of (out s)) 0 (vec6 (pick dq (if_outv g))) ->
  moves_r3so3 (fun s => se3_of (val s)) 0 (vec6 (rate F (map dq (indices (if_inv g))))) ->
  let th := fst (logSO3 (mul (mtr (rot (se3_of (val 0)))) (rot (se3_of (out 0))))) in
  / 1000000 < th < PI \/ th = 0 ->
  exists J', if_jacobian 0 g (q 0) J = Some J' /\ jacobian_is_derivative g 6 q dq J'.
Proof. exact r3so3_jacobian. Qed.
Print Assumptions C77_r3so3.

(** Output in SO(3), at a configuration where the constraint holds.  [case_so3] meets the hypotheses. *)
Theorem C77_so3 : forall (g : ifun R R) (q : R -> Z -> R) (dq : Z -> R) (J : mat R),
  let out s := map (q s) (indices (if_out g)) in
  let val s := if_f g (map (q s) (indices (if_in g))) in
  let F := if_J g (map (q 0) (indices (if_in g))) in
  shaped g fac_so3 (q 0) J -> if_sub g = sub_so3 ->
  (forall s, rotation (so3_of (out s))) -> (forall s, rotation (so3_of (val s))) ->
  turns (fun s => so3_of (out s)) 0 (vec3 (pick dq (if_outv g))) ->
  turns (fun s => so3_of (val s)) 0 (vec3 (rate F (map dq (indices (if_inv g))))) ->
  so3_of (out 0) = so3_of (val 0) ->
  exists J', if_jacobian 0 g (q 0) J = Some J' /\ jacobian_is_derivative g 3 q dq J'.
Proof. exact so3_jacobian. Qed.
Print Assumptions C77_so3.

(** Away from the constraint the Jacobian for SO(3) is not the derivative. *)
Theorem C77_so3_refuted : exists g q dq J J', shaped g fac_so3 (q 0) J /\ if_sub g = sub_so3 /\
  (forall s, rotation (so3_of (map (q s) (indices (if_out g))))) /\
  (forall s, rotation (so3_of (if_f g (map (q s) (indices (if_in g)))))) /\
  turns (fun s => so3_of (map (q s) (indices (if_out g)))) 0 (vec3 (pick dq (if_outv g))) /\
  turns (fun s => so3_of (if_f g (map (q s) (indices (if_in g))))) 0
    (vec3 (rate (if_J g (map (q 0) (indices (if_in g)))) (map dq (indices (if_inv g))))) /\
  fst (logSO3 (mul (mtr (so3_of (if_f g (map (q 0) (indices (if_in g)))))) (so3_of (map (q 0) (indices (if_out g)))))) = PI / 2 /\
  if_jacobian 0 g (q 0) J = Some J' /\ ~ jacobian_is_derivative g 3 q dq J'.
Proof. exact refuted_so3. Qed.
Print Assumptions C77_so3_refuted.
