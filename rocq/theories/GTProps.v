From Coq Require Import Reals List Bool.
From Verif Require Import Geo GeoLemmas Rigid LogModel LogSpec DistModel GTModel GTSpec GTTheorems GTExamples GTRef.
Import ListNotations.
Local Open Scope R_scope.

(** The value of the function, after any sequence of setters, is the part of the placement of
    frame 2 in frame 1 selected by the mask. *)
Theorem C53_value : forall (isId : m3 -> bool) (isZero : v3 -> bool) (quat : m3 -> list R),
  (forall m, isId m = true -> m = m1) -> (forall v, isZero v = true -> v = v0) -> (forall m, length (quat m) = 4%nat) ->
  forall o mask l k, good_mask o mask -> let g := setup isId isZero o mask l in
  (forall j, g_j1 g = Some j -> rotation (rot (place k j))) ->
  value quat o g k = select (mask ++ if so3 o then [true] else []) (coords quat o (relpose g k)).
Proof. exact gt_value. Qed.
Print Assumptions C53_value.

(** The Jacobian is written within its bounds, is zero for the extra degrees of freedom, and is
    the derivative of the value; for an output in SO(3), the last three rows give the angular
    velocity of frame 2, in frame 2. *)
Theorem C53_jacobian : forall (isId : m3 -> bool) (isZero : v3 -> bool) (quat : m3 -> list R),
  (forall m, isId m = true -> m = m1) -> (forall v, isZero v = true -> v = v0) -> (forall m, length (quat m) = 4%nat) ->
  forall o mask l K t d cols junk old, good_mask o mask -> let g := setup isId isZero o mask l in
  rotation (rot (F1 g)) -> rotation (rot (F2 g)) -> joint_moves (g_j1 g) K t d -> joint_moves (g_j2 g) K t d ->
  g_j1 g <> None \/ g_j2 g <> None -> (forall j, g_j1 g = Some j \/ g_j2 g = Some j -> length (jjac (K t) j) = cols) ->
  (6 <= length junk)%nat -> Forall (fun c => length c = count mask) old -> (cols <= length old)%nat ->
  exists J, jacobian o g (K t) cols junk old = Some J /\ length J = length old /\ Forall (fun c => length c = count mask) J /\
    (forall c, In c (skipn cols J) -> Forall (fun x => x = 0) c) /\
    (so3 o = false -> (orientation o = true -> log_ok (fst (logSO3 (rot (relpose g (K t)))))) ->
     forall i, (i < count mask)%nat -> deriv (fun s => nth i (value quat o g (K s)) 0) t (row_times J i d)) /\
    (so3 o = true ->
     (forall i, (i < count mask - 3)%nat -> deriv (fun s => nth i (value quat o g (K s)) 0) t (row_times J i d)) /\
     (forall s, skipn (count mask - 3) (value quat o g (K s)) = quat (rot (relpose g (K s)))) /\
     let w i := row_times J (count mask - 3 + i) d in
     mderiv (fun s => rot (relpose g (K s))) t (mul (rot (relpose g (K t))) (cross_matrix (V3 (w 0%nat) (w 1%nat) (w 2%nat))))).
Proof. exact gt_jac. Qed.
Print Assumptions C53_jacobian.

(** The joints and frames are those last set. *)
Theorem C53_setters : forall isId isZero o mask l, let g := setup isId isZero o mask l in
  latest writes_F1 l sid (F1 g) /\ latest writes_F2 l sid (F2 g) /\ latest (writes_J1 o) l None (g_j1 g) /\ latest writes_J2 l None (g_j2 g).
Proof. exact setters. Qed.
Print Assumptions C53_setters.
(** The pose in frame 1 is the identity exactly where the placement of joint 2 in joint 1 is the reference. *)
Theorem C53_reference : forall isId isZero o mask l M k, let g := setup isId isZero o mask (l ++ [SetRef M]) in
  rotation (rot M) -> rotation (rot (joint_place (g_j1 g) k)) ->
  (relpose g k = sid <-> comp (sinv (joint_place (g_j1 g) k)) (joint_place (g_j2 g) k) = M).
Proof. exact reference_zero. Qed.
Print Assumptions C53_reference.
(** The reference that is read is the inverse of the one that was set. *)
Theorem C53_reference_inverse : forall isId isZero o mask l M, reference (setup isId isZero o mask (l ++ [SetRef M])) = sinv M.
Proof. exact reference_get. Qed.
Print Assumptions C53_reference_inverse.
Theorem C53_reference_refuted : forall isId isZero o mask l, exists M, rotation (rot M) /\ reference (setup isId isZero o mask (l ++ [SetRef M])) <> M.
Proof. exact reference_wrong. Qed.
Print Assumptions C53_reference_refuted.

(** A function on which no joint was set has a value, but its Jacobian dereferences a null pointer. *)
Theorem C53_null_joint_refuted : forall o mask k cols junk old,
  position o || orientation o = true -> (0 < cols)%nat -> (0 < length old)%nat -> jacobian o (create o mask) k cols junk old = None.
Proof. exact gt_null. Qed.
Print Assumptions C53_null_joint_refuted.

Example C53_case_value : forall s, / 1000000 < s < PI ->
  value quat_ex o_ex (setup idm zerov o_ex mask_ex l_ex) (K_ex s) = [s + 1; 1; s].
Proof. exact case_gt_value. Qed.
Example C53_case : good_mask o_ex mask_ex /\ let g := setup idm zerov o_ex mask_ex l_ex in
  rotation (rot (F1 g)) /\ rotation (rot (F2 g)) /\ joint_moves (g_j1 g) K_ex 1 [1] /\ joint_moves (g_j2 g) K_ex 1 [1] /\
  (g_j1 g <> None \/ g_j2 g <> None) /\ (forall j, g_j1 g = Some j \/ g_j2 g = Some j -> length (jjac (K_ex 1) j) = 1%nat) /\
  log_ok (fst (logSO3 (rot (relpose g (K_ex 1))))) /\ count mask_ex = 3%nat.
Proof. exact case_gt_jac. Qed.
Example C53_case_so3 : good_mask o_so mask_so /\ let g := setup idm zerov o_so mask_so l_ex in
  rotation (rot (F1 g)) /\ rotation (rot (F2 g)) /\ joint_moves (g_j1 g) K_ex 1 [1] /\ joint_moves (g_j2 g) K_ex 1 [1] /\
  (g_j1 g <> None \/ g_j2 g <> None) /\ (forall j, g_j1 g = Some j \/ g_j2 g = Some j -> length (jjac (K_ex 1) j) = 1%nat) /\ count mask_so = 5%nat.
Proof. exact case_gt_so. Qed.
