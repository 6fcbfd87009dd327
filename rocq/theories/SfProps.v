From Coq Require Import Reals List Bool ZArith.
From Verif Require Import Geo Rigid ViewModel LogModel VisSpec SfModel SfSpec SfProofs SfExamples.
Import ListNotations.
Local Open Scope R_scope.

(** Value: the selected rows in order, whatever was evaluated before, the rows after them untouched. *)
Theorem C78_value : forall f st o l,
  (length (sf_mask f) <= length (expr_value (sf_expr f) st))%nat -> (length (selected (sf_mask f)) <= length l)%nat ->
  exists l', fst (sf_compute f st o l) = Some l' /\ selects (sf_mask f) (expr_value (sf_expr f) st) l l'.
Proof. exact sf_value_spec. Qed.
Print Assumptions C78_value.

(** Jacobian: the selected rows, zero for the extra degrees of freedom, the other rows untouched elsewhere. *)
Theorem C78_jacobian : forall f st o J d, let Je := o_jac (snd (sf_jacobian f st o J)) in
  sf_extra f = Some d \/ sf_extra f = None /\ d = 0%Z ->
  nc J = (nc Je + d)%Z -> (0 <= d)%Z -> (Z.of_nat (length (sf_mask f)) <= nr Je)%Z ->
  (Z.of_nat (length (selected (sf_mask f))) <= nr J)%Z ->
  exists J', fst (sf_jacobian f st o J) = Some J' /\ nr J' = nr J /\ nc J' = nc J /\
  (forall k j c, nth_error (selected (sf_mask f)) k = Some j -> (0 <= c < nc Je)%Z -> at_ J' (Z.of_nat k) c = at_ Je (Z.of_nat j) c) /\
  (forall r c, (nc Je <= c < nc J)%Z -> at_ J' r c = 0) /\
  (forall r c, (Z.of_nat (length (selected (sf_mask f))) <= r)%Z -> (0 <= c < nc Je)%Z -> at_ J' r c = at_ J r c).
Proof. exact jac_rows_body. Qed.
Print Assumptions C78_jacobian.

(** Frame of a joint: the Jacobian is the derivative.  [case_joint_frame] meets the hypotheses. *)
Theorem C78_joint_frame : forall mask d (st : R -> state) (o : R -> obj) (res l : R -> list R) J dq,
  let f := mksf JointFrame mask (Some d) in
  length mask = 6%nat -> (forall s, (length (selected mask) <= length (res s))%nat) -> (0 <= d)%Z -> (0 <= nc (s_J (st 0%R)))%Z ->
  nc J = (nc (s_J (st 0%R)) + d)%Z -> length dq = Z.to_nat (nc J) -> (Z.of_nat (length (selected mask)) <= nr J)%Z ->
  (forall s, rotation (rot (s_M (st s)))) ->
  moves (fun s => s_M (st s)) 0 (vec6 (rate (s_J (st 0)) (velocity (s_J (st 0)) dq))) ->
  (let th := fst (logSO3 (rot (s_M (st 0)))) in / 1000000 < th < PI \/ th = 0) ->
  (forall s, fst (sf_compute f (st s) (o s) (res s)) = Some (l s)) ->
  exists J', fst (sf_jacobian f (st 0) (o 0) J) = Some J' /\
  forall k, (k < length (selected mask))%nat -> deriv (fun s => nth k (l s) 0) 0 (rate J' dq k).
Proof. exact joint_frame_body. Qed.
Print Assumptions C78_joint_frame.

(** A function as expression.  [case_function] meets the hypotheses. *)
Theorem C78_function : forall g gJ n mask x (st : R -> state) (o : R -> obj) (res l : R -> list R) J d dq,
  let f := mksf (FunctionExp g gJ) mask x in let Jg := gJ (s_arg (st 0)) in
  length mask = n -> (forall s, length (g (s_arg (st s))) = n) -> nr Jg = Z.of_nat n -> (0 <= nc Jg)%Z ->
  (forall s, (length (selected mask) <= length (res s))%nat) -> x = Some d \/ x = None /\ d = 0%Z -> (0 <= d)%Z ->
  nc J = (nc Jg + d)%Z -> length dq = Z.to_nat (nc J) -> (Z.of_nat (length (selected mask)) <= nr J)%Z ->
  (forall i, (i < n)%nat -> deriv (fun s => nth i (g (s_arg (st s))) 0) 0 (rate Jg (velocity Jg dq) i)) ->
  (forall s, fst (sf_compute f (st s) (o s) (res s)) = Some (l s)) ->
  exists J', fst (sf_jacobian f (st 0) (o 0) J) = Some J' /\
  forall k, (k < length (selected mask))%nat -> deriv (fun s => nth k (l s) 0) 0 (rate J' dq k).
Proof. exact function_body. Qed.
Print Assumptions C78_function.

(** With a partial mask the value depends on what the caller passes. *)
Theorem C78_mask_refuted : exists f st o l1 l2 r1 r2, length (sf_mask f) = length (expr_value (sf_expr f) st) /\
  length l1 = length (sf_mask f) /\ length l2 = length (sf_mask f) /\
  fst (sf_compute f st o l1) = Some r1 /\ fst (sf_compute f st o l2) = Some r2 /\ r1 <> r2.
Proof. exact mask_refuted. Qed.
Print Assumptions C78_mask_refuted.

(** With a function valued in poses the Jacobian reads out of bounds. *)
Theorem C78_function_refuted : exists g gJ st, length (g (s_arg st)) = 7%nat /\ nr (gJ (s_arg st)) = 6%Z /\
  forall x o J, fst (sf_jacobian (mksf (FunctionExp g gJ) (repeat true 7) x) st o J) = None.
Proof. exact function_refuted. Qed.
Print Assumptions C78_function_refuted.

(** The caches of the two expressions: after invalidate, whatever is computed and in any order, value
    and Jacobian are those of the current configuration, and kept until the next invalidate. *)
Theorem C78_cache : forall e st ops o,
  let o' := fold_left (fun o (b : bool) => if b then compute_value e st o else compute_jacobian e st o) ops (invalidate o) in
  o_val (compute_value e st o') = expr_value e st /\
  (forall o2, o_jac (compute_jacobian e st o') = o_jac (compute_jacobian e st (invalidate o2))) /\
  forall st', compute_value e st' (compute_value e st o') = compute_value e st o' /\
    compute_jacobian e st' (compute_jacobian e st o') = compute_jacobian e st o'.
Proof. exact cache_body. Qed.
Print Assumptions C78_cache.
