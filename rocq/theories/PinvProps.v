(** C61: pseudo-inverse of a matrix of expressions, its derivative, and static stability. *)
From Coq Require Import List.
From mathcomp Require Import all_ssreflect all_algebra.
From Verif Require Import DescentModel DescentSpec PinvModel PinvSpec PinvProofs PinvMain PinvStat PinvExamples MoeModel MoeProofs.
Set Implicit Arguments. Unset Strict Implicit. Unset Printing Implicit Defensive.
Import GRing.Theory Num.Theory.
Open Scope ring_scope.

(** the matrix computed is the pseudo-inverse, and the projectors are what they should be *)
Theorem C61_pseudo_inverse : forall (R : realFieldType) m k (M : 'M[R]_(m, k)) (D : svdf M),
  penrose M (pseudoInverse D) /\ (forall X, penrose M X -> X = pseudoInverse D) /\
  (forall full, projectorOnKernel D full = 1%:M - pseudoInverse D *m M) /\
  (forall full, projectorOnKernelOfInv D full = 1%:M - M *m pseudoInverse D) /\
  projectorOnSpan D = pseudoInverse D *m M /\ projectorOnSpanOfInv D = M *m pseudoInverse D.
Proof. exact pseudo_inverse_all. Qed.
Print Assumptions C61_pseudo_inverse.

(** the pseudo-inverse of a differentiable matrix is differentiable iff the rank is locally constant *)
Theorem C61_differentiable_iff : forall (R : realFieldType) m k (A : R -> 'M[R]_(m, k)) (D : forall s, svdf (A s)) t L,
  has_derivative A t L ->
  ((exists G, has_derivative (fun s => pseudoInverse (D s)) t G) <-> near0 (fun h => \rank (A (t + h)) = \rank (A t))).
Proof. exact differentiable_iff. Qed.
Print Assumptions C61_differentiable_iff.

(** computePseudoInverseJacobian is then the derivative *)
Theorem C61_pinv_jacobian : forall (R : realFieldType) m k d (Phi : R -> 'M[R]_(m, k)) (D : forall s, svdf (Phi s)) t
  (dphi : 'I_d -> 'M[R]_(m, k)) (q : 'cV[R]_d), has_derivative Phi t (along dphi q) ->
  near0 (fun h => \rank (Phi (t + h)) = \rank (Phi t)) -> forall rhs,
  has_derivative (fun s => pseudoInverse (D s) *m rhs) t (pinvJacobian (D t) dphi rhs *m q).
Proof. exact pinvJ. Qed.
Print Assumptions C61_pinv_jacobian.

Theorem C61_rank_jump_refuted : forall R : realFieldType, exists (A : R -> 'rV[R]_2) (D : forall s, svdf (A s)) L,
  has_derivative A 0 L /\ ~ exists G, has_derivative (fun s => pseudoInverse (D s)) 0 G.
Proof. exact not_differentiable. Qed.
Print Assumptions C61_rank_jump_refuted.

(** StaticStability: the last rows are the smallest possible resultant, zero iff gravity is in the span of the contacts;
    the forces of the first rows give the same resultant *)
Theorem C61_static_value : forall (R : realFieldType) m k (M : 'M[R]_(m, k)) (D : svdf M) (g : 'cV[R]_m) eps,
  g + M *m (stat_value D g eps).1 = (stat_value D g eps).2 /\
  (forall f, norm2 (stat_value D g eps).2 <= norm2 (g + M *m f)) /\
  ((stat_value D g eps).2 = 0 <-> exists f, M *m f = - g).
Proof. exact static_value_all. Qed.
Print Assumptions C61_static_value.

Theorem C61_negative_force_refuted : forall R : realFieldType,
  exists (m k : nat) (M : 'M[R]_(m, k)) (D : svdf M) (g : 'cV[R]_m) f, M *m f = - g /\ (forall i, 0 <= f i 0) /\
  forall eps, 0 <= eps -> eps < 4%:R -> exists i, (stat_value D g eps).1 i 0 < 0.
Proof. exact negative_force. Qed.
Print Assumptions C61_negative_force_refuted.

(** Jacobian of StaticStability *)
Theorem C61_static_jacobian : forall (R : realFieldType) m k d (Phi : R -> 'M[R]_(m, k)) (D : forall s, svdf (Phi s)) t
  (dphi : 'I_d -> 'M[R]_(m, k)) (q : 'cV[R]_d), has_derivative Phi t (along dphi q) ->
  near0 (fun h => \rank (Phi (t + h)) = \rank (Phi t)) -> forall g eps,
  has_derivative (fun s => (stat_value (D s) g eps).2) t ((stat_jacobian (D t) dphi g eps).2 *m q) /\
  ((forall i, stat_u (D t) g i 0 != 0) -> 0 <= eps ->
   (forall i, 0 < stat_u (D t) g i 0) \/ (exists i, stat_u (D t) g i 0 < - eps) ->
   has_derivative (fun s => (stat_value (D s) g eps).1) t ((stat_jacobian (D t) dphi g eps).1 *m q)).
Proof. exact static_jacobian_all. Qed.
Print Assumptions C61_static_jacobian.

(** cache: after a move and an invalidation every quantity computed is that of the current configuration *)
Theorem C61_cache : forall (Q V S P : Type) (elem : Q -> V) (svd_of : V -> S) (pinv_of : S -> P) (m : moe Q V S P) before q l,
  Forall (compute Q) l ->
  let m' := run Q V S P elem svd_of pinv_of m (before ++ [:: Move q; Invalidate] ++ l) in
  MoeModel.value _ _ _ _ (step Q V S P elem svd_of pinv_of m' ComputeValue) = elem q /\
  MoeModel.svd _ _ _ _ (step Q V S P elem svd_of pinv_of m' ComputeSVD) = svd_of (elem q) /\
  pi_ _ _ _ _ (step Q V S P elem svd_of pinv_of m' ComputePinv) = Some (pinv_of (svd_of (elem q))).
Proof. exact up_to_date. Qed.
Print Assumptions C61_cache.

(** copies of a matrix whose pseudo-inverse has been computed *)
Theorem C61_copy_refuted : forall (Q V S P : Type) (elem : Q -> V) (svd_of : V -> S) (pinv_of : S -> P) (m : moe Q V S P) q v l,
  Forall (compute Q) l ->
  pi_ _ _ _ _ (run Q V S P elem svd_of pinv_of m ([:: Move q; Invalidate; ComputePinv; CopyOf v] ++ l ++ [:: ComputePinv])) = None.
Proof. exact copy_empty. Qed.
Print Assumptions C61_copy_refuted.
