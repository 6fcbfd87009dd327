From Coq Require Import Reals.
From mathcomp Require Import all_ssreflect all_algebra.
From Verif Require Import RField FdModel FdProofs ManModel ManSpec ManProofs ManExamples.
Import GRing.Theory.
Delimit Scope R_scope with coqR.
Local Open Scope ring_scope.

(** Value in terms of the singular values. *)
Theorem C79_value : forall sv : seq R, (0 <= manip_of sv <= 308 * INR (size sv))%coqR /\
  Rpower 10 (- manip_of sv)%coqR = Rmin 1%coqR (product [seq Rmax s tiny | s <- sv]).
Proof. exact (fun sv => conj (conj (manip_nonneg sv) (manip_bound sv)) (manip_power sv)). Qed.
Print Assumptions C79_value.

(** Value in terms of the determinant.  [case_determinant] meets the hypotheses. *)
Theorem C79_determinant : forall m n k (svd : 'M[R]_(m, k) -> seq R) (act : 'I_k -> 'I_n) (J : 'M[R]_(m, n)), (m <= k)%N -> only_active act J ->
  singular_values (active_columns act J) (svd (active_columns act J)) ->
  (forall s, s \in svd (active_columns act J) -> (tiny <= s)%coqR) ->
  Rpower 10 (-2 * manip svd act J)%coqR = Rmin 1%coqR (\det (J *m J^T)).
Proof. exact det_value. Qed.
Print Assumptions C79_determinant.

(** At singular configurations.  [case_singular] meets the hypotheses. *)
Theorem C79_singular : forall m n k (svd : 'M[R]_(m, k) -> seq R) (act : 'I_k -> 'I_n) (J : 'M[R]_(m, n)), (m <= k)%N -> only_active act J ->
  singular_values (active_columns act J) (svd (active_columns act J)) ->
  (forall s, s \in svd (active_columns act J) -> (s <= 1)%coqR) ->
  \det (J *m J^T) = 0 -> (307 <= manip svd act J)%coqR.
Proof. exact singular_value. Qed.
Print Assumptions C79_singular.

(** Jacobian. *)
Theorem C79_jacobian : forall integ adp value x n J k, (forall y z : vec, (forall j, y j = z j) -> value y = value z) ->
  (forall u v, (forall j, u j = v j) -> forall j, integ x u j = integ x v j) -> (k < n)%N ->
  manip_jacobian integ adp value x n J 0 k =
  (if adp k then let h := step (/ 10 ^ 8) k x in (value (integ x (unit_vec k h)) - value (integ x (unit_vec k (- h)))) / h / 2 else 0)%coqR.
Proof. exact jacobian_quotient. Qed.
Print Assumptions C79_jacobian.

(** With more rows than active variables the value can be 0 though the Jacobian never has full row rank. *)
Theorem C79_rows_refuted : exists m n k (svd : 'M[R]_(m, k) -> seq R) (act : 'I_k -> 'I_n) (J : 'M[R]_(m, n)),
  only_active act J /\ singular_values (active_columns act J) (svd (active_columns act J)) /\
  \det (J *m J^T) = 0 /\ manip svd act J = 0.
Proof. exact rows_refuted. Qed.
Print Assumptions C79_rows_refuted.
