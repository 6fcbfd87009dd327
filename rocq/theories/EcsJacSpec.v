(** What the Jacobian of a set of explicit constraints must be: identity for the
    variables that are not outputs, chain rule for the outputs. *)
From Coq Require Import ZArith List.
From Verif Require Import SegSpec ViewModel EcsModel EcsSpec.
Import ListNotations.
Open Scope Z_scope.

Section Spec.
Context {V Rh K : Type}.
Variables (zero one : K) (kadd kmul : K -> K -> K).

(** a_0 b_0 + a_1 b_1 + ... *)
Definition dot (a b : list K) : K := fold_left (fun s p => kadd s (kmul (fst p) (snd p))) (combine a b) zero.
(** row i of a matrix with n columns *)
Definition row_of (M : mat K) (i n : nat) : list K := map (fun k => at_ M (Z.of_nat i) (Z.of_nat k)) (seq 0 n).

(** [m] variables, constraints [l], their Jacobians [Fs] *)
Definition total_jacobian (m : Z) (l : list (con V Rh)) (Fs : list (mat K)) (J : Z -> Z -> K) : Prop :=
  (forall i j, 0 <= i < m -> 0 <= j < m -> ~ outputv l i -> J i j = if i =? j then one else zero) /\
  (forall k c F p i j, nth_error l k = Some c -> nth_error Fs k = Some F ->
     nth_error (indices (c_outv c)) p = Some i -> 0 <= j < m ->
     J i j = dot (row_of F p (length (indices (c_inv c)))) (map (fun x => J x j) (indices (c_inv c)))).
(** sizes of the Jacobians of the constraints *)
Definition jac_sizes (l : list (con V Rh)) (Fs : list (mat K)) : Prop :=
  length Fs = length l /\
  forall k c F, nth_error l k = Some c -> nth_error Fs k = Some F ->
    nr F = Z.of_nat (length (indices (c_outv c))) /\ nc F = Z.of_nat (length (indices (c_inv c))).
End Spec.

(** Differentiability along curves of a function of vectors of reals, with its
    Jacobian at x0 (implied by Fréchet differentiability). *)
From Coq Require Import Reals.
Definition diff_along (f : list R -> list R) (x0 : list R) (F : mat R) (nout : nat) : Prop :=
  forall (g : R -> list R) (dg : list R),
    (forall t, length (g t) = length x0) -> length dg = length x0 -> g 0%R = x0 ->
    (forall k, (k < length x0)%nat -> derivable_pt_lim (fun t => nth k (g t) 0%R) 0 (nth k dg 0%R)) ->
    forall p, (p < nout)%nat ->
      derivable_pt_lim (fun t => nth p (f (g t)) 0%R) 0 (dot 0%R Rplus Rmult (row_of F p (length x0)) dg).
