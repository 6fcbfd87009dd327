(** Saturation without bounds. *)
From Coq Require Import ZArith List Bool Reals Lra Lia.
From Verif Require Import ViewModel SatModel SatProofs.
Import ListNotations.
Open Scope Z_scope.

Lemma base_same : forall (q : Z -> R), let b := base_saturate q in
  (forall i, qs b i = q i) /\ (forall k, fl b k = 0) /\ ret b = false /\
  forall lb ub n m s, ret s = false -> (forall i, 0 <= i < n -> (lb i < q i < ub i)%R) -> (forall i j, 0 <= i < n -> 0 <= j < n -> m i = m j -> i = j) ->
  let r := sat_list Rleb lb ub q (bounds_pairs n m) s in
  (forall i, 0 <= i < n -> qs r i = qs b i /\ fl r (m i) = fl b (m i)) /\ ret r = ret b.
Proof.
  intros q b. repeat split.
  - destruct (bounds_values lb ub q n m s) as (A & _). destruct (A i H2) as (f & hit & C & _). destruct (H0 i H2). unfold clamped in C. cbn. destruct C as (_ & _ & C). apply C; lra.
  - destruct (bounds_values lb ub q n m s) as (A & _). destruct (A i H2) as (f & hit & C & F & _). destruct (H0 i H2). unfold clamped in C. rewrite F by (intros j J E; apply H1 in E; lia). destruct C as (_ & _ & C). apply C; lra.
  - destruct (bounds_values lb ub q n m s) as (_ & _ & _ & D). cbn. destruct (ret (sat_list Rleb lb ub q (bounds_pairs n m) s)) eqn:E; [|reflexivity]. destruct (proj1 (D H) eq_refl) as (i & I & J). destruct (H0 i I). lra.
Qed.
