From Coq Require Import ZArith List Bool Lia Reals Lra.
From Verif Require Import SegModel SegSpec SegProofs ViewModel ViewProofs EcsModel EcsSpec EcsProofs EcsMainProofs EcsFinalProofs EcsSolveProofs
  EcsJacModel EcsJacSpec EcsJacProofs EcsDerivProofs ImplFunProofs RedModel RedProofs.
Import ListNotations.
Open Scope Z_scope.

Notation rsum := (ksum 0%R Rplus).
(** Gradient of a real function of the configuration at q0, along curves. *)
Lemma rsum_swap N M (f : Z -> Z -> R) : rsum N (fun i => rsum M (fun j => f i j)) = rsum M (fun j => rsum N (fun i => f i j)).
Proof.
  induction N as [|N IH]; cbn.
  - symmetry. apply rsum_zero. reflexivity.
  - rewrite IH, <- rsum_plus. reflexivity.
Qed.
Lemma rsum_mult_r N f (x : R) : (rsum N f * x = rsum N (fun i => f i * x))%R.
Proof. induction N as [|N IH]; cbn; [lra|]. rewrite <- IH. lra. Qed.
Lemma rsum_mult_l N f (x : R) : (x * rsum N f = rsum N (fun i => x * f i))%R.
Proof. induction N as [|N IH]; cbn; [lra|]. rewrite <- IH. lra. Qed.

Section D.
Context {Rh : Type}.
Notation con := (con R Rh).
Notation ecs := (ecs R Rh).
Variable iadd : Z -> Z -> Z.
Variables (P : con -> Prop) (m : Z).
Hypothesis FAM : family m m P.
Hypothesis VEC : forall c, P c -> c_in c = c_inv c /\ c_out c = c_outv c.

Lemma reduced_derivative (st : ecs) rl Fs rows (Jf M : mat R) (q r : R -> Z -> R) (dq : Z -> R) (f : Z -> (Z -> R) -> R) :
  reach iadd P m m st -> length rl = length (data st) -> (forall c, In c (data st) -> sized c) ->
  jac_sizes (data st) Fs -> nc Jf = m -> inside (nr Jf) rows ->
  reduced 0%R 1%R Rplus Rmult st Fs rows Jf = Some M ->
  (forall t, solve (with_rhs st rl) (q t) = Some (r t)) ->
  (forall k c F rh, nth_error (data st) k = Some c -> nth_error Fs k = Some F -> nth_error rl k = Some rh ->
     diff_along (c_val c rh) (map (r 0%R) (indices (c_in c))) F (length (indices (c_out c)))) ->
  (forall i, 0 <= i < m -> derivable_pt_lim (fun t => q t i) 0 (dq i)) ->
  (forall i (g : R -> Z -> R) dg, covers rows i -> g 0%R = r 0%R ->
     (forall x, 0 <= x < m -> derivable_pt_lim (fun t => g t x) 0 (dg x)) ->
     derivable_pt_lim (fun t => f i (g t)) 0 (rsum (Z.to_nat m) (fun x => (at_ Jf i x * dg x)%R))) ->
  forall p i, nth_error (indices rows) p = Some i ->
    derivable_pt_lim (fun t => f i (r t)) 0
      (rsum (length (indices (notOutDers st))) (fun c => (at_ M (Z.of_nat p) c * dq (nth (Z.to_nat c) (indices (notOutDers st)) 0%Z))%R)).
Proof.
  intros HR HL HS HSz Hc Hr HM HSol HDiff Hdq Hf p i Hp.
  pose proof (reach_inv iadd P m m st FAM HR) as I. pose proof (m_nonneg P m m FAM) as Hm.
  destruct (jacobian_spec 0%R 1%R Rplus Rmult (Rplus_0_l 0) Rmult_0_r iadd P m m FAM st Fs HR HSz) as (J & EJ & J1 & J2 & J3 & J4 & J5).
  destruct (reduced_spec iadd P m m FAM st Fs rows Jf (at_ J) HR HSz Hc Hr J3) as (M' & E' & M1 & M2 & M3). rewrite HM in E'. injection E' as <-.
  eapply derive_eq; [reflexivity| |apply (Hf i r (fun x => rsum (Z.to_nat m) (fun j => (at_ J x j * dq j)%R)))].
  - rewrite (ksum_ext 0%R Rplus _ (fun x => (at_ Jf i x * rsum (Z.to_nat m) (fun j => (at_ J x j * dq j)%R))%R)
      (fun x => rsum (Z.to_nat m) (fun j => (at_ Jf i x * at_ J x j * dq j)%R))).
    2:{ intros x _. rewrite rsum_mult_l. apply ksum_ext. intros j _. lra. }
    rewrite rsum_swap. symmetry.
    rewrite (rsum_support (indices (notOutDers st))).
    + rewrite <- rsum_list. apply ksum_ext. intros c Hc'. rewrite Nat2Z.id.
      destruct (nth_error (indices (notOutDers st)) c) as [j|] eqn:Ej; [|apply nth_error_None in Ej; lia].
      rewrite (nth_error_nth _ _ 0 Ej). rewrite (M3 p c i j Hp Ej), <- rsum_mult_r. reflexivity.
    + destruct (i_notvn _ _ _ _ _ I) as [Nn Sn]. now apply sep_NoDup.
    + intros j Hj. apply In_indices, (i_notv _ _ _ _ _ I) in Hj as [Hj _]. lia.
    + intros j Hj Hn. apply rsum_zero. intros x Hx. rewrite Z2Nat.id in Hj, Hx by lia.
      assert (Oj : outputv (data st) j).
      { destruct (outputv_dec (data st) j) as [O|O]; [exact O|]. exfalso. apply Hn, In_indices, (i_notv _ _ _ _ _ I). auto. }
      assert (Z0 : at_ J x j = 0%R); [|rewrite Z0; lra].
      destruct (outputv_dec (data st) x) as [O|O].
      * apply J4; auto. tauto.
      * rewrite (proj1 J3) by auto. destruct (Z.eqb_spec x j) as [->|_]; [contradiction|reflexivity].
  - apply nth_error_In, In_indices in Hp. exact Hp.
  - reflexivity.
  - intros x Hx. exact (jacobian_is_derivative iadd P m FAM VEC st rl Fs J q r dq HR HL HS HSz EJ HSol HDiff Hdq x Hx).
Qed.
End D.
