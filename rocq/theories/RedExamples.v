(** Two variables, one explicit constraint q1 = q0^2, one row f(q) = q0 q1, so that after
    substitution f = q0^3. *)
From Coq Require Import ZArith List Bool Lia Reals Lra.
From Verif Require Import SegModel SegSpec SegProofs ViewModel ViewProofs EcsModel EcsSpec EcsFinalProofs EcsJacModel EcsJacSpec EcsDerivProofs RedModel RedProofs RedDerivProofs.
Import ListNotations.
Open Scope Z_scope.

Definition sq_con : con R unit :=
  mkcon [(0, 1)] [(1, 1)] [(0, 1)] [(1, 1)] [EqualToZero] (fun _ x => [(nth 0 x 0 * nth 0 x 0)%R]) tt.
Definition sq_st : ecs R unit := fst (add Z.add 5 (init 2 2) sq_con).
Lemma sq_family : family 2 2 (fun c => c = sq_con).
Proof.
  split; [lia|]. split; [lia|]. split.
  - intros c ->. repeat (split; [eexists; reflexivity|]).
    repeat split; try (intros s [<-|[]]; cbn; lia); try (intros u []); try (destruct H as [<-|[]]; cbn; lia); try (destruct H); cbn; try lia.
  - intros c d -> ->. unfold consistent, meet; cbn. tauto.
Qed.
Lemma sq_reach : reach Z.add (fun c => c = sq_con) 2 2 sq_st.
Proof.
  apply (reach_add Z.add _ 2 2 (init 2 2) sq_con 5 sq_st (snd (add Z.add 5 (init 2 2) sq_con))); [constructor|reflexivity|].
  unfold sq_st. apply surjective_pairing.
Qed.
Definition sq_F : mat R := mkmat 1 1 (fun _ _ => 2%R).
Definition sq_J : mat R := mkmat 1 2 (fun _ _ => 1%R).
Definition sq_q (t : R) (i : Z) : R := if i =? 0 then (1 + t)%R else 7%R.
Definition sq_r (t : R) (i : Z) : R := if i =? 0 then (1 + t)%R else if i =? 1 then ((1 + t) * (1 + t))%R else 7%R.

Lemma sq_sizes : jac_sizes (data sq_st) [sq_F].
Proof.
  split; [reflexivity|]. intros [|[|k]] c F Hc HF; try discriminate Hc; try discriminate HF. vm_compute in Hc. injection Hc as <-. injection HF as <-. split; reflexivity.
Qed.
Definition sq_T (i j : Z) : R := if j =? 0 then (if i =? 0 then 1 else 2)%R else 0%R.
Lemma sq_total : total_jacobian 0%R 1%R Rplus Rmult 2 (data sq_st) [sq_F] sq_T.
Proof.
  split.
  - intros i j Hi Hj Ho. assert (i = 0 \/ i = 1) as [-> | ->] by lia.
    + unfold sq_T. destruct (Z.eqb_spec j 0) as [->|N]; [reflexivity|]. destruct (Z.eqb_spec 0 j); [lia|reflexivity].
    + exfalso. apply Ho. exists sq_con. split; [vm_compute; auto|]. exists (1, 1). split; [now left|]. unfold in_seg; cbn; lia.
  - intros [|[|k]] c F p i j Hc HF Hp Hj; try discriminate Hc. injection HF as <-. vm_compute in Hc. injection Hc as <-.
    destruct p as [|[|p]]; try discriminate Hp. injection Hp as <-. unfold sq_T, dot, row_of. change (Pos.to_nat 1) with 1%nat. cbn. change (Pos.to_nat 1) with 1%nat. cbn.
    assert (j = 0 \/ j = 1) as [-> | ->] by lia; cbn; lra.
Qed.
Lemma sq_inside : inside (nr sq_J) [(0, 1)].
Proof. intros s [<-|[]]. cbn. lia. Qed.
Lemma sq_value : exists M, reduced 0%R 1%R Rplus Rmult sq_st [sq_F] [(0, 1)] sq_J = Some M /\ at_ M 0 0 = 3%R.
Proof.
  destruct (reduced_spec Z.add _ 2 2 sq_family sq_st [sq_F] [(0, 1)] sq_J sq_T sq_reach sq_sizes eq_refl sq_inside sq_total) as (M & E & _ & _ & H).
  exists M. split; [exact E|]. etransitivity; [exact (H 0%nat 0%nat 0 0 eq_refl eq_refl)|]. change (Z.to_nat 2) with 2%nat. cbn. unfold sq_T; cbn. lra.
Qed.
Lemma sq_solve t : exists r, solve (with_rhs sq_st [tt]) (sq_q t) = Some r /\ r 0 = (1 + t)%R /\ r 1 = ((1 + t) * (1 + t))%R.
Proof. eexists. split; [reflexivity|]. split; reflexivity. Qed.
Lemma sq_curve : derivable_pt_lim (fun t => ((1 + t) * ((1 + t) * (1 + t)))%R) 0 3%R.
Proof.
  assert (D1 : derivable_pt_lim (fun t => (1 + t)%R) 0 1%R).
  { eapply derive_eq with (l' := (0 + 1)%R) (g := (fct_cte 1 + id)%F); [reflexivity|lra|]. apply (derivable_pt_lim_plus (fct_cte 1) id); [apply derivable_pt_lim_const|apply derivable_pt_lim_id]. }
  pose proof (derivable_pt_lim_mult _ _ _ _ _ D1 D1) as D2. pose proof (derivable_pt_lim_mult _ _ _ _ _ D1 D2) as D3.
  unfold mult_fct in D3. eapply derive_eq; [reflexivity| |exact D3]. lra.
Qed.
