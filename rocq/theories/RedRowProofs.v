From Coq Require Import ZArith List Bool Lia Reals Lra.
From Verif Require Import SegModel SegSpec SegProofs ViewModel ViewProofs EcsModel EcsSpec EcsProofs EcsOrderProofs EcsMainProofs EcsFinalProofs EcsSolveProofs
  EcsJacModel EcsJacSpec EcsJacProofs EcsDerivProofs ImplFunProofs RedModel RedProofs ImplModel HierModel BySubModel BySubSpec BySubRowProofs.
Import ListNotations.
Open Scope Z_scope.

(** Rows that are not kept: the residual does not vary with the free variables. *)
Lemma dropped_rows {F V} (iadd : Z -> Z -> Z) (P : con V (list V) -> Prop) n m (st : ecs V (list V)) junk (c : ic F V) Fs T (g : Z -> R) :
  family n m P -> exact_add iadd -> reach iadd P n m st -> length (ic_adp c) = Z.to_nat m -> jac_sizes (data st) Fs ->
  total_jacobian 0%R 1%R Rplus Rmult m (data st) Fs T ->
  act_bs iadd junk st (notOutDers st) c = false ->
  (forall i, 0 <= i < m -> ~ uses c i -> g i = 0%R) ->
  forall j, free_var m (data st) j -> ksum 0%R Rplus (Z.to_nat m) (fun i => (g i * T i j)%R) = 0%R.
Proof.
  intros FAM EX HR Lc HSz HT HA Hg j [Hj Nj]. apply rsum_zero. intros i Hi.
  destruct (nth_error (ic_adp c) (Z.to_nat i)) as [[|]|] eqn:E.
  - assert (U : uses c i) by (split; [lia|exact E]).
    assert (NR : forall x, free_var m (data st) x -> ~ reaches (data st) c x).
    { intros x Hx Hr. assert (X : act_bs iadd junk st (notOutDers st) c = true) by (apply (act_bs_spec iadd EX P n m FAM st junk c HR Lc); exists x; auto). congruence. }
    assert (Z0 : T i j = 0%R); [|rewrite Z0; lra].
    pose proof FAM as (_ & Hm & _).
    destruct (outputv_dec (data st) i) as [(d & Hd & Hdi)|O].
    + eapply (total_zero iadd P n m FAM st Fs T HR HSz HT j Hj Nj i d); [lia|exact Hd|exact Hdi|].
      intros X. apply (NR j); [split; auto|]. right. exists i, d. auto.
    + exfalso. apply (NR i); [split; [lia|exact O]|]. left. exact U.
  - rewrite Hg; [lra|lia|]. intros [_ X]. congruence.
  - rewrite Hg; [lra|lia|]. intros [_ X]. congruence.
Qed.
