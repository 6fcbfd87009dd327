(** Concrete right hand sides that vary with time, on clocks (an integer and a residue
    modulo 10). *)
From Coq Require Import ZArith List Bool Reals Lia.
From Verif Require Import EcsModel EcsSpec EcsRhsModel EcsRhsSpec EcsRhsExamples ImplModel ImplSpec HierModel HierSpec HierExamples
  BySubModel BySubSpec BySubExamples TimeModel TimeSpec.
Import ListNotations.
Local Open Scope nat_scope.

Definition g1 (t : Z) : list Z := [t; (t * t) mod 10]%Z.
Definition g2 (t : Z) : list Z := [2 * t; 7]%Z.

(** a constraint with types Equality, Equality given a function, then types Equality,
    EqualToZero *)
Definition f1 : tfun Z := mktfun 1 1 5 g1.
Definition late_ops : list (top Z) := [SetFun (Some f1); SetType [Equality; EqualToZero]].
Definition late : tcon nat Z := fold_left tstep late_ops (new_con (impl_new 1 2 [Equality; Equality] [true; true]) 5 [0; 0]%Z).
Definition late_ic : ic nat Z := mkic (tc_i late) (clk 2 0 Equality EqualToZero) [true; true; true; true].
Definition late_hs : hs nat Z := match build Nat.eqb hs_init [(late_ic, 0)] with Some s => s | None => hs_init end.
Lemma late_wf : wf_ic 0%Z clk_mem clk_ok late_ic.
Proof. change late_ic with (cic 1 2 0 Equality EqualToZero true true). apply cic_wf. Qed.
Lemma late_hreach : hreach Nat.eqb 0%Z clk_mem clk_ok late_hs [(late_ic, 0)].
Proof.
  apply (build_reach Nat.eqb 0%Z clk_mem clk_ok [(late_ic, 0)] hs_init [] late_hs); [constructor| |reflexivity].
  intros c p [H|[]]; injection H as <- <-; apply late_wf.
Qed.

Lemma bhow_distinct : distinct_functions Nat.eqb bhow.
Proof.
  rewrite bhow_eq. intros i j a b N Hi Hj.
  destruct i as [|[|[|[|i]]]]; cbn in Hi; [| | | |destruct i; discriminate]; injection Hi as <-;
    (destruct j as [|[|[|[|j]]]]; cbn in Hj; [| | | |destruct j; discriminate]; injection Hj as <-; first [reflexivity | contradiction (N eq_refl)]).
Qed.
