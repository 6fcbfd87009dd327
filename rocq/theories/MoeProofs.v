From Coq Require Import List Bool.
From Verif Require Import MoeModel.
Import ListNotations.
Section Moe.
Variables Q V S P : Type.
Variables (elem : Q -> V) (svd_of : V -> S) (pinv_of : S -> P).
Notation step := (step Q V S P elem svd_of pinv_of).
Notation run := (run Q V S P elem svd_of pinv_of).
Notation moe := (moe Q V S P).
Notation compute := (compute Q).
Definition good (q : Q) (m : moe) : Prop := conf _ _ _ _ m = q /\
  (vvalid _ _ _ _ m = true -> value _ _ _ _ m = elem q) /\ (svdvalid _ _ _ _ m = true -> svd _ _ _ _ m = svd_of (elem q)) /\
  (pivalid _ _ _ _ m = true -> pi_ _ _ _ _ m = Some (pinv_of (svd_of (elem q)))).
Lemma good_value q m : good q m -> good q (computeValue Q V S P elem m) /\ value _ _ _ _ (computeValue Q V S P elem m) = elem q.
Proof. unfold good, computeValue; intros (A & B & C & D); destruct (vvalid Q V S P m) eqn:E; cbn; rewrite ?E; subst; intuition. Qed.
Lemma good_svd q m : good q m -> good q (computeSVD Q V S P elem svd_of m) /\ svd _ _ _ _ (computeSVD Q V S P elem svd_of m) = svd_of (elem q).
Proof.
  intros G; pose proof (good_value q m G) as [(A & B & C & D) E]; unfold computeSVD.
  destruct (svdvalid Q V S P m) eqn:F; [split; [exact G|apply G; exact F]|].
  cbn; rewrite E; unfold good; cbn; intuition.
Qed.
Lemma good_pinv q m : good q m -> good q (computePinv Q V S P elem svd_of pinv_of m) /\
  pi_ _ _ _ _ (computePinv Q V S P elem svd_of pinv_of m) = Some (pinv_of (svd_of (elem q))).
Proof.
  intros G; pose proof (good_svd q _ (proj1 (good_value q m G))) as [(A & B & C & D) E]; unfold computePinv.
  destruct (pivalid Q V S P m) eqn:F; [split; [exact G|apply G; exact F]|].
  cbn; rewrite E; unfold good; cbn; rewrite ?E; intuition.
Qed.
Lemma good_run q l : Forall compute l -> forall m, good q m -> good q (run m l).
Proof.
  unfold run; induction 1 as [|o l H _ IH]; intros m G; cbn; [exact G|]; apply IH.
  destruct o; cbn in H; try contradiction; cbn; [apply good_value|apply good_svd|apply good_pinv]; exact G.
Qed.
Lemma up_to_date (m : moe) before q l : Forall compute l ->
  let m' := run m (before ++ [Move q; Invalidate] ++ l) in
  value _ _ _ _ (step m' ComputeValue) = elem q /\ svd _ _ _ _ (step m' ComputeSVD) = svd_of (elem q) /\
  pi_ _ _ _ _ (step m' ComputePinv) = Some (pinv_of (svd_of (elem q))).
Proof.
  intros H m'; assert (G : good q m').
  { unfold m', MoeModel.run; rewrite !fold_left_app; cbn; apply good_run; [exact H|]; unfold good; cbn; intuition discriminate. }
  cbn; split; [|split]; [apply good_value|apply good_svd|apply good_pinv]; exact G.
Qed.
(** the copy of a matrix whose pseudo-inverse was computed has none, and does not compute it *)
Lemma copy_empty (m : moe) q v l : Forall compute l ->
  pi_ _ _ _ _ (run m ([Move q; Invalidate; ComputePinv; CopyOf v] ++ l ++ [ComputePinv])) = None.
Proof.
  intros H; unfold MoeModel.run; rewrite fold_left_app.
  set (c := fold_left step [Move q; Invalidate; ComputePinv; CopyOf v] m).
  assert (G : pivalid _ _ _ _ c = true /\ pi_ _ _ _ _ c = None) by (split; reflexivity).
  assert (K : forall l, Forall compute l -> forall m : moe, pivalid _ _ _ _ m = true /\ pi_ _ _ _ _ m = None ->
    pivalid _ _ _ _ (fold_left step l m) = true /\ pi_ _ _ _ _ (fold_left step l m) = None).
  { clear; induction 1 as [|o l H _ IH]; intros m [A B]; cbn; [auto|]; apply IH.
    destruct o; cbn in H; try contradiction; cbn; unfold computePinv, computeSVD, computeValue; rewrite ?A;
      destruct (svdvalid Q V S P m), (vvalid Q V S P m); cbn; auto. }
  apply K; [|exact G]; apply Forall_app; split; [exact H|repeat constructor].
Qed.
End Moe.
