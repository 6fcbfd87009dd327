(** Setters and reference of transformation functions. *)
From Coq Require Import Reals Lra List Bool Arith.
From Verif Require Import Geo GeoLemmas Rigid GTModel GTSpec SE3Proofs RTProofs.
Import ListNotations.
Local Open Scope R_scope.

Section S.
Variables (isId : m3 -> bool) (isZero : v3 -> bool) (o : opts).
Lemma fold_latest {A} (get : gt -> A) (w : setter -> option A) : (forall g s, get (set isId isZero o g s) = match w s with Some x => x | None => get g end) ->
  forall l g, latest w l (get g) (get (fold_left (set isId isZero o) l g)).
Proof.
  intros H. induction l as [|s l IH] using rev_ind; intros g; [right; split; [reflexivity|intros ? []]|].
  rewrite fold_left_app. cbn [fold_left]. rewrite H. destruct (w s) as [x|] eqn:W.
  - left. exists l, s, []. split; [reflexivity|]. split; [exact W|intros ? []].
  - destruct (IH g) as [(a & s' & b & -> & Ws & N)|[E N]].
    + left. exists a, s', (b ++ [s]). split; [now rewrite <- app_assoc|]. split; [exact Ws|]. intros u I. apply in_app_or in I as [I|[<-|[]]]; auto.
    + right. split; [exact E|]. intros u I. apply in_app_or in I as [I|[<-|[]]]; auto.
Qed.
Lemma setters mask l : let g := setup isId isZero o mask l in
  latest writes_F1 l sid (F1 g) /\ latest writes_F2 l sid (F2 g) /\ latest (writes_J1 o) l None (g_j1 g) /\ latest writes_J2 l None (g_j2 g).
Proof.
  unfold setup. split; [|split; [|split]].
  - apply (fold_latest F1 writes_F1). intros g []; reflexivity.
  - apply (fold_latest F2 writes_F2). intros g []; reflexivity.
  - apply (fold_latest g_j1 (writes_J1 o)). intros g []; cbn; try reflexivity. destruct j as [[|j]|]; reflexivity.
  - apply (fold_latest g_j2 writes_J2). intros g []; reflexivity.
Qed.
(** the rest position after reference(M) *)
Lemma reference_zero mask l M k : let g := setup isId isZero o mask (l ++ [SetRef M]) in
  rotation (rot M) -> rotation (rot (joint_place (g_j1 g) k)) ->
  (relpose g k = sid <-> comp (sinv (joint_place (g_j1 g) k)) (joint_place (g_j2 g) k) = M).
Proof.
  intros g RM RJ. unfold relpose. replace (F1 g) with M by (unfold g, setup; rewrite fold_left_app; reflexivity).
  replace (F2 g) with sid by (unfold g, setup; rewrite fold_left_app; reflexivity). rewrite comp_sid_r, sinv_comp, compA by assumption.
  generalize (comp (sinv (joint_place (g_j1 g) k)) (joint_place (g_j2 g) k)). intros X. split; intros E.
  - rewrite <- (comp_sid_l X), <- (sinv_r M) by exact RM. now rewrite compA, E, comp_sid_r.
  - rewrite E. now apply sinv_l.
Qed.
Lemma reference_get mask l M : reference (setup isId isZero o mask (l ++ [SetRef M])) = sinv M.
Proof. unfold reference, setup. rewrite fold_left_app. cbn [fold_left set F1 F2]. unfold actInv. cbn [sid rot tra]. unfold sinv. f_equal; [now rewrite mulm1|]. generalize (mtr (rot M)) (tra M). geo. Qed.
Lemma reference_wrong mask l : exists M, rotation (rot M) /\ reference (setup isId isZero o mask (l ++ [SetRef M])) <> M.
Proof.
  exists (SE3 m1 (V3 1 0 0)). split; [apply rotation_1|]. rewrite reference_get. intros E. apply (f_equal (fun M => vx (tra M))) in E. cbv [sinv rot tra mulv mtr m1 vopp vdot ra rb rc vx vy vz] in E. lra.
Qed.
End S.
