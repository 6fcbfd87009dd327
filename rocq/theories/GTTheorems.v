From Coq Require Import Reals Lra Lia List Bool Arith ZArith.
From Verif Require Import Geo GeoLemmas Rigid RigidExamples SegModel ViewModel RotProofs LogModel LogSpec LogMain LogDeriv DistModel DistProofs GTModel GTSpec GTProofs GTJac GTMain GTDeriv.
Import ListNotations.
Local Open Scope R_scope.

Section V.
Variables (isId : m3 -> bool) (isZero : v3 -> bool) (quat : m3 -> list R).
Hypothesis isIdP : forall m, isId m = true -> m = m1.
Hypothesis isZeroP : forall v, isZero v = true -> v = v0.
Hypothesis quat4 : forall m, length (quat m) = 4%nat.
Variable o : opts.

Lemma gt_value mask l k : good_mask o mask -> let g := setup isId isZero o mask l in
  (forall j, g_j1 g = Some j -> rotation (rot (place k j))) ->
  value quat o g k = select (mask ++ if so3 o then [true] else []) (coords quat o (relpose g k)).
Proof. exact (value_E isId isZero quat isIdP isZeroP quat4 o mask l k). Qed.

Lemma v3l_deriv f t f' p : vderiv f t f' -> (p < 3)%nat -> deriv (fun s => nth p (v3l (f s)) 0) t (nth p (v3l f') 0).
Proof. intros (A & B & C) L. do 3 (destruct p as [|p]; [cbn; assumption|]). lia. Qed.

Lemma gt_jac mask l K t d cols junk old : good_mask o mask -> let g := setup isId isZero o mask l in
  rotation (rot (F1 g)) -> rotation (rot (F2 g)) -> joint_moves (g_j1 g) K t d -> joint_moves (g_j2 g) K t d ->
  g_j1 g <> None \/ g_j2 g <> None -> (forall j, g_j1 g = Some j \/ g_j2 g = Some j -> length (jjac (K t) j) = cols) ->
  (6 <= length junk)%nat -> Forall (fun c => length c = count mask) old -> (cols <= length old)%nat ->
  exists J, jacobian o g (K t) cols junk old = Some J /\ length J = length old /\ Forall (fun c => length c = count mask) J /\
    (forall c, In c (skipn cols J) -> Forall (fun x => x = 0) c) /\
    (so3 o = false -> (orientation o = true -> log_ok (fst (logSO3 (rot (relpose g (K t)))))) ->
     forall i, (i < count mask)%nat -> deriv (fun s => nth i (value quat o g (K s)) 0) t (row_times J i d)) /\
    (so3 o = true ->
     (forall i, (i < count mask - 3)%nat -> deriv (fun s => nth i (value quat o g (K s)) 0) t (row_times J i d)) /\
     (forall s, skipn (count mask - 3) (value quat o g (K s)) = quat (rot (relpose g (K s)))) /\
     let w i := row_times J (count mask - 3 + i) d in
     mderiv (fun s => rot (relpose g (K s))) t (mul (rot (relpose g (K t))) (cross_matrix (V3 (w 0%nat) (w 1%nat) (w 2%nat))))).
Proof.
  intros G g Rf Rg H1 H2 N L HJ O C.
  assert (I := setup_inv isId isZero isIdP isZeroP o mask l). fold g in I.
  destruct (gt_rates isId isZero isIdP isZeroP o mask l K t d cols G Rf Rg H1 H2) as (D1 & D2 & D3). fold g in D1, D2, D3.
  assert (RK : forall s j, g_j1 g = Some j -> rotation (rot (place (K s) j))).
  { intros s j E. rewrite E in H1. apply H1. }
  assert (VE : forall s, value quat o g (K s) = select (mask ++ if so3 o then [true] else []) (coords quat o (relpose g (K s)))).
  { intros s. apply gt_value; [exact G|apply RK]. }
  assert (J0 := fun i => row_E o mask g (K t) I N cols junk old i d G L HJ O C).
  assert (CM : (0 < count mask)%nat \/ count mask = 0%nat) by lia.
  assert (JX : exists J, jacobian o g (K t) cols junk old = Some J /\ length J = length old /\ Forall (fun c => length c = count mask) J /\ (forall c, In c (skipn cols J) -> Forall (fun x => x = 0) c)).
  { destruct (pairs_E g (K t) N cols L) as (Lc & Fc & Mc & L1 & L2). unfold jacobian. set (cs := combine _ _) in *.
    rewrite (columns_E o mask g (K t) I cs) by (try assumption; lia).
    assert (DL : forall p w, length (dfull o p w) = length mask).
    { intros p w. destruct G as (GL & _). unfold dfull. rewrite GL. destruct (position o), (orientation o); reflexivity. }
    eexists. split; [reflexivity|]. split; [|split].
    - rewrite app_length, !map_length, skipn_length. lia.
    - apply Forall_app. split.
      + apply Forall_forall. intros c H. apply in_map_iff in H. destruct H as (x & <- & _). apply select_length, DL.
      + apply Forall_forall. intros c H. apply in_map_iff in H. destruct H as (x & <- & H). rewrite map_length.
        rewrite Forall_forall in O. apply O. rewrite <- (firstn_skipn (length cs)). apply in_or_app. now right.
    - intros c H. rewrite skipn_app, map_length, Lc, Nat.sub_diag, skipn_all2 in H by (rewrite map_length; lia). cbn [app skipn] in H.
      apply in_map_iff in H. destruct H as (x & <- & _). apply Forall_forall. intros y Y. apply in_map_iff in Y. now destruct Y as (z & <- & _). }
  destruct JX as (J & EJ & LJ & FJ & ZJ). exists J. do 4 (split; [assumption|]).
  assert (RT : forall i, (i < count mask)%nat -> row_times J i d = nth (nth i (select mask (seq 0 (length mask))) 0%nat)
      (dfull o (jt g (K t) (japp (jcols (g_j1 g) (K t) cols) d) (japp (jcols (g_j2 g) (K t) cols) d))
               (jo o g (K t) (japp (jcols (g_j1 g) (K t) cols) d) (japp (jcols (g_j2 g) (K t) cols) d))) 0).
  { intros i Hi. destruct (J0 i Hi) as (J' & EJ' & _ & _ & _ & R). rewrite EJ in EJ'. now injection EJ' as <-. }
  clear J0. set (p' := jt g (K t) _ _) in *. set (w' := jo o g (K t) _ _) in *. clearbody p' w'.
  assert (GG := G). destruct GG as (GL & GE & GS).
  split.
  - intros S LK i Hi. specialize (D2 S). rewrite (RT i Hi). rewrite S in VE.
    assert (Pl : (nth i (select mask (seq 0 (length mask))) 0 < length mask)%nat) by now apply pick_lt.
    eapply (deriv_ext (fun s => nth (nth i (select mask (seq 0 (length mask))) 0%nat) (coords quat o (relpose g (K s))) 0)).
    { intros s. rewrite VE, app_nil_r. symmetry. apply nth_select; [|reflexivity|exact Hi].
      change (coords quat o) with (full quat o). rewrite (full_length quat quat4 o mask _ G), S, app_nil_r. reflexivity. }
    set (p := nth i _ 0%nat) in *. rewrite GL in Pl. clearbody p. unfold coords, dfull. rewrite S.
    destruct (position o) eqn:EP, (orientation o) eqn:EO; cbn [Nat.add] in Pl.
    + specialize (D2 (LK eq_refl)). do 3 (destruct p as [|p]; [cbn; apply D1|]). change (deriv (fun s => nth p (v3l (snd (logSO3 (rot (relpose g (K s)))))) 0) t (nth p (v3l w') 0)). apply (v3l_deriv _ _ _ _ D2). lia.
    + do 3 (destruct p as [|p]; [cbn; apply D1|]). lia.
    + apply (v3l_deriv _ _ _ _ (D2 (LK eq_refl))). lia.
    + lia.
  - intros S. specialize (D3 S). destruct (GS S) as (EO & EM). rewrite S in VE.
    assert (Q : forall m, exists a b c e, quat m = [a; b; c; e]).
    { intros m. specialize (quat4 m). destruct (quat m) as [|a [|b [|c [|e [|]]]]]; try discriminate. eauto 10. }
    unfold coords, dfull in *. rewrite EO, S in *.
    destruct (position o) eqn:EP; cbn [Nat.add app] in *.
    + destruct mask as [|m1 [|m2 [|m3 rest]]]; try discriminate GL. cbn [skipn] in EM. subst rest.
      clear I G GS H1 H2 N L O FJ EJ.
      split; [|split].
      * intros i Hi. rewrite (RT i) by (unfold count in *; lia).
        apply (deriv_ext (fun s => nth i (select [m1; m2; m3] (v3l (tra (relpose g (K s))))) 0)).
        { intros s. rewrite VE. destruct (Q (rot (relpose g (K s)))) as (q1 & q2 & q3 & q4 & ->).
          destruct m1, m2, m3; cbn in Hi; do 3 (destruct i as [|i]; [cbn; (reflexivity || lia)|]); lia. }
        destruct D1 as (Dx & Dy & Dz).
        destruct m1, m2, m3; cbn in Hi; do 3 (destruct i as [|i]; [cbn; (assumption || lia)|]); lia.
      * intros s. rewrite VE. destruct (Q (rot (relpose g (K s)))) as (q1 & q2 & q3 & q4 & ->). destruct m1, m2, m3; reflexivity.
      * cbv zeta. rewrite !RT by (destruct m1, m2, m3; cbn; lia).
        destruct m1, m2, m3; cbn; destruct w'; exact D3.
    + destruct mask as [|m1 [|m2 [|m3 [|]]]]; try discriminate GL. cbn [skipn] in EM. injection EM as -> -> ->.
      split; [|split].
      * cbn. lia.
      * intros s. rewrite VE. destruct (Q (rot (relpose g (K s)))) as (q1 & q2 & q3 & q4 & ->). reflexivity.
      * cbv zeta. rewrite !RT by (cbn; lia). cbn. destruct w'; exact D3.
Qed.

(** No joint: the code dereferences a null pointer. *)
Lemma gt_null mask k cols junk old : position o || orientation o = true -> (0 < cols)%nat -> (0 < length old)%nat -> jacobian o (create o mask) k cols junk old = None.
Proof.
  intros E C L. unfold jacobian, create. cbn [g_j1 g_j2 jcolumns]. destruct cols as [|cols]; [lia|]. destruct old as [|x old]; [cbn in L; lia|].
  cbn [repeat combine columns fst snd]. unfold jac_col. cbn [fullPos fullOri rowOri].
  unfold Jtranslation, Jorientation. cbn [g_j1]. destruct (position o), (orientation o); try discriminate; reflexivity.
Qed.
End V.
