From Coq Require Import Reals Lra Lia List Bool Arith ZArith.
From Verif Require Import Geo GeoLemmas Rigid RigidExamples SegModel ViewModel RotProofs LogModel LogSpec LogDeriv DistModel DistProofs GTModel GTSpec GTProofs.
Import ListNotations.
Local Open Scope R_scope.

Lemma m3_ext a b : (forall v, mulv a v = mulv b v) -> a = b.
Proof.
  intros H. pose proof (H (V3 1 0 0)) as A. pose proof (H (V3 0 1 0)) as B. pose proof (H (V3 0 0 1)) as C. clear H.
  destruct a as [[] [] []], b as [[] [] []]. cvin A. cvin B. cvin C. injection A as a1 a2 a3. injection B as b1 b2 b3. injection C as c1 c2 c3.
  f_equal; f_equal; lra.
Qed.
Lemma rot_cross m v : rotation m -> mul m (cross_matrix v) = mul (cross_matrix (mulv m v)) m.
Proof. intros H. apply m3_ext. intros w. rewrite !mulvA, !cross_matrixE. now apply rotation_cross. Qed.
Lemma cross_rot m v : rotation m -> mul (cross_matrix v) m = mul m (cross_matrix (mulv (mtr m) v)).
Proof. intros H. rewrite rot_cross by exact H. now rewrite rotation_inv_r by exact H. Qed.

(** * Velocity of frame 2 seen from frame 1 *)
Definition rate_pos (A B F G : se3) (a b : twist) : v3 :=
  let x := mulv (rot B) (tra G) in let y := vsub (vadd x (tra B)) (tra A) in
  mulv (mtr (rot F)) (vsub (vsub (mulv (mtr (rot A)) (vadd (mulv (rot B) (lin b)) (vcross (mulv (rot B) (ang b)) x)))
                                 (mulv (mtr (rot A)) (vcross (mulv (rot A) (ang a)) y))) (lin a)).
Definition rate_ang (A B : se3) (a b : twist) : v3 := vsub (mulv (mul (mtr (rot A)) (rot B)) (ang b)) (ang a).

Lemma rel_deriv A B F G t a b : (forall s, rotation (rot (A s))) -> (forall s, rotation (rot (B s))) -> rotation (rot F) -> rotation (rot G) ->
  moves A t a -> moves B t b ->
  let P s := comp (sinv (comp (A s) F)) (comp (B s) G) in
  vderiv (fun s => tra (P s)) t (rate_pos (A t) (B t) F G a b) /\
  mderiv (fun s => rot (P s)) t (mul (cross_matrix (mulv (mtr (rot F)) (rate_ang (A t) (B t) a b))) (rot (P t))) /\
  mderiv (fun s => rot (P s)) t (mul (rot (P t)) (cross_matrix (mulv (mul (mtr (rot G)) (mtr (rot (B t)))) (mulv (rot (A t)) (rate_ang (A t) (B t) a b))))).
Proof.
  intros RA RB RF RG [DA1 DA2] [DB1 DB2] P.
  assert (PT : forall s, tra (P s) = mulv (mtr (rot F)) (vsub (mulv (mtr (rot (A s))) (vsub (vadd (mulv (rot (B s)) (tra G)) (tra (B s))) (tra (A s)))) (tra F))).
  { intros s. unfold P, comp, sinv, act. cbn [rot tra]. rewrite mtr_mul, !mulvA, !mulv_sub, !mulv_add, (rotation_inv _ _ (RA s)).
    generalize (mulv (mtr (rot F)) (tra F)) (mulv (mtr (rot F)) (mulv (mtr (rot (A s))) (tra (A s))))
      (mulv (mtr (rot F)) (mulv (mtr (rot (A s))) (mulv (rot (B s)) (tra G)))) (mulv (mtr (rot F)) (mulv (mtr (rot (A s))) (tra (B s)))). geo. }
  assert (PR : forall s, rot (P s) = mul (mtr (rot F)) (mul (mul (mtr (rot (A s))) (rot (B s))) (rot G))).
  { intros s. unfold P, comp, sinv. cbn [rot]. now rewrite mtr_mul, !mulA. }
  assert (DR : mderiv (fun s => rot (P s)) t (mul (mtr (rot F)) (mul (mul (cross_matrix (rate_ang (A t) (B t) a b)) (mul (mtr (rot (A t))) (rot (B t)))) (rot G)))).
  { assert (X : mderiv (fun s => mul (mtr (rot F)) (mul (mul (mtr (rot (A s))) (rot (B s))) (rot G))) t (mul (mtr (rot F)) (mul (mul (cross_matrix (rate_ang (A t) (B t) a b)) (mul (mtr (rot (A t))) (rot (B t)))) (rot G)))).
    { eapply mderiv_eq; [|exact (mderiv_mul (fun _ => mtr (rot F)) _ t _ _ (mderiv_const _ t) (mderiv_mul _ (fun _ => rot G) t _ _ (mderiv_mul _ _ t _ _ (mderiv_tr _ t _ DA1) DB1) (mderiv_const _ t)))].
      cbv beta. rewrite mtr_mul, mtr_cross.
      assert (Z : mul (mtr (rot (A t))) (mul (rot (B t)) (cross_matrix (ang b))) = mul (cross_matrix (mulv (mul (mtr (rot (A t))) (rot (B t))) (ang b))) (mul (mtr (rot (A t))) (rot (B t)))).
      { rewrite <- mulA. apply rot_cross. apply rotation_mul; [apply rotation_mtr|]; auto. }
      rewrite Z. unfold rate_ang. set (Q := mul (mtr (rot (A t))) (rot (B t))). set (u := mulv Q (ang b)).
      assert (Y : mul (mul (mopp (cross_matrix (ang a))) (mtr (rot (A t)))) (rot (B t)) = mul (mopp (cross_matrix (ang a))) Q) by (unfold Q; now rewrite mulA).
      rewrite Y. generalize (mtr (rot F)) (rot G) Q u (ang a). clear. geo. }
    destruct X as (X1 & X2 & X3). split; [|split].
    - eapply (vderiv_ext (fun s => ra (mul (mtr (rot F)) (mul (mul (mtr (rot (A s))) (rot (B s))) (rot G))))); [intros s; now rewrite PR|exact X1].
    - eapply (vderiv_ext (fun s => rb (mul (mtr (rot F)) (mul (mul (mtr (rot (A s))) (rot (B s))) (rot G))))); [intros s; now rewrite PR|exact X2].
    - eapply (vderiv_ext (fun s => rc (mul (mtr (rot F)) (mul (mul (mtr (rot (A s))) (rot (B s))) (rot G))))); [intros s; now rewrite PR|exact X3]. }
  split; [|split].
  - apply (vderiv_ext (fun s => mulv (mtr (rot F)) (vsub (mulv (mtr (rot (A s))) (vsub (vadd (mulv (rot (B s)) (tra G)) (tra (B s))) (tra (A s)))) (tra F)))); [intros s; now rewrite PT|].
    eapply vderiv_eq; [|exact (vderiv_mulv (fun _ => mtr (rot F)) _ t _ _ (mderiv_const _ t)
      (vderiv_sub _ (fun _ => tra F) t _ _ (vderiv_mulv _ _ t _ _ (mderiv_tr _ t _ DA1)
        (vderiv_sub _ _ t _ _ (vderiv_add _ _ t _ _ (vderiv_mulv _ (fun _ => tra G) t _ _ DB1 (vderiv_const _ t)) DB2) DA2)) (vderiv_const _ t)))].
    cbv beta. unfold rate_pos. rewrite mtr_mul, mtr_cross, !mulvA, mopp_v, cross_matrixE, mulv_0, vsub_0.
    set (y := vsub _ (tra (A t))).
    assert (E1 : mulv m0 (vsub (mulv (mtr (rot (A t))) y) (tra F)) = v0) by (clearbody y; generalize (vsub (mulv (mtr (rot (A t))) y) (tra F)); geo).
    rewrite E1, vadd_0l, vadd_0. f_equal.
    rewrite cross_matrixE, (rotation_cross (rot (B t))) by apply RB.
    assert (E2 : mulv (mtr (rot (A t))) (vcross (mulv (rot (A t)) (ang a)) y) = vcross (ang a) (mulv (mtr (rot (A t))) y)).
    { rewrite (rotation_cross (mtr (rot (A t)))) by (apply rotation_mtr, RA). now rewrite rotation_inv by apply RA. }
    rewrite E2, !mulv_sub, (rotation_inv (rot (A t))) by apply RA.
    rewrite !mulv_add. generalize (vcross (ang a) (mulv (mtr (rot (A t))) y)) (mulv (mtr (rot (A t))) (mulv (rot (B t)) (lin b))) (mulv (mtr (rot (A t))) (vcross (mulv (rot (B t)) (ang b)) (mulv (rot (B t)) (tra G)))) (lin a). geo.
  - eapply mderiv_eq; [|exact DR]. rewrite PR.
    rewrite !mulA. rewrite <- (mulA (mtr (rot F)) (cross_matrix _)). rewrite rot_cross by (now apply rotation_mtr). now rewrite !mulA.
  - eapply mderiv_eq; [|exact DR]. rewrite PR.
    set (w := rate_ang (A t) (B t) a b).
    assert (E : mulv (mul (mtr (rot G)) (mtr (rot (B t)))) (mulv (rot (A t)) w) = mulv (mtr (mul (mul (mtr (rot (A t))) (rot (B t))) (rot G))) w).
    { rewrite !mtr_mul, mtrK, <- !mulvA. f_equal. now rewrite !mulA. }
    rewrite E. rewrite !mulA. f_equal. rewrite <- !(mulA (mtr (rot (A t)))), <- !(mulA (mul (mtr (rot (A t))) (rot (B t)))).
    rewrite <- (cross_rot (mul (mul (mtr (rot (A t))) (rot (B t))) (rot G))); [|now repeat (apply rotation_mul || apply rotation_mtr || auto)].
    now rewrite !mulA.
Qed.
