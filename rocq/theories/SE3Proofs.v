(** Rigid displacements: group laws and velocities of products. *)
From Coq Require Import Reals Lra List.
From Verif Require Import Geo GeoLemmas Rigid GTJac.
Import ListNotations.
Local Open Scope R_scope.

Lemma compA A B C : comp (comp A B) C = comp A (comp B C).
Proof.
  unfold comp, act. cbn [rot tra]. rewrite mulA, mulvA, mulv_add. f_equal. now rewrite <- vadd_A.
Qed.
Lemma comp_sid_l A : comp sid A = A.
Proof. destruct A as [m v]. unfold comp, act, sid. cbn [rot tra]. now rewrite mul1m, mul1v, vadd_0. Qed.
Lemma comp_sid_r A : comp A sid = A.
Proof. destruct A as [m v]. unfold comp, act, sid. cbn [rot tra]. now rewrite mulm1, mulv_0, vadd_0l. Qed.
Lemma sinv_l A : rotation (rot A) -> comp (sinv A) A = sid.
Proof.
  intros R. unfold comp, act, sinv, sid. cbn [rot tra]. rewrite (rotation_mtr_l _ R). f_equal.
  generalize (mulv (mtr (rot A)) (tra A)). geo.
Qed.
Lemma sinv_r A : rotation (rot A) -> comp A (sinv A) = sid.
Proof.
  intros R. unfold comp, act, sinv, sid. cbn [rot tra]. f_equal; [apply R|].
  rewrite mulv_opp, (rotation_inv_r _ _ R). generalize (tra A). geo.
Qed.
Lemma sinv_sid : sinv sid = sid.
Proof. unfold sinv, sid. cbn [rot tra]. rewrite mtr1, mul1v. f_equal. geo. Qed.
Lemma rot_comp A B : rotation (rot A) -> rotation (rot B) -> rotation (rot (comp A B)).
Proof. cbn. apply rotation_mul. Qed.
Lemma rot_sinv A : rotation (rot A) -> rotation (rot (sinv A)).
Proof. cbn. apply rotation_mtr. Qed.
Lemma comp_cancel A B : rotation (rot A) -> comp (sinv A) (comp A B) = B.
Proof. intros R. now rewrite <- compA, sinv_l, comp_sid_l. Qed.
Lemma comp_cancel_r A B : rotation (rot A) -> comp A (comp (sinv A) B) = B.
Proof. intros R. now rewrite <- compA, sinv_r, comp_sid_l. Qed.
Lemma comp_inj A B C : rotation (rot A) -> comp A B = comp A C -> B = C.
Proof. intros R E. rewrite <- (comp_cancel A B R), E. now apply comp_cancel. Qed.
Lemma comp_inj_r A B C : rotation (rot A) -> comp B A = comp C A -> B = C.
Proof. intros R E. rewrite <- (comp_sid_r B), <- (sinv_r A R), <- compA, E, compA, sinv_r by exact R. apply comp_sid_r. Qed.
Lemma sinv_comp A B : rotation (rot A) -> rotation (rot B) -> sinv (comp A B) = comp (sinv B) (sinv A).
Proof.
  intros RA RB. apply (comp_inj (comp A B)); [now apply rot_comp|]. rewrite sinv_r by (now apply rot_comp).
  rewrite compA, <- (compA B), sinv_r, comp_sid_l, sinv_r; auto.
Qed.
Lemma sinvK A : rotation (rot A) -> sinv (sinv A) = A.
Proof. intros R. apply (comp_inj (sinv A)); [now apply rot_sinv|]. rewrite sinv_r by (now apply rot_sinv). now rewrite sinv_l. Qed.

(** velocity of a frame attached to a body *)
Definition adinv (B : se3) (a : twist) : twist := Tw (mulv (mtr (rot B)) (vadd (lin a) (vcross (ang a) (tra B)))) (mulv (mtr (rot B)) (ang a)).
Lemma moves_eq A t a b : a = b -> moves A t a -> moves A t b.
Proof. now intros ->. Qed.
Lemma moves_ext A B t a : (forall s, A s = B s) -> moves A t a -> moves B t a.
Proof.
  intros E [(D1 & D2 & D3) DT]. split; [rewrite <- E; split; [|split]|rewrite <- E].
  - eapply (vderiv_ext (fun s => ra (rot (A s)))); [intros s; now rewrite E|exact D1].
  - eapply (vderiv_ext (fun s => rb (rot (A s)))); [intros s; now rewrite E|exact D2].
  - eapply (vderiv_ext (fun s => rc (rot (A s)))); [intros s; now rewrite E|exact D3].
  - eapply (vderiv_ext (fun s => tra (A s))); [intros s; now rewrite E|exact DT].
Qed.
Lemma moves_comp A B t a b : rotation (rot (B t)) -> moves A t a -> moves B t b -> moves (fun s => comp (A s) (B s)) t (tadd (adinv (B t) a) b).
Proof.
  intros RB [DA1 DA2] [DB1 DB2]. split.
  - cbn [comp rot]. eapply mderiv_eq; [|exact (mderiv_mul _ _ t _ _ DA1 DB1)]. cbn [tadd adinv ang].
    assert (E : mul (mul (rot (A t)) (cross_matrix (ang a))) (rot (B t)) = mul (mul (rot (A t)) (rot (B t))) (cross_matrix (mulv (mtr (rot (B t))) (ang a)))).
    { rewrite !mulA. f_equal. now apply cross_rot. }
    rewrite E. generalize (mulv (mtr (rot (B t))) (ang a)) (ang b) (rot (A t)) (rot (B t)). geo.
  - cbn [comp tra rot act]. eapply vderiv_eq; [|exact (vderiv_add _ _ t _ _ (vderiv_mulv _ _ t _ _ DA1 DB2) DA2)]. cbn [tadd adinv lin].
    rewrite !mulvA, cross_matrixE, !mulv_add, !(rotation_inv_r _ _ RB).
    generalize (mulv (rot (A t)) (vcross (ang a) (tra (B t)))) (mulv (rot (A t)) (mulv (rot (B t)) (lin b))) (mulv (rot (A t)) (lin a)). geo.
Qed.
Lemma moves_const c t : moves (fun _ => c) t t0.
Proof.
  split.
  - eapply mderiv_eq; [|exact (mderiv_const (rot c) t)]. cbn [ang t0]. generalize (rot c). geo.
  - eapply vderiv_eq; [|exact (vderiv_const (tra c) t)]. cbn [lin t0]. symmetry. apply mulv_0.
Qed.
Lemma adinv_0 B : adinv B t0 = t0.
Proof. unfold adinv, t0. cbn [lin ang]. assert (E : vcross v0 (tra B) = v0) by (generalize (tra B); geo). now rewrite E, vadd_0, mulv_0. Qed.
Lemma tadd_0l a : tadd t0 a = a.
Proof. destruct a. unfold tadd, t0. cbn. now rewrite !vadd_0l. Qed.
Lemma tadd_0r a : tadd a t0 = a.
Proof. destruct a. unfold tadd, t0. cbn. now rewrite !vadd_0. Qed.
Lemma moves_left c B t b : rotation (rot (B t)) -> moves B t b -> moves (fun s => comp c (B s)) t b.
Proof. intros R D. eapply moves_eq; [|exact (moves_comp (fun _ => c) B t _ _ R (moves_const c t) D)]. now rewrite adinv_0, tadd_0l. Qed.
Lemma moves_right c A t a : rotation (rot c) -> moves A t a -> moves (fun s => comp (A s) c) t (adinv c a).
Proof. intros R D. eapply moves_eq; [|exact (moves_comp A (fun _ => c) t _ _ R D (moves_const c t))]. apply tadd_0r. Qed.
Definition topp (a : twist) : twist := Tw (vopp (lin a)) (vopp (ang a)).
Lemma moves_inv A t a : (forall s, rotation (rot (A s))) -> moves A t a -> moves (fun s => sinv (A s)) t (topp (adinv (sinv (A t)) a)).
Proof.
  intros R [D1 D2]. assert (RT := R t). split.
  - cbn [sinv rot]. eapply mderiv_eq; [|exact (mderiv_tr _ t _ D1)]. cbn [topp adinv ang sinv rot].
    rewrite mtr_mul, mtr_cross, mtrK.
    assert (E : mul (mopp (cross_matrix (ang a))) (mtr (rot (A t))) = mopp (mul (cross_matrix (ang a)) (mtr (rot (A t))))) by (generalize (mtr (rot (A t))) (ang a); geo).
    rewrite E, (cross_rot (mtr (rot (A t)))) by (now apply rotation_mtr). rewrite mtrK.
    generalize (mtr (rot (A t))) (mulv (rot (A t)) (ang a)). geo.
  - cbn [sinv tra rot].
    assert (DD := vderiv_mulv _ _ t _ _ (mderiv_tr _ t _ D1) D2). cbv beta in DD. rewrite mtr_mul, mtr_cross in DD.
    assert (DO := vderiv_scale (-1) _ t _ DD).
    apply (vderiv_ext (fun s => vscale (-1) (mulv (mtr (rot (A s))) (tra (A s))))); [intros s; generalize (mulv (mtr (rot (A s))) (tra (A s))); geo|].
    eapply vderiv_eq; [|exact DO]. cbn [topp adinv lin sinv rot tra ang]. rewrite mtrK.
    rewrite mulvA, mopp_v, cross_matrixE, (rotation_inv _ _ RT), mulv_opp, (rotation_inv _ _ RT).
    generalize (mulv (mtr (rot (A t))) (tra (A t))) (lin a) (ang a). geo.
Qed.
Lemma moves_unique A t a b : rotation (rot (A t)) -> moves A t a -> moves A t b -> a = b.
Proof.
  intros R [A1 A2] [B1 B2]. destruct a as [la wa], b as [lb wb]. cbn [lin ang] in *. f_equal.
  - assert (E := vderiv_unique _ _ _ _ A2 B2). apply (f_equal (mulv (mtr (rot (A t))))) in E. now rewrite !(rotation_inv _ _ R) in E.
  - assert (E : mul (rot (A t)) (cross_matrix wa) = mul (rot (A t)) (cross_matrix wb)).
    { destruct A1 as (x & y & z), B1 as (x' & y' & z'). apply m3_eq; eapply vderiv_unique; eassumption. }
    apply (f_equal (mul (mtr (rot (A t))))) in E. rewrite <- !mulA, !(rotation_mtr_l _ R), !mul1m in E.
    destruct wa, wb. unfold cross_matrix in E. cbn in E. injection E as. f_equal; lra.
Qed.
