From Coq Require Import Reals List Bool ZArith Lia Lra.
From Verif Require Import Geo GeoLemmas Rigid SegModel SegSpec SegProofs ViewModel ViewProofs EcsModel EcsJacModel EcsJacSpec EcsJacProofs EcsDerivProofs
  FunModel FunProofs ImplFunModel ImplFunProofs LogModel LogSpec LogDeriv LogSE3 LogProofs LogMain DistModel SE3Proofs GTModel VisModel VisSpec.
Import ListNotations.
Local Open Scope R_scope.

Lemma lsum_dotf (c : nat -> R) (d : Z -> R) l : forall o,
  lsum (map (fun p => c (fst p) * d (snd p)) (combine (seq o (length l)) l)) = dotf (fun k => c (o + k)%nat) (map d l).
Proof.
  induction l as [|x t IH]; intros o; cbn [length seq combine map lsum dotf fst snd]; [reflexivity|].
  rewrite IH, Nat.add_0_r. f_equal. revert IH. clear. intros _. revert o. 
  assert (E : forall (a b : nat -> R) v, (forall k, a k = b k) -> dotf a v = dotf b v).
  { intros a b v. revert a b. induction v as [|y v IH]; intros a b H; cbn; [reflexivity|]. rewrite H. f_equal. apply IH. intros k; apply H. }
  intros o. apply E. intros k. f_equal. lia.
Qed.
Lemma dotf_ext (a b : nat -> R) v : (forall k, a k = b k) -> dotf a v = dotf b v.
Proof. revert a b. induction v as [|y v IH]; intros a b H; cbn; [reflexivity|]. rewrite H. f_equal. apply IH. intros k; apply H. Qed.

Section J.
Variables (g : ifun R R) (fa : factor R R) (q : Z -> R) (J : mat R).
Hypothesis S : shaped g fa q J.
Let qo := map q (indices (if_out g)).
Let fq := if_f g (map q (indices (if_in g))).
Let F := if_J g (map q (indices (if_in g))).
Lemma jac_rows : (0 <= fa_v fa)%Z ->
  (nr (fa_out fa qo fq) = fa_v fa /\ nc (fa_out fa qo fq) = fa_v fa) ->
  (forall M, nr (fa_in fa qo fq M) = nr M /\ nc (fa_in fa qo fq M) = nc M) ->
  exists J', if_jacobian 0 g q J = Some J' /\
  forall i dq, (i < Z.to_nat (fa_v fa))%nat ->
    ksum 0 Rplus (Z.to_nat (if_nv g)) (fun j => at_ J' (Z.of_nat i) j * dq j) =
    dotf (fun k => at_ (fa_out fa qo fq) (Z.of_nat i) (Z.of_nat k)) (map dq (indices (if_outv g))) +
    dotf (fun k => at_ (fa_in fa qo fq (rows_of 0 (fa_v fa) F)) (Z.of_nat i) (Z.of_nat k)) (map dq (indices (if_inv g))).
Proof.
  intros Hv HO HI. destruct S as [SP Hr Hc Hnv II IO NI NO DJ CO Lq Lf F1 F2].
  assert (NNo : nonneg (if_outv g)) by (intros s Hs; apply IO in Hs; lia).
  assert (NNi : nonneg (if_inv g)) by (intros s Hs; apply II in Hs; lia).
  destruct (single_jacobian 0 g fa q J) as (J2 & E2 & _ & _ & A & B & C); auto.
  { intros i (X & Y). apply (DJ i). split; apply In_indices; assumption. }
  { rewrite (cardinal_indices _ NNo), CO. lia. }
  { now rewrite vread_indices, map_length. }
  { now rewrite vread_indices. }
  { now rewrite vread_indices. }
  { rewrite vread_indices, (cardinal_indices _ NNi). exact F2. }
  { now rewrite !vread_indices. }
  { intros M _ _. rewrite !vread_indices. apply HI. }
  exists J2. split; [exact E2|]. intros i dq Hi.
  rewrite !vread_indices in A, B. fold qo fq F in A, B.
  rewrite (rsum_support (indices (if_outv g) ++ indices (if_inv g))).
  - rewrite map_app, lsum_app. f_equal.
    + rewrite (map_indexed _ (fun p j => at_ (fa_out fa qo fq) (Z.of_nat i) (Z.of_nat p) * dq j) (indices (if_outv g)) 0).
      2:{ intros k j Hk. rewrite (A (Z.of_nat i) k j) by (auto; lia). reflexivity. }
      exact (lsum_dotf (fun p => at_ (fa_out fa qo fq) (Z.of_nat i) (Z.of_nat p)) dq _ 0).
    + rewrite (map_indexed _ (fun p j => at_ (fa_in fa qo fq (rows_of 0 (fa_v fa) F)) (Z.of_nat i) (Z.of_nat p) * dq j) (indices (if_inv g)) 0).
      2:{ intros k j Hk. rewrite (B (Z.of_nat i) k j) by (auto; lia). reflexivity. }
      exact (lsum_dotf (fun p => at_ (fa_in fa qo fq (rows_of 0 (fa_v fa) F)) (Z.of_nat i) (Z.of_nat p)) dq _ 0).
  - apply NoDup_app_intro; auto. intros x A1 B1. apply (DJ x). auto.
  - intros j Hj. apply in_app_or in Hj. rewrite Z2Nat.id by lia.
    destruct Hj as [Hj|Hj]; apply In_indices in Hj as (s & Hs & Hi'); [specialize (IO s Hs)|specialize (II s Hs)]; unfold in_seg in Hi'; lia.
  - intros j Hj Hn'. rewrite C; [lra|lia| |]; intros X; apply Hn', in_or_app; [right|left]; apply In_indices; exact X.
Qed.
End J.

(** linear maps of columns *)
Fixpoint sumtw (c : nat -> twist) (v : list R) : twist := match v with [] => t0 | x :: t => tadd (tscale x (c O)) (sumtw (fun k => c (S k)) t) end.
Lemma rate_sum (F : mat R) v o : vec6 (fun i => dotf (fun k => at_ F (Z.of_nat i) (Z.of_nat (o + k))) v) = sumtw (fun k => tw_col F (Z.of_nat (o + k))) v.
Proof.
  revert o. induction v as [|x v IH]; intros o; [reflexivity|].
  cbn [sumtw]. assert (E : sumtw (fun k => tw_col F (Z.of_nat (o + S k))) v = sumtw (fun k => tw_col F (Z.of_nat (S o + k))) v).
  { clear. assert (G : forall (a b : nat -> twist) v, (forall k, a k = b k) -> sumtw a v = sumtw b v).
    { intros a b w. revert a b. induction w as [|y w IH]; intros a b H; cbn; [reflexivity|]. rewrite H. f_equal. apply IH. intros k; apply H. }
    apply G. intros k. do 2 f_equal. lia. }
  rewrite E, <- IH. unfold vec6, tw_col, tadd, tscale, vadd, vscale; cbn [lin ang vx vy vz dotf].
  rewrite Nat.add_0_r.
  assert (D : forall i, dotf (fun k => at_ F i (Z.of_nat (o + S k))) v = dotf (fun k => at_ F i (Z.of_nat (S o + k))) v).
  { intros i. apply dotf_ext. intros k. f_equal. lia. }
  rewrite !D. f_equal; f_equal; cbn [Z.of_nat Pos.of_succ_nat Pos.succ]; ring.
Qed.
Lemma tw_at_add a b i : tw_at (tadd a b) i = tw_at a i + tw_at b i.
Proof. unfold tw_at, v3_at, tadd, vadd; cbn. repeat (destruct (_ =? _)%Z || destruct (_ <? _)%Z); reflexivity. Qed.
Lemma tw_at_scale s a i : tw_at (tscale s a) i = s * tw_at a i.
Proof. unfold tw_at, v3_at, tscale, vscale; cbn. repeat (destruct (_ =? _)%Z || destruct (_ <? _)%Z); reflexivity. Qed.
Lemma tw_at_0 i : tw_at t0 i = 0.
Proof. unfold tw_at, v3_at; cbn. repeat (destruct (_ =? _)%Z || destruct (_ <? _)%Z); reflexivity. Qed.
Lemma dotf_lin (L : twist -> twist) i c v : (forall a b, L (tadd a b) = tadd (L a) (L b)) -> (forall s a, L (tscale s a) = tscale s (L a)) -> L t0 = t0 ->
  dotf (fun k => tw_at (L (c k)) i) v = tw_at (L (sumtw c v)) i.
Proof.
  intros HA HS H0. revert c. induction v as [|x v IH]; intros c; cbn [dotf sumtw]; [now rewrite H0, tw_at_0|].
  rewrite HA, HS, tw_at_add, tw_at_scale, IH. ring.
Qed.
Lemma dotf_six m (l : list R) i : length l = 6%nat -> (i < 6)%nat ->
  dotf (fun k => m6_at m (Z.of_nat i) (Z.of_nat k)) l = tw_at (mul6 m (vec6 (fun k => nth k l 0))) (Z.of_nat i).
Proof.
  intros L I. destruct l as [|a [|b [|c [|d [|e [|f [|? ?]]]]]]]; try discriminate L.
  destruct m as [[[] [] []] [[] [] []] [[] [] []] [[] [] []]].
  do 6 (destruct i as [|i]; [cbv -[Rplus Rmult R0 R1 IZR]; ring|]). lia.
Qed.
Lemma dotf_three (l : list R) i : length l = 3%nat -> (i < 3)%nat ->
  dotf (fun k => if (Z.of_nat i =? Z.of_nat k)%Z then 1 else 0) l = nth i l 0.
Proof.
  intros L I. destruct l as [|a [|b [|c [|? ?]]]]; try discriminate L.
  do 3 (destruct i as [|i]; [cbv -[Rplus Rmult R0 R1 IZR]; ring|]). lia.
Qed.
Lemma twl_at T i : (i < 6)%nat -> nth i (twl T) 0 = tw_at T (Z.of_nat i).
Proof. intros I. do 6 (destruct i as [|i]; [reflexivity|]). lia. Qed.
Lemma twl_deriv (T : R -> twist) T' : vderiv (fun s => lin (T s)) 0 (lin T') -> vderiv (fun s => ang (T s)) 0 (ang T') ->
  forall i, (i < 6)%nat -> deriv (fun s => nth i (twl (T s)) 0) 0 (tw_at T' (Z.of_nat i)).
Proof.
  intros (A & B & C) (D & E & F) i I. do 6 (destruct i as [|i]; [assumption|]). lia.
Qed.

(** velocity of the relative placement *)
Definition in_twist (Mout Mf : se3) (c : twist) : twist :=
  let Rout := rot Mout in let Rf := rot Mf in
  Tw (vsub (mulv (mul (mul (mtr Rout) (cross_matrix (vsub (tra Mout) (tra Mf)))) Rf) (ang c)) (mulv (mul (mtr Rout) Rf) (lin c)))
     (mulv (mul (mopp (mtr Rout)) Rf) (ang c)).
Lemma in_twistE Mout Mf c : rotation (rot Mf) -> in_twist Mout Mf c = adinv Mout (topp (adinv (sinv Mf) c)).
Proof.
  intros Rf. unfold in_twist, adinv, topp; cbn [lin ang rot sinv tra]. rewrite mtrK. f_equal.
  - rewrite !mulvA, cross_matrixE, !mulv_add.
    assert (X : mulv (rot Mf) (vcross (ang c) (vopp (mulv (mtr (rot Mf)) (tra Mf)))) = vcross (mulv (rot Mf) (ang c)) (vopp (tra Mf))).
    { rewrite <- mulv_opp. rewrite (rotation_cross (rot Mf)) by exact Rf. now rewrite (rotation_inv_r _ _ Rf). }
    rewrite X, <- mulv_sub, <- mulv_add. apply (f_equal (mulv (mtr (rot Mout)))).
    generalize (mulv (rot Mf) (ang c)) (mulv (rot Mf) (lin c)) (tra Mout) (tra Mf). geo.
  - rewrite !mulvA, mopp_v, mulv_opp. reflexivity.
Qed.
Lemma rel_moves Mout Mf Tout Tf : (forall s, rotation (rot (Mout s))) -> (forall s, rotation (rot (Mf s))) ->
  moves Mout 0 Tout -> moves Mf 0 Tf ->
  moves (fun s => comp (sinv (Mf s)) (Mout s)) 0 (tadd (in_twist (Mout 0) (Mf 0) Tf) Tout).
Proof.
  intros Ro Rf Do Df. eapply moves_eq; [|exact (moves_comp _ _ 0 _ _ (Ro 0) (moves_inv Mf 0 Tf Rf Df) Do)].
  now rewrite in_twistE.
Qed.
Lemma mul6_add m a b : mul6 m (tadd a b) = tadd (mul6 m a) (mul6 m b).
Proof. unfold mul6, tadd; cbn [lin ang]. destruct m as [a1 a2 a3 a4], a as [la aa], b as [lb ab]; cbn [lin ang tl tr_ bl br]. f_equal; geo. Qed.
Lemma mul6_scale m s a : mul6 m (tscale s a) = tscale s (mul6 m a).
Proof. unfold mul6, tscale; cbn [lin ang]. destruct m as [a1 a2 a3 a4], a as [la aa]; cbn [lin ang tl tr_ bl br]. f_equal; geo. Qed.
Lemma mul6_0 m : mul6 m t0 = t0.
Proof. unfold mul6, t0; cbn [lin ang]. rewrite !mulv_0. f_equal; apply vadd_0. Qed.
Lemma in_twist_add A B a b : in_twist A B (tadd a b) = tadd (in_twist A B a) (in_twist A B b).
Proof. unfold in_twist, tadd; cbn [lin ang]. rewrite !mulv_add. f_equal.
  generalize (mulv (mul (mul (mtr (rot A)) (cross_matrix (vsub (tra A) (tra B)))) (rot B)) (ang a)) (mulv (mul (mul (mtr (rot A)) (cross_matrix (vsub (tra A) (tra B)))) (rot B)) (ang b)) (mulv (mul (mtr (rot A)) (rot B)) (lin a)) (mulv (mul (mtr (rot A)) (rot B)) (lin b)). geo. Qed.
Lemma in_twist_scale A B s a : in_twist A B (tscale s a) = tscale s (in_twist A B a).
Proof. unfold in_twist, tscale; cbn [lin ang]. rewrite !mulv_scale. f_equal.
  generalize (mulv (mul (mul (mtr (rot A)) (cross_matrix (vsub (tra A) (tra B)))) (rot B)) (ang a)) (mulv (mul (mtr (rot A)) (rot B)) (lin a)). geo. Qed.
Lemma in_twist_0 A B : in_twist A B t0 = t0.
Proof. unfold in_twist, t0; cbn [lin ang]. rewrite !mulv_0. f_equal. geo. Qed.

Lemma rate_vec6 (F : mat R) v : vec6 (rate F v) = sumtw (fun k => tw_col F (Z.of_nat k)) v.
Proof. exact (rate_sum F v 0). Qed.
Lemma tw_col_rows (F : mat R) j : tw_col (rows_of 0 6 F) j = tw_col F j.
Proof. reflexivity. Qed.

Section Main.
Variables (g : ifun R R) (q : R -> Z -> R) (dq : Z -> R) (J : mat R).
Let out s := map (q s) (indices (if_out g)).
Let val s := if_f g (map (q s) (indices (if_in g))).
Let F := if_J g (map (q 0) (indices (if_in g))).
Let Vout := pick dq (if_outv g).
Let Vin := rate F (map dq (indices (if_inv g))).

Lemma se3_jacobian : shaped g fac_se3 (q 0) J -> if_sub g = sub_se3 ->
  (forall s, rotation (rot (se3_of (out s)))) -> (forall s, rotation (rot (se3_of (val s)))) ->
  moves (fun s => se3_of (out s)) 0 (vec6 Vout) -> moves (fun s => se3_of (val s)) 0 (vec6 Vin) ->
  let th := fst (logSO3 (rot (comp (sinv (se3_of (val 0))) (se3_of (out 0))))) in
  / 1000000 < th < PI /\ th <> / 100 \/ th = 0 ->
  exists J', if_jacobian 0 g (q 0) J = Some J' /\ jacobian_is_derivative g 6 q dq J'.
Proof.
  intros Sh Sub Ro Rf Mo Mf th Hth.
  destruct (jac_rows g fac_se3 (q 0) J Sh) as (J' & EJ & ER); [cbn; lia|split; reflexivity|intros M; split; reflexivity|].
  exists J'. split; [exact EJ|]. intros i Hi. rewrite ER by exact Hi. clear ER.
  cbn [fa_out fa_in fa_v fac_se3 se3_out se3_in at_].
  fold (out 0). fold (val 0). fold F.
  rewrite (dotf_six _ _ i) by (rewrite ?map_length; try exact (sh_card _ _ _ _ Sh); exact Hi).
  set (Jl := JlogSE3 (comp (sinv (se3_of (val 0))) (se3_of (out 0)))).
  change (dotf _ (map dq (indices (if_inv g)))) with
    (dotf (fun k => tw_at ((fun c => mul6 Jl (in_twist (se3_of (out 0)) (se3_of (val 0)) c)) (tw_col F (Z.of_nat k))) (Z.of_nat i)) (map dq (indices (if_inv g)))).
  rewrite (dotf_lin (fun c => mul6 Jl (in_twist (se3_of (out 0)) (se3_of (val 0)) c)) (Z.of_nat i) (fun k => tw_col F (Z.of_nat k))).
  2:{ intros a b. now rewrite in_twist_add, mul6_add. } 2:{ intros s a. now rewrite in_twist_scale, mul6_scale. } 2:{ now rewrite in_twist_0, mul6_0. }
  rewrite <- rate_vec6. fold Vin. change (fun k => nth k (map dq (indices (if_outv g))) 0) with Vout.
  rewrite <- tw_at_add, <- mul6_add.
  assert (DM := rel_moves _ _ _ _ Ro Rf Mo Mf). cbv beta in DM.
  destruct (logSE3_deriv _ 0 _ (fun s => rot_comp _ _ (rot_sinv _ (Rf s)) (Ro s)) DM Hth) as [D1 D2].
  assert (E : tadd (vec6 Vout) (in_twist (se3_of (out 0)) (se3_of (val 0)) (vec6 Vin)) = tadd (in_twist (se3_of (out 0)) (se3_of (val 0)) (vec6 Vin)) (vec6 Vout)).
  { unfold tadd. f_equal; apply vadd_C. }
  rewrite E. apply (deriv_ext (fun s => nth i (twl (logSE3 (comp (sinv (se3_of (val s))) (se3_of (out s))))) 0)).
  - intros s. unfold if_value. rewrite Sub, !vread_indices. reflexivity.
  - exact (twl_deriv _ _ D1 D2 i Hi).
Qed.

Lemma rel_turns Ro Rf wo wf : (forall s, rotation (Ro s)) -> (forall s, rotation (Rf s)) ->
  turns Ro 0 wo -> turns Rf 0 wf ->
  turns (fun s => mul (mtr (Rf s)) (Ro s)) 0 (vadd (mulv (mul (mopp (mtr (Ro 0))) (Rf 0)) wf) wo).
Proof.
  intros HO HF DO DF.
  assert (K : forall A w, turns A 0 w -> moves (fun s => SE3 (A s) v0) 0 (Tw v0 w)).
  { intros A w D. split; [exact D|]. cbn [tra lin rot]. eapply vderiv_eq; [|apply vderiv_const]. now rewrite mulv_0. }
  destruct (rel_moves (fun s => SE3 (Ro s) v0) (fun s => SE3 (Rf s) v0) _ _ HO HF (K _ _ DO) (K _ _ DF)) as [D _]. exact D.
Qed.

Lemma r3so3_jacobian : shaped g fac_r3so3 (q 0) J -> if_sub g = sub_r3so3 ->
  (forall s, rotation (rot (se3_of (out s)))) -> (forall s, rotation (rot (se3_of (val s)))) ->
  moves_r3so3 (fun s => se3_of (out s)) 0 (vec6 Vout) -> moves_r3so3 (fun s => se3_of (val s)) 0 (vec6 Vin) ->
  let th := fst (logSO3 (mul (mtr (rot (se3_of (val 0)))) (rot (se3_of (out 0))))) in
  / 1000000 < th < PI \/ th = 0 ->
  exists J', if_jacobian 0 g (q 0) J = Some J' /\ jacobian_is_derivative g 6 q dq J'.
Proof.
  intros Sh Sub Ro Rf [Mo Lo] [Mf Lf] th Hth.
  destruct (jac_rows g fac_r3so3 (q 0) J Sh) as (J' & EJ & ER); [cbn; lia|split; reflexivity|intros M; split; reflexivity|].
  exists J'. split; [exact EJ|]. intros i Hi. rewrite ER by exact Hi. clear ER.
  cbn [fa_out fa_in fa_v fac_r3so3 r3so3_out r3so3_in at_].
  fold (out 0). fold (val 0). fold F.
  rewrite (dotf_six _ _ i) by (rewrite ?map_length; try exact (sh_card _ _ _ _ Sh); exact Hi).
  set (Ro0 := rot (se3_of (out 0))). set (Rf0 := rot (se3_of (val 0))).
  set (L := fun c : twist => Tw (vopp (lin c)) (mulv (mul (mul (mopp (r3so3_jlog Ro0 Rf0)) (mtr Ro0)) Rf0) (ang c))).
  change (dotf _ (map dq (indices (if_inv g)))) with
    (dotf (fun k => tw_at (L (tw_col F (Z.of_nat k))) (Z.of_nat i)) (map dq (indices (if_inv g)))).
  rewrite (dotf_lin L (Z.of_nat i) (fun k => tw_col F (Z.of_nat k))).
  2:{ intros a b. unfold L, tadd; cbn [lin ang]. rewrite mulv_add. f_equal. geo. }
  2:{ intros s a. unfold L, tscale; cbn [lin ang]. rewrite mulv_scale. f_equal. geo. }
  2:{ unfold L, t0; cbn [lin ang]. rewrite mulv_0. f_equal. geo. }
  rewrite <- rate_vec6. fold Vin. change (fun k => nth k (map dq (indices (if_outv g))) 0) with Vout.
  rewrite <- tw_at_add.
  assert (DM := rel_turns _ _ _ _ Ro Rf Mo Mf). cbv beta in DM.
  assert (D := log_deriv_body _ 0 _ (fun s => rotation_mul _ _ (rotation_mtr _ (Rf s)) (Ro s)) DM Hth). cbv beta in D.
  apply (deriv_ext (fun s => nth i (twl (Tw (vsub (tra (se3_of (out s))) (tra (se3_of (val s)))) (snd (logSO3 (mul (mtr (rot (se3_of (val s)))) (rot (se3_of (out s)))))))) 0)).
  { intros s. unfold if_value. rewrite Sub, !vread_indices. reflexivity. }
  refine (twl_deriv _ _ _ _ i Hi); cbn [lin ang].
  - eapply vderiv_eq; [|exact (vderiv_sub _ _ _ _ _ Lo Lf)].
    unfold L, mul6, tadd; cbn [lin ang tl tr_ bl br]. rewrite mul1v.
    generalize (lin (vec6 Vout)) (lin (vec6 Vin)) (ang (vec6 Vout)). geo.
  - eapply vderiv_eq; [|exact D].
    unfold L, mul6, tadd; cbn [lin ang tl tr_ bl br]. fold Ro0 Rf0.
    unfold r3so3_jlog. destruct (logSO3 (mul (mtr Rf0) Ro0)) as [a b]; cbn [fst snd].
    rewrite mulv_add, !mulvA, !mopp_v, !mulv_opp.
    generalize (mulv (JlogSO3 a b) (ang (vec6 Vout))) (mulv (JlogSO3 a b) (mulv (mtr Ro0) (mulv Rf0 (ang (vec6 Vin))))) (lin (vec6 Vout)). geo.
Qed.

Lemma angle_m1 : angle m1 = 0.
Proof.
  unfold angle. assert (T : trace m1 = 3) by (unfold trace; cbn; ring). rewrite T.
  destruct (Rlt_dec 3 3) as [?|_]; [lra|]. destruct (Rlt_dec 3 (-1)) as [?|_]; [lra|].
  replace ((3 - 1) / 2) with 1 by field. apply acos_1.
Qed.
Lemma so3_rows : shaped g fac_so3 (q 0) J ->
  exists J', if_jacobian 0 g (q 0) J = Some J' /\
  forall i, (i < 3)%nat -> ksum 0 Rplus (Z.to_nat (if_nv g)) (fun j => at_ J' (Z.of_nat i) j * dq j) = Vout i - Vin i.
Proof.
  intros Sh.
  destruct (jac_rows g fac_so3 (q 0) J Sh) as (J' & EJ & ER); [cbn; lia|split; reflexivity|intros M; split; reflexivity|].
  exists J'. split; [exact EJ|]. intros i Hi. rewrite ER by exact Hi.
  cbn [fa_out fa_in fa_v fac_so3 at_]. fold F.
  rewrite (dotf_three _ i) by (rewrite ?map_length; try exact (sh_card _ _ _ _ Sh); exact Hi).
  unfold Vout, pick, Rminus. f_equal. unfold Vin, rate. clear.
  assert (G : forall (c : nat -> R) v, dotf (fun k => - c k) v = - dotf c v).
  { intros c v. revert c. induction v as [|x v IH]; intros c; cbn [dotf]; [lra|]. rewrite IH. ring. }
  rewrite <- G. reflexivity.
Qed.
Lemma v3l_deriv (w : R -> v3) w' : vderiv w 0 w' -> forall i, (i < 3)%nat -> deriv (fun s => nth i (v3l (w s)) 0) 0 (v3_at w' (Z.of_nat i)).
Proof. intros (A & B & C) i I. do 3 (destruct i as [|i]; [assumption|]). lia. Qed.
Lemma so3_value : if_sub g = sub_so3 ->
  (forall s, rotation (so3_of (out s))) -> (forall s, rotation (so3_of (val s))) ->
  turns (fun s => so3_of (out s)) 0 (vec3 Vout) -> turns (fun s => so3_of (val s)) 0 (vec3 Vin) ->
  let Rel := mul (mtr (so3_of (val 0))) (so3_of (out 0)) in let th := fst (logSO3 Rel) in
  / 1000000 < th < PI \/ th = 0 ->
  forall i, (i < 3)%nat -> deriv (fun s => nth i (if_value g (q s)) 0) 0
    (v3_at (mulv (JlogSO3 th (snd (logSO3 Rel))) (vsub (vec3 Vout) (mulv (mul (mtr (so3_of (out 0))) (so3_of (val 0))) (vec3 Vin)))) (Z.of_nat i)).
Proof.
  intros Sub Ro Rf Mo Mf Rel th Hth i Hi.
  assert (DM := rel_turns _ _ _ _ Ro Rf Mo Mf). cbv beta in DM.
  assert (D := log_deriv_body _ 0 _ (fun s => rotation_mul _ _ (rotation_mtr _ (Rf s)) (Ro s)) DM Hth). cbv beta in D.
  apply (deriv_ext (fun s => nth i (v3l (snd (logSO3 (mul (mtr (so3_of (val s))) (so3_of (out s)))))) 0)).
  { intros s. unfold if_value. rewrite Sub, !vread_indices. reflexivity. }
  refine (v3l_deriv _ _ _ i Hi). eapply vderiv_eq; [|exact D]. apply (f_equal (mulv _)).
  rewrite !mulvA, mopp_v. generalize (mulv (mtr (so3_of (out 0))) (mulv (so3_of (val 0)) (vec3 Vin))) (vec3 Vout). geo.
Qed.
Lemma so3_jacobian : shaped g fac_so3 (q 0) J -> if_sub g = sub_so3 ->
  (forall s, rotation (so3_of (out s))) -> (forall s, rotation (so3_of (val s))) ->
  turns (fun s => so3_of (out s)) 0 (vec3 Vout) -> turns (fun s => so3_of (val s)) 0 (vec3 Vin) ->
  so3_of (out 0) = so3_of (val 0) ->
  exists J', if_jacobian 0 g (q 0) J = Some J' /\ jacobian_is_derivative g 3 q dq J'.
Proof.
  intros Sh Sub Ro Rf Mo Mf E. destruct (so3_rows Sh) as (J' & EJ & ER).
  exists J'. split; [exact EJ|]. intros i Hi. rewrite ER by exact Hi.
  assert (RI : mul (mtr (so3_of (val 0))) (so3_of (out 0)) = m1) by (rewrite E; apply rotation_mtr_l, Rf).
  assert (RJ : mul (mtr (so3_of (out 0))) (so3_of (val 0)) = m1) by (rewrite E; apply rotation_mtr_l, Rf).
  assert (T0 : fst (logSO3 m1) = 0) by (rewrite log_fst; exact angle_m1).
  assert (D := so3_value Sub Ro Rf Mo Mf). cbv zeta in D. rewrite RI, RJ, T0 in D. specialize (D (or_intror eq_refl) i Hi).
  eapply deriv_eq; [|exact D]. unfold JlogSO3, jlog. destruct (Rlt_dec 0 (/ 1000000)) as [_|n]; [|lra]. rewrite !mul1v.
  do 3 (destruct i as [|i]; [reflexivity|]). lia.
Qed.
End Main.
