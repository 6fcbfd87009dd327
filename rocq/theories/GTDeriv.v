From Coq Require Import Reals Lra Lia List Bool Arith ZArith.
From Verif Require Import Geo GeoLemmas Rigid RigidExamples SegModel ViewModel RotProofs LogModel LogSpec LogMain LogDeriv DistModel DistProofs GTModel GTSpec GTProofs GTJac GTMain.
Import ListNotations.
Local Open Scope R_scope.

(** * Linearity *)
Lemma rate_pos_add A B F G a b a' b' : rate_pos A B F G (tadd a a') (tadd b b') = vadd (rate_pos A B F G a b) (rate_pos A B F G a' b').
Proof.
  unfold rate_pos. cbn [tadd lin ang]. rewrite <- mulv_add. f_equal. rewrite !mulv_add.
  assert (C : forall u v w, vcross (vadd u v) w = vadd (vcross u w) (vcross v w)) by geo. rewrite !C, !mulv_add.
  repeat match goal with |- context [mulv ?m ?v] => generalize (mulv m v); intro end. generalize (lin a) (lin a'). 
  intros. geo.
Qed.
Lemma rate_pos_scale A B F G s a b : rate_pos A B F G (tscale s a) (tscale s b) = vscale s (rate_pos A B F G a b).
Proof.
  unfold rate_pos. cbn [tscale lin ang].
  assert (MS : forall m v, mulv m (vscale s v) = vscale s (mulv m v)) by geo.
  rewrite <- (MS (mtr (rot F))). f_equal. rewrite !MS.
  assert (C : forall u w, vcross (vscale s u) w = vscale s (vcross u w)) by geo. rewrite !C, !MS, !mulv_add, !MS.
  repeat match goal with |- context [mulv ?m ?v] => generalize (mulv m v); intro end. generalize (lin a). intros. geo.
Qed.
Lemma rate_ang_add A B a b a' b' : rate_ang A B (tadd a a') (tadd b b') = vadd (rate_ang A B a b) (rate_ang A B a' b').
Proof. unfold rate_ang. cbn [tadd ang]. rewrite mulv_add. generalize (mulv (mul (mtr (rot A)) (rot B)) (ang b)) (mulv (mul (mtr (rot A)) (rot B)) (ang b')) (ang a) (ang a'). geo. Qed.
Lemma rate_ang_scale A B s a b : rate_ang A B (tscale s a) (tscale s b) = vscale s (rate_ang A B a b).
Proof. unfold rate_ang. cbn [tscale ang]. assert (MS : forall m v, mulv m (vscale s v) = vscale s (mulv m v)) by geo. rewrite MS. generalize (mulv (mul (mtr (rot A)) (rot B)) (ang b)) (ang a). geo. Qed.

Lemma jt_app f (Ha : forall a b a' b', f (tadd a a') (tadd b b') = vadd (f a b) (f a' b')) (Hs : forall s a b, f (tscale s a) (tscale s b) = vscale s (f a b)) (H0 : f t0 t0 = v0) :
  forall J1 J2 d, length J1 = length J2 -> vapp (map (fun c => f (fst c) (snd c)) (combine J1 J2)) d = f (japp J1 d) (japp J2 d).
Proof.
  induction J1 as [|a J1 IH]; intros [|b J2] d L; try discriminate L; cbn; [now rewrite H0|].
  destruct d as [|x d]; [now rewrite H0|]. cbn. rewrite IH by (cbn in L; lia). now rewrite Ha, Hs.
Qed.
Lemma vapp_coord J d : vapp J d = V3 (rapp (map vx J) d) (rapp (map vy J) d) (rapp (map vz J) d).
Proof. revert d. induction J as [|v J IH]; intros [|x d]; cbn; try reflexivity. rewrite IH. reflexivity. Qed.
Lemma rapp_ext {A} (f h : A -> R) l d : (forall x, In x l -> f x = h x) -> rapp (map f l) d = rapp (map h l) d.
Proof. revert d. induction l as [|a l IH]; intros [|x d] H; cbn; auto. rewrite H, IH; auto; [intros; apply H; now right|now left]. Qed.
Lemma rapp_zero J : Forall (fun x => x = 0) J -> forall d, rapp J d = 0.
Proof. induction 1 as [|x J E F IH]; intros [|y d]; cbn; auto. rewrite E, IH. ring. Qed.
Lemma rapp_app J J' d : rapp (J ++ J') d = rapp J d + rapp J' (skipn (length J) d).
Proof. revert d. induction J as [|x J IH]; intros [|y d]; cbn; try ring. - destruct J'; cbn; ring. - rewrite IH. ring. Qed.
Lemma japp_t0 n d : japp (repeat t0 n) d = t0.
Proof. revert d. induction n; intros [|x d]; cbn; auto. rewrite IHn. unfold tadd, tscale, t0. cbn. f_equal; geo. Qed.

(** * The whole Jacobian *)
Definition jcols (j : option nat) (k : kins) (cols : nat) : list twist := match j with Some j => jjac k j | None => repeat t0 cols end.
Section P.
Variables (o : opts) (mask : list bool) (g : gt) (k : kins).
Hypothesis I : inv o mask g.
Hypothesis N : g_j1 g <> None \/ g_j2 g <> None.
Lemma columns_E cs junk old : good_mask o mask -> (forall c, In c cs -> fits g (fst c) (snd c)) -> (6 <= length junk)%nat -> Forall (fun c => length c = count mask) old -> (length cs <= length old)%nat ->
  columns o g k cs junk old = Some (map (fun c => select mask (dfull o (jt g k (dflt (fst c)) (dflt (snd c))) (jo o g k (dflt (fst c)) (dflt (snd c))))) cs ++ map (map (fun _ => 0)) (skipn (length cs) old)).
Proof.
  intros G F J. revert old. induction cs as [|c cs IH]; intros old O L; [reflexivity|].
  destruct old as [|x old]; [cbn in L; lia|]. cbn [columns map length skipn app].
  rewrite (col_E o mask g k I _ _ junk x G (F c (or_introl eq_refl)) J (Forall_inv O)). cbn [bind].
  rewrite IH; [reflexivity| |now inversion O|cbn in L; lia]. intros; apply F. now right.
Qed.
Lemma pairs_E cols : (forall j, g_j1 g = Some j \/ g_j2 g = Some j -> length (jjac k j) = cols) ->
  let cs := combine (jcolumns k (g_j1 g) cols) (jcolumns k (g_j2 g) cols) in
  length cs = cols /\ (forall c, In c cs -> fits g (fst c) (snd c)) /\
  map (fun c => (dflt (fst c), dflt (snd c))) cs = combine (jcols (g_j1 g) k cols) (jcols (g_j2 g) k cols) /\
  length (jcols (g_j1 g) k cols) = cols /\ length (jcols (g_j2 g) k cols) = cols.
Proof.
  intros L cs.
  assert (A : forall j, j = g_j1 g \/ j = g_j2 g -> length (jcolumns k j cols) = cols /\ (forall c, In c (jcolumns k j cols) -> (j = None <-> c = None)) /\ map dflt (jcolumns k j cols) = jcols j k cols).
  { intros [j|] H; unfold jcolumns, jcols.
    - rewrite map_length, map_map. split; [|split]; [apply L; intuition congruence| |now apply map_id].
      intros c C. apply in_map_iff in C. destruct C as (x & <- & _). split; discriminate.
    - rewrite repeat_length. split; [|split]; [reflexivity| |]. + intros c C. apply repeat_spec in C. tauto. + clear. induction cols; cbn; congruence. }
  destruct (A (g_j1 g)) as (L1 & P1 & M1); [auto|]. destruct (A (g_j2 g)) as (L2 & P2 & M2); [auto|].
  split; [|split; [|split]].
  - unfold cs. rewrite combine_length. lia.
  - intros [c1 c2] H. split; [exact N|]. split; [apply P1|apply P2]; [eapply in_combine_l|eapply in_combine_r]; exact H.
  - rewrite <- M1, <- M2. unfold cs. clear. generalize (jcolumns k (g_j1 g) cols) (jcolumns k (g_j2 g) cols). induction l as [|a l IH]; intros [|b l']; cbn; auto. now rewrite IH.
  - rewrite <- M1, <- M2, !map_length. auto.
Qed.
(** product of row [i] of the Jacobian with a velocity *)
Lemma row_E cols junk old i d : good_mask o mask -> (forall j, g_j1 g = Some j \/ g_j2 g = Some j -> length (jjac k j) = cols) ->
  (6 <= length junk)%nat -> Forall (fun c => length c = count mask) old -> (cols <= length old)%nat -> (i < count mask)%nat ->
  exists J, jacobian o g k cols junk old = Some J /\ length J = length old /\ Forall (fun c => length c = count mask) J /\
    (forall c, In c (skipn cols J) -> Forall (fun x => x = 0) c) /\
    row_times J i d = nth (nth i (select mask (seq 0 (length mask))) 0%nat)
      (dfull o (jt g k (japp (jcols (g_j1 g) k cols) d) (japp (jcols (g_j2 g) k cols) d))
               (jo o g k (japp (jcols (g_j1 g) k cols) d) (japp (jcols (g_j2 g) k cols) d))) 0.
Proof.
  intros G L J O C Hi. destruct (pairs_E cols L) as (Lc & Fc & Mc & L1 & L2). unfold jacobian. set (cs := combine _ _) in *.
  rewrite (columns_E cs) by (try assumption; lia).
  assert (DL : forall p w, length (dfull o p w) = length mask).
  { intros p w. destruct G as (GL & _). unfold dfull. rewrite GL. destruct (position o), (orientation o); reflexivity. }
  eexists. split; [reflexivity|]. split; [|split; [|split]].
  - rewrite app_length, !map_length, skipn_length. lia.
  - apply Forall_app. split.
    + apply Forall_forall. intros c H. apply in_map_iff in H. destruct H as (x & <- & _). apply select_length, DL.
    + apply Forall_forall. intros c H. apply in_map_iff in H. destruct H as (x & <- & H). rewrite map_length.
      rewrite Forall_forall in O. apply O. rewrite <- (firstn_skipn (length cs)). apply in_or_app. now right.
  - intros c H. rewrite skipn_app, map_length, Lc, Nat.sub_diag, skipn_all2 in H by (rewrite map_length; lia). cbn [app skipn] in H.
    apply in_map_iff in H. destruct H as (x & <- & _). apply Forall_forall. intros y Y. apply in_map_iff in Y. now destruct Y as (z & <- & _).
  - unfold row_times. rewrite map_app, rapp_app.
    rewrite (rapp_zero (map _ (map (map _) _))).
    2: { apply Forall_forall. intros y Y. apply in_map_iff in Y. destruct Y as (c & <- & Y). apply in_map_iff in Y. destruct Y as (z & <- & _).
         exact (map_nth (fun _ : R => 0) z 0 i). }
    rewrite Rplus_0_r, map_map.
    set (p := nth i (select mask (seq 0 (length mask))) 0%nat).
    rewrite (rapp_ext _ (fun c => nth p (dfull o (jt g k (dflt (fst c)) (dflt (snd c))) (jo o g k (dflt (fst c)) (dflt (snd c)))) 0)).
    2: { intros x _. apply nth_select; auto. }
    rewrite <- (map_map (fun c => (dflt (fst c), dflt (snd c))) (fun c => nth p (dfull o (jt g k (fst c) (snd c)) (jo o g k (fst c) (snd c))) 0)), Mc.
    set (T1 := jcols (g_j1 g) k cols) in *. set (T2 := jcols (g_j2 g) k cols) in *.
    assert (LT : length T1 = length T2) by congruence.
    assert (A1 := jt_app (jt g k) (fun a b a' b' => rate_pos_add _ _ _ _ a b a' b') (fun s a b => rate_pos_scale _ _ _ _ s a b)).
    assert (Z1 : jt g k t0 t0 = v0).
    { replace t0 with (tscale 0 t0) by (unfold tscale, t0; cbn; f_equal; geo). unfold jt. rewrite rate_pos_scale. generalize (rate_pos (joint_place (g_j1 g) k) (joint_place (g_j2 g) k) (F1 g) (F2 g) t0 t0). geo. }
    specialize (A1 Z1 T1 T2 d LT).
    assert (MS : forall s m v, mulv m (vscale s v) = vscale s (mulv m v)) by geo.
    assert (A2 := jt_app (jo o g k)).
    specialize (A2 ltac:(intros; unfold jo; now rewrite rate_ang_add, mulv_add) ltac:(intros; unfold jo; now rewrite rate_ang_scale, MS)).
    assert (Z2 : jo o g k t0 t0 = v0).
    { replace t0 with (tscale 0 t0) by (unfold tscale, t0; cbn; f_equal; geo). unfold jo. rewrite rate_ang_scale, MS. generalize (mulv (Jlog_from1 o g k) (rate_ang (joint_place (g_j1 g) k) (joint_place (g_j2 g) k) t0 t0)). geo. }
    specialize (A2 Z2 T1 T2 d LT).
    rewrite <- A1, <- A2, !vapp_coord, !map_map.
    assert (Pl : (p < length mask)%nat) by (now apply pick_lt).
    destruct G as (GL & _). rewrite GL in Pl. clearbody p. unfold dfull.
    destruct (position o), (orientation o); cbn [app v3l vx vy vz Nat.add] in *; try lia; do 6 (destruct p as [|p]; [reflexivity|]; try lia); lia.
Qed.
End P.

(** * Values *)
Section V.
Variables (isId : m3 -> bool) (isZero : v3 -> bool) (quat : m3 -> list R).
Hypothesis isIdP : forall m, isId m = true -> m = m1.
Hypothesis isZeroP : forall v, isZero v = true -> v = v0.
Hypothesis quat4 : forall m, length (quat m) = 4%nat.
Variable o : opts.

Lemma value_E mask l k : good_mask o mask -> let g := setup isId isZero o mask l in
  (forall j, g_j1 g = Some j -> rotation (rot (place k j))) ->
  value quat o g k = select (mask ++ if so3 o then [true] else []) (full quat o (relpose g k)).
Proof.
  intros G g Rt. assert (I := setup_inv isId isZero isIdP isZeroP o mask l). fold g in I.
  unfold value. rewrite (i_mask _ _ _ I), (rawE quat o mask g k I G), (poseE o mask g k I Rt).
  apply read_mask_small.
  - now rewrite (full_length quat quat4 o mask).
  - rewrite app_length. destruct G as (-> & _). destruct (position o), (orientation o), (so3 o); cbn; lia.
Qed.

(** * Derivatives *)
Lemma joint_moves_E j K t d cols : joint_moves j K t d -> (forall n, j = Some n -> True) ->
  (forall s, rotation (rot (joint_place j (K s)))) /\ moves (fun s => joint_place j (K s)) t (japp (jcols j (K t) cols) d).
Proof.
  intros H _. destruct j as [j|]; cbn [joint_moves joint_place jcols] in *; [exact H|].
  split; [intros; split; cbv; try (f_equal; f_equal); lra|]. rewrite japp_t0. apply (still_moves sid t).
Qed.
Lemma rot1 : rotation m1.
Proof. split; cbv; try (f_equal; f_equal); lra. Qed.

Lemma gt_rates mask l K t d cols : good_mask o mask -> let g := setup isId isZero o mask l in
  rotation (rot (F1 g)) -> rotation (rot (F2 g)) -> joint_moves (g_j1 g) K t d -> joint_moves (g_j2 g) K t d ->
  let a := japp (jcols (g_j1 g) (K t) cols) d in let b := japp (jcols (g_j2 g) (K t) cols) d in
  vderiv (fun s => tra (relpose g (K s))) t (jt g (K t) a b) /\
  (so3 o = false -> log_ok (fst (logSO3 (rot (relpose g (K t))))) -> vderiv (fun s => snd (logSO3 (rot (relpose g (K s))))) t (jo o g (K t) a b)) /\
  (so3 o = true -> mderiv (fun s => rot (relpose g (K s))) t (mul (rot (relpose g (K t))) (cross_matrix (jo o g (K t) a b)))).
Proof.
  intros G g Rf Rg H1 H2 a b. assert (I := setup_inv isId isZero isIdP isZeroP o mask l). fold g in I.
  destruct (joint_moves_E _ K t d cols H1) as (R1 & D1); [auto|]. destruct (joint_moves_E _ K t d cols H2) as (R2 & D2); [auto|].
  destruct (rel_deriv _ _ (F1 g) (F2 g) t _ _ R1 R2 Rf Rg D1 D2) as (E1 & E2 & E3). fold a b in E1, E2, E3.
  split; [exact E1|]. split; intros S.
  - intros Lk. unfold jo, Jlog_from1. rewrite S.
    assert (RP : forall s, rotation (rot (relpose g (K s)))).
    { intros s. unfold relpose, comp, sinv. cbn [rot]. repeat (apply rotation_mul || apply rotation_mtr); auto. }
    eapply vderiv_eq; [|exact (log_deriv_fixed (fun s => rot (relpose g (K s))) t _ RP E2 Lk)].
    rewrite (poseE o mask g (K t) I).
    2: { intros j Ej. specialize (R1 t). rewrite Ej in R1. exact R1. }
    destruct (logSO3 (rot (relpose g (K t)))) as [th r]. cbn [fst snd].
    destruct (R1isID g) eqn:E; [now rewrite (i_R1 _ _ _ I E), mtr1, mul1v|now rewrite mulvA].
  - unfold jo, Jlog_from1. rewrite S. eapply mderiv_eq; [|exact E3]. f_equal. f_equal.
    unfold M2, M1. fold (joint_place (g_j2 g) (K t)). destruct (g_j1 g) as [j|]; cbn [joint_place]; [now rewrite (mulvA _ (rot (place (K t) j)))|].
    cbn [rot sid]. now rewrite mul1v.
Qed.
End V.
