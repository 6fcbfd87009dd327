From Coq Require Import Reals Lra Lia List Bool Arith ZArith.
From Verif Require Import Geo GeoLemmas Rigid SegModel ViewModel RotProofs LogModel LogSpec LogDeriv DistModel DistProofs GTModel GTSpec.
Import ListNotations.
Local Open Scope R_scope.

(** * Selection *)
Lemma select_map {A B} (f : A -> B) m : forall l, select m (map f l) = map f (select m l).
Proof. induction m as [|b m IH]; intros [|x l]; cbn; auto. destruct b; cbn; now rewrite IH. Qed.
Lemma nth_seq_id (l : list R) : map (fun i => nth i l 0) (seq 0 (length l)) = l.
Proof.
  induction l as [|x l IH]; [reflexivity|]. cbn [length seq map nth]. f_equal.
  rewrite <- seq_shift, map_map. exact IH.
Qed.
Lemma select_pick m (l : list R) n : length l = n -> select m l = map (fun i => nth i l 0) (select m (seq 0 n)).
Proof. intros <-. rewrite <- select_map, nth_seq_id. reflexivity. Qed.
Lemma select_length {A} m : forall l : list A, length l = length m -> length (select m l) = count m.
Proof. unfold count. induction m as [|b m IH]; intros [|x l]; cbn; intros E; try lia; auto. destruct b; cbn; rewrite IH; lia. Qed.
Lemma nth_select m (l : list R) n i : length l = n -> length m = n -> (i < count m)%nat -> nth i (select m l) 0 = nth (nth i (select m (seq 0 n)) 0%nat) l 0.
Proof.
  intros L M I. rewrite (select_pick m l n L).
  rewrite (nth_indep _ 0 ((fun i => nth i l 0) 0%nat)).
  - exact (map_nth (fun i => nth i l 0) _ 0%nat i).
  - rewrite map_length, select_length; [exact I|]. rewrite seq_length. lia.
Qed.
Lemma pick_lt m n i : length m = n -> (i < count m)%nat -> (nth i (select m (seq 0 n)) 0 < n)%nat.
Proof.
  intros M I. assert (H : In (nth i (select m (seq 0 n)) 0%nat) (seq 0 n)).
  { assert (K : forall (m : list bool) (l : list nat) x, In x (select m l) -> In x l).
    { clear. induction m as [|b m IH]; intros [|y l] x; cbn; try tauto. destruct b; cbn; intros H; [destruct H as [->|H]|]; eauto. }
    apply (K m). apply nth_In. rewrite select_length; [exact I|]. rewrite seq_length. lia. }
  apply in_seq in H. lia.
Qed.

(** * The flags agree with the frames *)
Section P.
Variables (isId : m3 -> bool) (isZero : v3 -> bool) (quat : m3 -> list R).
Hypothesis isIdP : forall m, isId m = true -> m = m1.
Hypothesis isZeroP : forall v, isZero v = true -> v = v0.
Hypothesis quat4 : forall m, length (quat m) = 4%nat.
Variable o : opts.
Notation set := (set isId isZero o).
Notation setup := (setup isId isZero o).

Record inv (mask : list bool) (g : gt) : Prop := Inv {
  i_mask : g_mask g = mask;
  i_R1 : R1isID g = true -> rot (F1 g) = m1;
  i_t1 : t1isZero g = true -> tra (F1 g) = v0;
  i_t2 : t2isZero g = true -> tra (F2 g) = v0;
  i_rel : relative o = false -> g_j1 g = None;
  i_pos : fullPos g = fullPos (create o mask);
  i_ori : fullOri g = fullOri (create o mask);
  i_row : rowOri g = rowOri (create o mask) }.
Lemma create_inv mask : inv mask (create o mask).
Proof. constructor; auto. Qed.
Lemma set_inv mask g s : inv mask g -> inv mask (set g s).
Proof.
  intros []. destruct s as [j|j|M|M|M]; constructor; cbn; auto.
  intros ->. reflexivity.
Qed.
Lemma setup_inv mask l : inv mask (setup mask l).
Proof.
  unfold GTModel.setup. rewrite <- fold_left_rev_right. induction (rev l); [apply create_inv|]. cbn. now apply set_inv.
Qed.

(** * Values *)
Lemma actInvE A B : rotation (rot A) -> actInv A B = comp (sinv A) B.
Proof. intros _. unfold actInv, comp, sinv, act. cbn [rot tra]. f_equal. rewrite mulv_sub. generalize (mulv (mtr (rot A)) (tra B)) (mulv (mtr (rot A)) (tra A)). geo. Qed.
Lemma poseE mask g k : inv mask g -> (forall j, g_j1 g = Some j -> rotation (rot (place k j))) -> pose g k = relpose g k.
Proof.
  intros I Rt. unfold pose, relpose, M2, M1, joint_place, actInv, comp, sinv, act. destruct (g_j1 g) as [j|].
  - specialize (Rt j eq_refl). cbn [rot tra]. f_equal.
    + now rewrite mtr_mul, !mulA.
    + rewrite mtr_mul, !mulvA, !mulv_sub, !mulv_add, (rotation_inv _ _ Rt).
      match goal with |- context [tra (F1 g)] => generalize (mulv (mtr (rot (F1 g))) (tra (F1 g))) end.
      generalize (mulv (mtr (rot (F1 g))) (mulv (mtr (rot (place k j))) (tra (place k j)))).
      match goal with |- context [match g_j2 g with Some _ => _ | None => _ end] => generalize (match g_j2 g with Some j0 => place k j0 | None => sid end) end.
      intros M a b. generalize (mulv (mtr (rot (F1 g))) (mulv (mtr (rot (place k j))) (mulv (rot M) (tra (F2 g))))) (mulv (mtr (rot (F1 g))) (mulv (mtr (rot (place k j))) (tra M))). geo.
  - cbn [rot tra sid]. rewrite !mul1m, mul1v, vadd_0. f_equal.
    rewrite mulv_sub. generalize (mulv (mtr (rot (F1 g))) (tra (F1 g))).
    generalize (mulv (mtr (rot (F1 g))) (vadd (mulv (rot match g_j2 g with Some j => place k j | None => SE3 m1 v0 end) (tra (F2 g))) (tra match g_j2 g with Some j => place k j | None => SE3 m1 v0 end))). geo.
Qed.
Lemma pointE mask g k : inv mask g -> point g k = tra (pose g k).
Proof.
  intros I. unfold point, pose, actInv. set (v := match g_j1 g with Some _ => _ | None => _ end).
  assert (V : (if t1isZero g then v else vsub v (tra (F1 g))) = vsub v (tra (F1 g))).
  { destruct (t1isZero g) eqn:E; [|reflexivity]. now rewrite (i_t1 _ _ I E), vsub_0. }
  rewrite V. assert (W : forall x, (if R1isID g then x else mulv (mtr (rot (F1 g))) x) = mulv (mtr (rot (F1 g))) x).
  { intros x. destruct (R1isID g) eqn:E; [|reflexivity]. now rewrite (i_R1 _ _ I E), mtr1, mul1v. }
  rewrite W. unfold v. destruct (g_j1 g); reflexivity.
Qed.

Definition full (p : se3) : list R :=
  (if position o then v3l (tra p) else []) ++ (if orientation o then (if so3 o then quat (rot p) else v3l (snd (logSO3 (rot p)))) else []).
Lemma full_length m p : good_mask o m -> length (full p) = length (m ++ if so3 o then [true] else []).
Proof.
  intros (L & E & S). unfold full. rewrite !app_length, L.
  destruct (position o), (orientation o), (so3 o); cbn; rewrite ?quat4; auto; try (destruct (S eq_refl); discriminate).
Qed.
Lemma rawE mask g k : inv mask g -> good_mask o mask -> raw quat o g k = full (pose g k).
Proof.
  intros I (_ & E & _). unfold raw, full. rewrite (pointE mask g k I). destruct (orientation o); [reflexivity|].
  destruct (position o); [|discriminate]. now rewrite app_nil_r.
Qed.
End P.

(** reading the rows of a mask *)
Lemma read_mask_small m (l : list R) : length l = length m -> (length m <= 7)%nat ->
  vread (fun i => nth (Z.to_nat i) l 0) (from_logical m) = select m l.
Proof.
  intros L M.
  do 8 (destruct m as [|[] m]; [repeat (destruct l as [|? l]; try discriminate L); reflexivity| |]); cbn in M; lia.
Qed.
