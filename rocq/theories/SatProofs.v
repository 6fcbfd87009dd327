From Coq Require Import ZArith List Bool Lia Reals Lra FinFun.
From Verif Require Import SegModel ViewModel SatModel.
Import ListNotations.
Open Scope Z_scope.

Section Sat.
Context {V : Type}.
Variable leb : V -> V -> bool.
Notation clamp := (clamp leb). Notation sat_list := (sat_list leb). Notation sst := (sst V).
Definition cval lb ub v : V := fst (fst (clamp lb ub v)).
Definition cflag lb ub v : Z := snd (fst (clamp lb ub v)).
Definition chit lb ub v : bool := snd (clamp lb ub v).

Lemma upd_eq {A} (f : Z -> A) i x : upd f i x i = x.
Proof. unfold upd. rewrite Z.eqb_refl. reflexivity. Qed.
Lemma upd_ne {A} (f : Z -> A) i j x : j <> i -> upd f i x j = f j.
Proof. intros H. unfold upd. destruct (j =? i) eqn:E; [apply Z.eqb_eq in E; contradiction | reflexivity]. Qed.

Lemma sat_one_eq lb ub q (s : sst) p : sat_one leb lb ub q s p =
  mksst (upd (qs s) (fst p) (cval (lb (fst p)) (ub (fst p)) (q (fst p)))) (upd (fl s) (snd p) (cflag (lb (fst p)) (ub (fst p)) (q (fst p))))
    (chit (lb (fst p)) (ub (fst p)) (q (fst p)) || ret s).
Proof. unfold sat_one, cval, cflag, chit. destruct (clamp _ _ _) as [[v f] b]. reflexivity. Qed.

Lemma sat_list_qs lb ub q l : forall s, (forall i, In i (map fst l) -> qs (sat_list lb ub q l s) i = cval (lb i) (ub i) (q i)) /\
  (forall i, ~ In i (map fst l) -> qs (sat_list lb ub q l s) i = qs s i).
Proof.
  induction l as [|p l IH]; intros s; [split; [contradiction|reflexivity]|]. unfold SatModel.sat_list. cbn [fold_left map In].
  destruct (IH (sat_one leb lb ub q s p)) as [A B]. fold (sat_list lb ub q l (sat_one leb lb ub q s p)). split.
  - intros i H. destruct (in_dec Z.eq_dec i (map fst l)) as [N|N]; [apply A, N|]. rewrite B by exact N.
    destruct H as [H|H]; [|contradiction]. rewrite sat_one_eq. cbn. subst i. apply upd_eq.
  - intros i H. rewrite B by tauto. rewrite sat_one_eq. cbn. apply upd_ne. intros ->. apply H. left; reflexivity.
Qed.
Lemma sat_list_ret lb ub q l : forall s, ret (sat_list lb ub q l s) = existsb (fun p => chit (lb (fst p)) (ub (fst p)) (q (fst p))) l || ret s.
Proof.
  induction l as [|p l IH]; intros s; [reflexivity|]. unfold SatModel.sat_list. cbn [fold_left existsb].
  fold (sat_list lb ub q l (sat_one leb lb ub q s p)). rewrite IH, sat_one_eq. cbn [ret].
  destruct (existsb _ l), (chit _ _ _), (ret s); reflexivity.
Qed.
Lemma sat_list_fl lb ub q l : forall s k,
  (~ In k (map snd l) -> fl (sat_list lb ub q l s) k = fl s k) /\
  (forall l1 i l2, l = l1 ++ (i, k) :: l2 -> ~ In k (map snd l2) -> fl (sat_list lb ub q l s) k = cflag (lb i) (ub i) (q i)).
Proof.
  induction l as [|p l IH]; intros s k.
  - split; [reflexivity|]. intros [|? ?] i l2 H; discriminate.
  - unfold SatModel.sat_list. cbn [fold_left map In]. fold (sat_list lb ub q l (sat_one leb lb ub q s p)).
    destruct (IH (sat_one leb lb ub q s p) k) as [A B]. split.
    + intros H. rewrite A by tauto. rewrite sat_one_eq. cbn. apply upd_ne. intros ->. apply H. left; reflexivity.
    + intros [|p' l1] i l2 H N; cbn in H.
      * injection H as -> ->. rewrite A by exact N. rewrite sat_one_eq. cbn. apply upd_eq.
      * injection H as -> ->. eapply B; [reflexivity | exact N].
Qed.
(** in place *)
Lemma in_place lb ub l : NoDup (map fst l) -> forall s q, (forall i, In i (map fst l) -> qs s i = q i) ->
  sat_list_in_place leb lb ub l s = sat_list lb ub q l s.
Proof.
  induction l as [|p l IH]; intros N s q H; [reflexivity|]. cbn in N. inversion N as [|? ? N1 N2]; subst.
  unfold sat_list_in_place, SatModel.sat_list. cbn [fold_left]. unfold sat_one_in_place at 2.
  assert (E : sat_one leb lb ub (qs s) s p = sat_one leb lb ub q s p).
  { rewrite !sat_one_eq. rewrite (H (fst p)) by (left; reflexivity). reflexivity. }
  rewrite E. apply (IH N2). intros i Hi. rewrite sat_one_eq. cbn. rewrite upd_ne; [apply H; right; exact Hi|]. intros ->. contradiction.
Qed.
End Sat.

Lemma zrange_In n i : In i (zrange n) <-> 0 <= i < n.
Proof.
  unfold zrange. rewrite in_map_iff. split.
  - intros (k & <- & Hk). apply in_seq in Hk. lia.
  - intros H. exists (Z.to_nat i). split; [lia|]. apply in_seq. lia.
Qed.
Lemma zrange_NoDup n : NoDup (zrange n).
Proof. unfold zrange. apply FinFun.Injective_map_NoDup; [intros a b H; lia | apply seq_NoDup]. Qed.
Lemma bounds_fst n m : map fst (bounds_pairs n m) = zrange n.
Proof. unfold bounds_pairs. rewrite map_map. cbn. apply map_id. Qed.
Lemma zrange_split n i : 0 <= i < n -> 
  zrange n = zrange i ++ i :: map (fun k => i + 1 + k) (zrange (n - i - 1)).
Proof.
  intros H. unfold zrange. rewrite map_map. replace (Z.to_nat n) with (Z.to_nat i + S (Z.to_nat (n - i - 1)))%nat by lia.
  rewrite seq_app, map_app. cbn [seq map]. f_equal. f_equal; [lia|].
  replace (seq (S (0 + Z.to_nat i)) (Z.to_nat (n - i - 1))) with (map (fun k => S (Z.to_nat i) + k)%nat (seq 0 (Z.to_nat (n - i - 1)))).
  - rewrite map_map. apply map_ext_in. intros k _. lia.
  - generalize (Z.to_nat (n - i - 1)) as m. induction m as [|m IHm]; [reflexivity|]. rewrite !seq_S, map_app, IHm. reflexivity.
Qed.
(** flags of Bounds::saturate: the last index of each velocity variable decides *)
Lemma bounds_flag {V} (leb : V -> V -> bool) lb ub q n m (s : sst V) i : 0 <= i < n -> (forall j, i < j < n -> m j <> m i) ->
  fl (sat_list leb lb ub q (bounds_pairs n m) s) (m i) = cflag leb (lb i) (ub i) (q i).
Proof.
  intros Hi Hj.
  eapply (proj2 (sat_list_fl leb lb ub q _ s (m i))).
  - unfold bounds_pairs. rewrite (zrange_split n i Hi), map_app. cbn [map]. reflexivity.
  - rewrite !map_map. cbn. intros H. apply in_map_iff in H as (j & E2 & Hj2). apply zrange_In in Hj2. apply (Hj (i + 1 + j)); [lia|exact E2].
Qed.
Lemma bounds_flag_none {V} (leb : V -> V -> bool) lb ub q n m (s : sst V) k : (forall j, 0 <= j < n -> m j <> k) ->
  fl (sat_list leb lb ub q (bounds_pairs n m) s) k = fl s k.
Proof.
  intros H. apply (proj1 (sat_list_fl leb lb ub q _ s k)). unfold bounds_pairs. rewrite map_map. cbn. intros H2.
  apply in_map_iff in H2 as (j & E2 & Hj2). apply zrange_In in Hj2. exact (H j Hj2 E2).
Qed.

(** real scalars *)
Definition Rleb (x y : R) : bool := if Rle_dec x y then true else false.
Lemma Rleb_true x y : Rleb x y = true <-> (x <= y)%R.
Proof. unfold Rleb. destruct (Rle_dec x y); split; auto; discriminate. Qed.
Lemma Rleb_false x y : Rleb x y = false <-> (y < x)%R.
Proof. unfold Rleb. destruct (Rle_dec x y); split; intros; try discriminate; try lra; reflexivity. Qed.
(** what one component must become *)
Definition clamped (lb ub v w : R) (f : Z) (hit : Prop) : Prop :=
  ((v <= lb)%R -> w = lb /\ f = -1 /\ hit) /\
  ((lb < v)%R -> (ub <= v)%R -> w = ub /\ f = 1 /\ hit) /\
  ((lb < v < ub)%R -> w = v /\ f = 0 /\ ~ hit).
Lemma clamp_spec lb ub v : clamped lb ub v (cval Rleb lb ub v) (cflag Rleb lb ub v) (chit Rleb lb ub v = true).
Proof.
  unfold clamped, cval, cflag, chit, clamp, Rleb.
  destruct (Rle_dec v lb), (Rle_dec ub v); cbn; repeat split; intros; try lra; auto; discriminate.
Qed.
Lemma cval_in lb ub v : (lb <= ub)%R -> (lb <= cval Rleb lb ub v <= ub)%R.
Proof. intros H. unfold cval, clamp, Rleb. destruct (Rle_dec v lb), (Rle_dec ub v); cbn; lra. Qed.
Lemma cval_idem lb ub v : (lb <= ub)%R -> cval Rleb lb ub (cval Rleb lb ub v) = cval Rleb lb ub v.
Proof.
  intros H. unfold cval, clamp, Rleb.
  destruct (Rle_dec v lb) as [A|A]; [|destruct (Rle_dec ub v) as [B|B]]; cbn [fst snd];
  repeat match goal with |- context [Rle_dec ?a ?b] => destruct (Rle_dec a b) end; cbn [fst snd]; try reflexivity; try lra.
Qed.
Lemma chit_idem lb ub v : (lb <= ub)%R -> chit Rleb lb ub (cval Rleb lb ub v) = chit Rleb lb ub v.
Proof.
  intros H. unfold chit, cval, clamp, Rleb.
  destruct (Rle_dec v lb) as [A|A]; [|destruct (Rle_dec ub v) as [B|B]]; cbn [fst snd];
  repeat match goal with |- context [Rle_dec ?a ?b] => destruct (Rle_dec a b) end; cbn [fst snd]; try reflexivity; try lra.
Qed.
Lemma cflag_idem lb ub v : (lb < ub)%R -> cflag Rleb lb ub (cval Rleb lb ub v) = cflag Rleb lb ub v.
Proof.
  intros H. unfold cflag, cval, clamp, Rleb.
  destruct (Rle_dec v lb) as [A|A]; [|destruct (Rle_dec ub v) as [B|B]]; cbn [fst snd];
  repeat match goal with |- context [Rle_dec ?a ?b] => destruct (Rle_dec a b) end; cbn [fst snd]; try reflexivity; try lra.
Qed.

Lemma bounds_values lb ub q n m (s : sst R) :
  let r := sat_list Rleb lb ub q (bounds_pairs n m) s in
  (forall i, 0 <= i < n -> exists f hit, clamped (lb i) (ub i) (q i) (qs r i) f hit /\ ((forall j, i < j < n -> m j <> m i) -> fl r (m i) = f) /\ (hit -> ret r = true)) /\
  (forall i, ~ 0 <= i < n -> qs r i = qs s i) /\
  (forall k, (forall j, 0 <= j < n -> m j <> k) -> fl r k = fl s k) /\
  (ret s = false -> (ret r = true <-> exists i, 0 <= i < n /\ ((q i <= lb i)%R \/ (ub i <= q i)%R))).
Proof.
  cbv zeta. destruct (sat_list_qs Rleb lb ub q (bounds_pairs n m) s) as [A B]. rewrite bounds_fst in A, B. split; [|split; [|split]].
  - intros i Hi. exists (cflag Rleb (lb i) (ub i) (q i)), (chit Rleb (lb i) (ub i) (q i) = true).
    split; [rewrite A by (apply zrange_In; exact Hi); apply clamp_spec|]. split; [intros H; apply bounds_flag; assumption|].
    intros H. rewrite sat_list_ret. apply orb_true_iff. left. apply existsb_exists. exists (i, m i). split; [|exact H].
    unfold bounds_pairs. apply in_map_iff. exists i. split; [reflexivity|]. apply zrange_In, Hi.
  - intros i Hi. apply B. rewrite zrange_In. exact Hi.
  - intros k Hk. apply bounds_flag_none, Hk.
  - intros Hs. rewrite sat_list_ret, Hs, orb_false_r, existsb_exists. split.
    + intros (p & Hp & H). unfold bounds_pairs in Hp. apply in_map_iff in Hp as (i & <- & Hi). apply zrange_In in Hi. cbn in H.
      exists i. split; [exact Hi|]. unfold chit, clamp, Rleb in H. destruct (Rle_dec (q i) (lb i)); [left; assumption|].
      destruct (Rle_dec (ub i) (q i)); [right; assumption|discriminate].
    + intros (i & Hi & H). exists (i, m i). split; [unfold bounds_pairs; apply in_map_iff; exists i; split; [reflexivity|apply zrange_In, Hi]|].
      cbn. unfold chit, clamp, Rleb. destruct (Rle_dec (q i) (lb i)); [reflexivity|]. destruct (Rle_dec (ub i) (q i)); [reflexivity|]. destruct H; contradiction.
Qed.
Lemma bounds_twice lb ub q n m (s : sst R) : (forall i, 0 <= i < n -> (lb i <= ub i)%R) ->
  let r := sat_list Rleb lb ub q (bounds_pairs n m) s in
  let r2 := sat_list Rleb lb ub (qs r) (bounds_pairs n m) (mksst (qs r) (fl r) false) in
  (forall i, 0 <= i < n -> (lb i <= qs r i <= ub i)%R) /\ (forall i, qs r2 i = qs r i) /\ (ret s = false -> ret r2 = ret r) /\
  ((forall i, 0 <= i < n -> (lb i < ub i)%R) -> forall k, fl r2 k = fl r k).
Proof.
  intros H. cbv zeta. set (r := sat_list Rleb lb ub q (bounds_pairs n m) s).
  destruct (sat_list_qs Rleb lb ub q (bounds_pairs n m) s) as [A B]. fold r in A, B. rewrite bounds_fst in A, B.
  destruct (sat_list_qs Rleb lb ub (qs r) (bounds_pairs n m) (mksst (qs r) (fl r) false)) as [A2 B2]. rewrite bounds_fst in A2, B2.
  split; [|split; [|split]].
  - intros i Hi. rewrite A by (apply zrange_In, Hi). apply cval_in, H, Hi.
  - intros i. destruct (in_dec Z.eq_dec i (zrange n)) as [N|N]; [|apply B2, N].
    rewrite A2, A by exact N. apply cval_idem, H. apply zrange_In, N.
  - intros Hs. unfold r at 4. rewrite !sat_list_ret, Hs. cbn [ret]. f_equal. unfold bounds_pairs.
    assert (E : forall l, (forall i, In i l -> 0 <= i < n) ->
      existsb (fun p => chit Rleb (lb (fst p)) (ub (fst p)) (qs r (fst p))) (map (fun i => (i, m i)) l) =
      existsb (fun p => chit Rleb (lb (fst p)) (ub (fst p)) (q (fst p))) (map (fun i => (i, m i)) l)).
    { induction l as [|i l IH]; intros Hl; [reflexivity|]. cbn. rewrite IH by (intros j Hj; apply Hl; right; exact Hj). f_equal.
      rewrite A by (apply zrange_In, Hl; left; reflexivity). apply chit_idem, H, Hl. left; reflexivity. }
    apply E. intros i Hi. apply zrange_In, Hi.
  - intros Hlt k.
    (* last index of k, if any *)
    assert (D : (forall j, 0 <= j < n -> m j <> k) \/ exists i, 0 <= i < n /\ m i = k /\ forall j, i < j < n -> m j <> m i).
    { clear -n. assert (G : forall a : nat, (forall j, 0 <= j < Z.of_nat a -> m j <> k) \/ exists i, 0 <= i < Z.of_nat a /\ m i = k /\ forall j, i < j < Z.of_nat a -> m j <> m i).
      { induction a as [|a [IH|(i & I1 & I2 & I3)]].
        - left. lia.
        - destruct (Z.eq_dec (m (Z.of_nat a)) k) as [E|E].
          + right. exists (Z.of_nat a). split; [lia|]. split; [exact E|]. lia.
          + left. intros j Hj. destruct (Z.eq_dec j (Z.of_nat a)) as [->|N]; [exact E|]. apply IH. lia.
        - right. destruct (Z.eq_dec (m (Z.of_nat a)) k) as [E|E].
          + exists (Z.of_nat a). split; [lia|]. split; [exact E|]. lia.
          + exists i. split; [lia|]. split; [exact I2|]. intros j Hj. destruct (Z.eq_dec j (Z.of_nat a)) as [->|N]; [congruence|]. apply I3. lia. }
      destruct (Z_le_gt_dec n 0) as [N|N]; [left; lia|]. specialize (G (Z.to_nat n)). rewrite Z2Nat.id in G by lia. exact G. }
    destruct D as [D|(i & I1 & I2 & I3)].
    + rewrite bounds_flag_none by exact D. reflexivity.
    + subst k. rewrite bounds_flag by assumption. replace (fl r (m i)) with (cflag Rleb (lb i) (ub i) (q i)) by (symmetry; apply bounds_flag; assumption). rewrite A by (apply zrange_In, I1). apply cflag_idem, Hlt, I1.
Qed.

(** pairs of Device::saturate *)
(** joints laid out one after the other, starting at (iq, iv) *)
Fixpoint consecutive (iq iv : Z) (l : list joint) : Prop :=
  match l with
  | [] => True
  | j :: t => j_iq j = iq /\ j_iv j = iv /\ 0 <= j_nq j /\ 0 <= j_nv j /\ consecutive (iq + j_nq j) (iv + j_nv j) t
  end.
Definition total_nq (l : list joint) : Z := fold_right (fun j s => j_nq j + s) 0 l.
Definition total_nv (l : list joint) : Z := fold_right (fun j s => j_nv j + s) 0 l.

Lemma zrange_shift a n : 0 <= n -> map (fun k => a + k) (zrange n) = map Z.of_nat (seq (Z.to_nat a) (Z.to_nat n)) \/ a < 0.
Proof.
  intros Hn. destruct (Z_lt_ge_dec a 0); [right; lia|left]. unfold zrange. rewrite map_map.
  replace (seq (Z.to_nat a) (Z.to_nat n)) with (map (fun k => Z.to_nat a + k)%nat (seq 0 (Z.to_nat n))).
  - rewrite map_map. apply map_ext. intros k. lia.
  - generalize (Z.to_nat n) as m. induction m as [|m IHm]; [reflexivity|]. rewrite !seq_S, map_app, IHm. reflexivity.
Qed.
Lemma joints_fst l : forall iq iv, 0 <= iq -> consecutive iq iv l ->
  map fst (flat_map joint_pairs l) = map Z.of_nat (seq (Z.to_nat iq) (Z.to_nat (total_nq l))) /\ 0 <= total_nq l.
Proof.
  induction l as [|j l IH]; intros iq iv H0 H; [split; [reflexivity|cbn; lia]|].
  destruct H as (H1 & H2 & H3 & H4 & H5). cbn [flat_map total_nq fold_right]. fold (total_nq l).
  destruct (IH (iq + j_nq j) _ ltac:(lia) H5) as [IH1 IH2]. split; [|lia].
  rewrite map_app, IH1. unfold joint_pairs. rewrite map_map. cbn [fst]. rewrite H1.
  destruct (zrange_shift iq (j_nq j) H3) as [E|E]; [|lia]. rewrite E.
  replace (Z.to_nat (j_nq j + total_nq l)) with (Z.to_nat (j_nq j) + Z.to_nat (total_nq l))%nat by lia.
  rewrite seq_app, map_app. do 3 f_equal. lia.
Qed.
Lemma device_fst l d : consecutive 0 0 l -> 0 <= d ->
  map fst (device_pairs l (total_nq l) (total_nv l) d) = zrange (total_nq l + d).
Proof.
  intros H Hd. destruct (joints_fst l 0 0 ltac:(lia) H) as [E1 E2]. unfold device_pairs. rewrite map_app, E1, map_map. cbn [fst].
  destruct (zrange_shift (total_nq l) d Hd) as [E|E]; [|lia]. rewrite E. unfold zrange.
  replace (Z.to_nat (total_nq l + d)) with (Z.to_nat (total_nq l) + Z.to_nat d)%nat by lia. rewrite seq_app, map_app. reflexivity.
Qed.
Lemma device_values lb ub q l d (s : sst R) : consecutive 0 0 l -> 0 <= d -> ret s = false ->
  let n := total_nq l + d in
  let r := sat_list Rleb lb ub q (device_pairs l (total_nq l) (total_nv l) d) s in
  (forall i, 0 <= i < n -> exists f hit, clamped (lb i) (ub i) (q i) (qs r i) f hit) /\
  (forall i, ~ 0 <= i < n -> qs r i = qs s i) /\
  (ret r = true <-> exists i, 0 <= i < n /\ ((q i <= lb i)%R \/ (ub i <= q i)%R)) /\
  (* extra configuration variables and joints with as many configuration as velocity variables have their own flags *)
  (forall k, 0 <= k < d -> exists w hit, clamped (lb (total_nq l + k)) (ub (total_nq l + k)) (q (total_nq l + k)) w (fl r (total_nv l + k)) hit).
Proof.
  intros H Hd Hs. cbv zeta. assert (Ef := device_fst l d H Hd).
  destruct (sat_list_qs Rleb lb ub q (device_pairs l (total_nq l) (total_nv l) d) s) as [A B]. rewrite Ef in A, B. split; [|split; [|split]].
  - intros i Hi. do 2 eexists. rewrite A by (apply zrange_In; exact Hi). apply clamp_spec.
  - intros i Hi. apply B. rewrite zrange_In. exact Hi.
  - rewrite sat_list_ret, Hs, orb_false_r, existsb_exists. split.
    + intros (p & Hp & C). exists (fst p). split; [apply zrange_In; rewrite <- Ef; apply in_map, Hp|].
      unfold chit, clamp, Rleb in C. destruct (Rle_dec (q (fst p)) (lb (fst p))); [left; assumption|].
      destruct (Rle_dec (ub (fst p)) (q (fst p))); [right; assumption|discriminate].
    + intros (i & Hi & C). assert (Hin : In i (map fst (device_pairs l (total_nq l) (total_nv l) d))) by (rewrite Ef; apply zrange_In, Hi).
      apply in_map_iff in Hin as (p & <- & Hp). exists p. split; [exact Hp|].
      unfold chit, clamp, Rleb. destruct (Rle_dec (q (fst p)) (lb (fst p))); [reflexivity|]. destruct (Rle_dec (ub (fst p)) (q (fst p))); [reflexivity|]. destruct C; contradiction.
  - intros k Hk. do 2 eexists.
    rewrite (proj2 (sat_list_fl Rleb lb ub q _ s (total_nv l + k)) (flat_map joint_pairs l ++ map (fun x => (total_nq l + x, total_nv l + x)) (zrange k)) (total_nq l + k) (map (fun x => (total_nq l + x, total_nv l + x)) (map (fun x => k + 1 + x) (zrange (d - k - 1))))); [apply clamp_spec| |].
    + unfold device_pairs. rewrite (zrange_split d k Hk), map_app, app_assoc. cbn [map]. reflexivity.
    + rewrite !map_map. cbn. intros C. apply in_map_iff in C as (x & Ex & Hx). apply zrange_In in Hx. lia.
Qed.

Lemma consecutive_split l1 j l2 : forall iq iv, 0 <= iv -> consecutive iq iv (l1 ++ j :: l2) ->
  iv <= j_iv j /\ consecutive (j_iq j + j_nq j) (j_iv j + j_nv j) l2.
Proof.
  induction l1 as [|x l1 IH]; intros iq iv H0 H; cbn in H.
  - destruct H as (-> & -> & H1 & H2 & H). split; [lia|exact H].
  - destruct H as (_ & _ & H1 & H2 & H). destruct (IH (iq + j_nq x) (iv + j_nv x)) as [A B]; [lia|exact H|]. split; [lia|exact B].
Qed.
Lemma later_flags l : forall iq iv, consecutive iq iv l -> (forall j, In j l -> j_nv j = 0 -> j_nq j = 0) ->
  forall v, In v (map snd (flat_map joint_pairs l)) -> iv <= v.
Proof.
  induction l as [|j l IH]; intros iq iv H Hz v Hv; [destruct Hv|]. destruct H as (H1 & H2 & H3 & H4 & H5).
  cbn [flat_map] in Hv. rewrite map_app in Hv. apply in_app_or in Hv as [Hv|Hv].
  - unfold joint_pairs in Hv. rewrite map_map in Hv. apply in_map_iff in Hv as (k & <- & Hk). apply zrange_In in Hk. cbn.
    specialize (Hz j (or_introl eq_refl)). lia.
  - assert (iv + j_nv j <= v); [|lia]. eapply IH; [exact H5| |exact Hv]. intros j' Hj'. apply Hz. now right.
Qed.
Lemma total_nv_split l : forall iq iv, consecutive iq iv l -> 0 <= total_nv l.
Proof. induction l as [|j l IH]; intros iq iv H; cbn; [lia|]. destruct H as (_ & _ & _ & H4 & H5). specialize (IH _ _ H5). unfold total_nv in IH. lia. Qed.
Lemma consecutive_end l1 j l2 : forall iq iv, consecutive iq iv (l1 ++ j :: l2) -> j_iv j + j_nv j <= iv + total_nv (l1 ++ j :: l2).
Proof.
  induction l1 as [|x l1 IH]; intros iq iv H; cbn [app] in *.
  - destruct H as (_ & H2 & _ & _ & H). apply total_nv_split in H. unfold total_nv in *. cbn. lia.
  - destruct H as (_ & H2 & _ & _ & H). specialize (IH _ _ H). unfold total_nv in *. cbn. lia.
Qed.
(** a velocity variable of a joint has the flag of the configuration variable of the same
    rank, the last one has that of the last configuration variable *)
Lemma joint_flags lb ub q l1 j l2 d (s : sst R) k : let l := l1 ++ j :: l2 in consecutive 0 0 l -> 0 <= d ->
  (forall j', In j' l2 -> j_nv j' = 0 -> j_nq j' = 0) -> 0 <= k < j_nv j -> j_nv j <= j_nq j ->
  let i := j_iq j + (if k + 1 =? j_nv j then j_nq j - 1 else k) in
  let r := sat_list Rleb lb ub q (device_pairs l (total_nq l) (total_nv l) d) s in
  exists w hit, clamped (lb i) (ub i) (q i) w (fl r (j_iv j + k)) hit.
Proof.
  intros l H Hd Hz Hk Hn. cbv zeta. set (x := if k + 1 =? j_nv j then j_nq j - 1 else k). do 2 eexists.
  destruct (consecutive_split l1 j l2 0 0 ltac:(lia) H) as [H1 H2]. pose proof (consecutive_end l1 j l2 0 0 H) as H3. fold l in H3.
  assert (Hx : 0 <= x < j_nq j) by (unfold x; destruct (Z.eqb_spec (k + 1) (j_nv j)); lia).
  assert (Ex : Z.min x (j_nv j - 1) = k) by (unfold x; destruct (Z.eqb_spec (k + 1) (j_nv j)); lia).
  set (f := fun k => (j_iq j + k, j_iv j + Z.min k (j_nv j - 1))).
  rewrite (proj2 (sat_list_fl Rleb lb ub q (device_pairs l (total_nq l) (total_nv l) d) s (j_iv j + k))
    (flat_map joint_pairs l1 ++ map f (zrange x)) (j_iq j + x)
    (map f (map (fun y => x + 1 + y) (zrange (j_nq j - x - 1))) ++ flat_map joint_pairs l2 ++ map (fun k => (total_nq l + k, total_nv l + k)) (zrange d))); [apply clamp_spec| |].
  - unfold device_pairs, l. rewrite flat_map_app. cbn [flat_map]. unfold joint_pairs at 2. fold f. rewrite (zrange_split (j_nq j) x Hx), map_app. cbn [map].
    unfold f at 2. rewrite Ex, <- !app_assoc. reflexivity.
  - rewrite !map_app, !in_app_iff. intros [C|[C|C]].
    + rewrite !map_map in C. apply in_map_iff in C as (y & Ey & Hy). apply zrange_In in Hy. unfold f in Ey. cbn in Ey.
      unfold x in *. destruct (Z.eqb_spec (k + 1) (j_nv j)); lia.
    + apply (later_flags l2 _ _ H2 Hz) in C. lia.
    + rewrite map_map in C. apply in_map_iff in C as (y & Ey & Hy). apply zrange_In in Hy. cbn in Ey. lia.
Qed.

(** computeSaturation *)
Lemma saturated_columns sat free (J : mat R) (e : list R) i j v : nth_error free (Z.to_nat j) = Some v -> sat v = -1 \/ sat v = 0 \/ sat v = 1 ->
  let g := tdot 0%R Rplus Rmult J e j 0 in
  let J' := compute_saturation 0%R Rplus Rmult (fun x => if Rlt_dec x 0 then true else false) IZR true sat free J e in
  ((sat v = 1 /\ (0 < - g)%R) \/ (sat v = -1 /\ (- g < 0)%R) -> at_ J' i j = 0%R) /\
  (~ ((sat v = 1 /\ (0 < - g)%R) \/ (sat v = -1 /\ (- g < 0)%R)) -> at_ J' i j = at_ J i j) /\ nr J' = nr J /\ nc J' = nc J.
Proof.
  intros Hv Hs. cbv zeta. unfold compute_saturation, saturate_jacobian, tmp_sat. cbn [at_ nr nc]. rewrite Hv.
  set (g := tdot 0%R Rplus Rmult J e j 0). split; [|split; [|auto]].
  - intros [[-> H]|[-> H]]; destruct (Rlt_dec _ _) as [L|L]; try reflexivity; exfalso; apply L; lra.
  - intros H. destruct (Rlt_dec _ _) as [L|L]; [|reflexivity]. exfalso. apply H. destruct Hs as [E|[E|E]]; rewrite E in *.
    + right. split; [reflexivity|lra].
    + lra.
    + left. split; [reflexivity|lra].
Qed.
(** tdot is the scalar product of column j and the error *)
Lemma tdot_sum (J : mat R) e j : forall i, tdot 0%R Rplus Rmult J e j i = fold_right Rplus 0%R (map (fun p => (at_ J (i + Z.of_nat (fst p)) j * snd p)%R) (combine (seq 0 (length e)) e)).
Proof.
  assert (G : forall (e : list R) i n, tdot 0%R Rplus Rmult J e j (i + Z.of_nat n) = fold_right Rplus 0%R (map (fun p => (at_ J (i + Z.of_nat (fst p)) j * snd p)%R) (combine (seq n (length e)) e))).
  { clear e. induction e as [|x e IH]; intros i n; [reflexivity|]. cbn. f_equal. rewrite <- IH. f_equal. lia. }
  intros i. rewrite <- (G e i 0%nat). f_equal. lia.
Qed.
