From Coq Require Import ZArith List Bool Lia.
From Verif Require Import SegModel SegSpec EcsModel EcsSpec EcsFinalProofs EcsSolveProofs LockModel.
Import ListNotations.
Open Scope Z_scope.

(** 0 <= numberDof <= configSize for each joint *)
Definition wf_layout (l : layout) : Prop := forall x, In x l -> 0 <= snd x <= fst x.

Lemma total_app f a b : total f (a ++ b) = total f a + total f b.
Proof. induction a as [|x t IH]; cbn; lia. Qed.
Lemma total_nonneg f l : (forall x, In x l -> 0 <= f x) -> 0 <= total f l.
Proof. induction l as [|x t IH]; cbn; intros H; [lia|]. pose proof (H x (or_introl eq_refl)). pose proof (IH (fun y Hy => H y (or_intror Hy))). lia. Qed.

Lemma firstn_split {A} (l : list A) k d : (k < length l)%nat -> l = firstn k l ++ nth k l d :: skipn (S k) l.
Proof. revert k; induction l as [|x t IH]; cbn; intros [|k] H; try lia; [reflexivity|]. cbn. f_equal. apply IH. lia. Qed.

Lemma rank_step f (l : layout) j k : (forall x, In x l -> 0 <= f x) -> (j < k)%nat -> (k <= length l)%nat ->
  total f (firstn j l) + f (nth j l (0, 0)) <= total f (firstn k l).
Proof.
  intros H J K. rewrite (firstn_split (firstn k l) j (0, 0)) by (rewrite firstn_length; lia).
  rewrite total_app. cbn. rewrite firstn_firstn, Nat.min_l by lia.
  assert (E : nth j (firstn k l) (0, 0) = nth j l (0, 0)).
  { clear H. revert k l J K. induction j as [|j IH]; intros [|k] [|x t] J K; cbn in *; try lia; try reflexivity. apply IH; lia. }
  rewrite E. assert (0 <= total f (skipn (S j) (firstn k l))).
  { apply total_nonneg. intros x Hx. apply H. rewrite <- (firstn_skipn k l). apply in_or_app. left.
    rewrite <- (firstn_skipn (S j) (firstn k l)). apply in_or_app. now right. }
  cbn in *. lia.
Qed.

Lemma rank_bounds f (l : layout) k : (forall x, In x l -> 0 <= f x) -> (k < length l)%nat ->
  0 <= total f (firstn k l) /\ 0 <= f (nth k l (0, 0)) /\ total f (firstn k l) + f (nth k l (0, 0)) <= total f l.
Proof.
  intros H K. split; [|split].
  - apply total_nonneg. intros x Hx. apply H. rewrite <- (firstn_skipn k l). apply in_or_app. now left.
  - apply H, nth_In, K.
  - rewrite <- (firstn_all l) at 3. apply rank_step; auto.
Qed.

Section L.
Context {V : Type}.
Variable zero : V.
Variable integ : nat -> list V -> list V -> list V.
Variable l : layout.
Variable e : Z.
Hypothesis WL : wf_layout l.
Hypothesis E0 : 0 <= e.
Notation lw := (lock_whole zero integ l).
Notation con := (con V (list V)).

Let fq : forall x, In x l -> 0 <= fst x. Proof. intros x Hx. specialize (WL x Hx). lia. Qed.
Let fv : forall x, In x l -> 0 <= snd x. Proof. intros x Hx. specialize (WL x Hx). lia. Qed.

Lemma one_covers a b i : covers [(a, b)] i <-> a <= i < a + b.
Proof. split; [intros (s & [<-|[]] & H); exact H|]. intros H. exists (a, b). split; [now left|exact H]. Qed.

Definition is_lock (c : con) : Prop := exists k v, (k < length l)%nat /\ c = lk_con (lw k v).

Lemma q_disjoint j k i : (j < length l)%nat -> (k < length l)%nat -> rank_q l j <= i < rank_q l j + size_q l j ->
  rank_q l k <= i < rank_q l k + size_q l k -> j = k.
Proof.
  intros J K H1 H2. unfold rank_q, size_q in *. destruct (Nat.lt_trichotomy j k) as [L|[L|L]]; [|exact L|].
  - pose proof (rank_step fst l j k fq L (Nat.lt_le_incl _ _ K)). lia.
  - pose proof (rank_step fst l k j fq L (Nat.lt_le_incl _ _ J)). lia.
Qed.
Lemma v_disjoint j k i : (j < length l)%nat -> (k < length l)%nat -> rank_v l j <= i < rank_v l j + size_v l j ->
  rank_v l k <= i < rank_v l k + size_v l k -> j = k.
Proof.
  intros J K H1 H2. unfold rank_v, size_v in *. destruct (Nat.lt_trichotomy j k) as [L|[L|L]]; [|exact L|].
  - pose proof (rank_step snd l j k fv L (Nat.lt_le_incl _ _ K)). lia.
  - pose proof (rank_step snd l k j fv L (Nat.lt_le_incl _ _ J)). lia.
Qed.

Lemma lock_family : family (dev_q l e) (dev_v l e) is_lock.
Proof.
  unfold family, dev_q, dev_v. pose proof (total_nonneg fst l fq). pose proof (total_nonneg snd l fv).
  split; [lia|]. split; [lia|]. split.
  - intros c (k & v & K & ->). pose proof (rank_bounds fst l k fq K). pose proof (rank_bounds snd l k fv K).
    unfold wf_con. cbn. unfold inside_, rank_q, size_q, rank_v, size_v, lex_sorted.
    split; [eexists; reflexivity|]. split; [eexists; reflexivity|]. split; [intros s []|]. split; [intros s [<-|[]]; cbn; lia|].
    split; [intros s []|]. split; [intros s [<-|[]]; cbn; lia|]. split; exact I.
  - intros c d (j & v & J & ->) (k & w & K & ->). unfold consistent, meet. cbn. split.
    + split; intros (i & (s & [] & _) & _).
    + intros (i & H1 & H2). apply one_covers in H1. apply one_covers in H2.
      assert (j = k) by (apply (v_disjoint j k i); auto). subst k.
      exists (rank_q l j). rewrite !one_covers.
      pose proof (WL _ (nth_In l (0, 0) J)). unfold size_v, size_q in *. lia.
Qed.

Definition no_input (c : con) : Prop := c_in c = [] /\ c_inv c = [].
Lemma order_fuel iadd m d df fuel iE s : (forall c, In c d -> no_input c) -> (1 <= fuel)%nat ->
  compute_order (V := V) (Rh := list V) iadd m d df fuel iE s <> Fuel.
Proof.
  intros H Fu. destruct fuel as [|f]; [lia|]. cbn. destruct (d_comp s iE); [discriminate|].
  destruct (nth_error d iE) as [c|] eqn:E; [|discriminate]. apply nth_error_In in E. destruct (H c E) as [_ ->]. cbn. discriminate.
Qed.
Lemma order_all_fuel iadd m d df fuel ks s : (forall c, In c d -> no_input c) -> (1 <= fuel)%nat ->
  order_all (V := V) (Rh := list V) iadd m d df fuel ks s <> Fuel.
Proof.
  intros H Fu. revert s. induction ks as [|k t IH]; intros s; cbn; [discriminate|].
  pose proof (order_fuel iadd m d df fuel k s H Fu). destruct (compute_order _ _ _ _ _ _ _); [apply IH|discriminate|contradiction].
Qed.
Lemma add_fuel iadd fuel st c : (forall d, In d (data st) -> no_input d) -> no_input c -> (1 <= fuel)%nat ->
  snd (add (V := V) (Rh := list V) iadd fuel st c) <> NoFuel.
Proof.
  intros H [H1 H2] Fu. unfold add. destruct (c_out c) as [|o [|]]; try discriminate. destruct (c_outv c) as [|ov [|]]; try discriminate.
  rewrite H1, H2. cbn [existsb]. destruct (existsb bad_cmp _); [discriminate|]. destruct (negb _); [discriminate|].
  destruct (existsb _ _); [discriminate|].
  change (append []) with (@nil Z). replace (loop_check fuel (nq st) (data st) (argF st) o []) with (Val true) by (destruct fuel; reflexivity).
  destruct (negb _); [discriminate|].
  assert (G : forall d, In d (data st ++ [c]) -> no_input d).
  { intros d Hd. apply in_app_or in Hd as [Hd|[<-|[]]]; [auto|split; auto]. }
  pose proof (order_all_fuel iadd (nv st) (data st ++ [c]) (fill (derF st) ov (Z.of_nat (length (data st)))) fuel
    (seq 0 (length (data st ++ [c]))) (mkdfs [] (fun _ => false) (fun _ _ => 0)) G Fu) as N.
  cbv zeta.
  repeat match goal with |- context [match ?x with _ => _ end] => destruct x eqn:?; try discriminate end. contradiction.
Qed.

Notation mk := (fun p : nat * list V => lk_con (lw (fst p) (snd p))).
Notation rh := (fun p : nat * list V => repeat zero (Z.to_nat (size_v l (fst p)))).

Lemma adds_locks iadd fuel (locks : list (nat * list V)) : (1 <= fuel)%nat ->
  forall st done, reach iadd is_lock (dev_q l e) (dev_v l e) st -> data st = map mk done -> rhsl st = map rh done ->
  NoDup (map fst (done ++ locks)) -> (forall k v, In (k, v) (done ++ locks) -> (k < length l)%nat) ->
  exists st', adds iadd fuel st (map mk locks) = (st', map Added (seq (length done) (length locks))) /\
    reach iadd is_lock (dev_q l e) (dev_v l e) st' /\ data st' = map mk (done ++ locks) /\ rhsl st' = map rh (done ++ locks).
Proof.
  intros Fu. induction locks as [|(k, v) t IH]; intros st done HR HD HH ND HK.
  - exists st. rewrite app_nil_r. cbn. auto.
  - cbn [map adds].
    assert (K : (k < length l)%nat) by (apply (HK k v), in_or_app; right; now left).
    assert (Pc : is_lock (mk (k, v))) by (exists k, v; auto).
    destruct (add iadd fuel st (mk (k, v))) as [st1 r] eqn:E.
    destruct (add_any_fuel iadd is_lock _ _ lock_family st st1 _ fuel r HR Pc E) as (N & A & B & C & _).
    assert (Acc : acceptable (data st) (mk (k, v))).
    { split; [|split].
      - cbn. intros c Hc. left. now apply repeat_spec in Hc.
      - cbn. intros i Hi (c & Hc & Hi'). rewrite HD in Hc. apply in_map_iff in Hc as ((j, w) & <- & Hj). cbn in Hi'.
        apply one_covers in Hi. apply one_covers in Hi'.
        assert (J : (j < length l)%nat) by (apply (HK j w), in_or_app; now left).
        assert (j = k) by (apply (q_disjoint j k i); auto). subst j.
        rewrite map_app in ND. cbn in ND. apply NoDup_remove_2 in ND. apply ND, in_or_app. left. apply (in_map fst _ _ Hj).
      - intros i _ Hn. induction Hn as [i Hi|i j d Hn IHn Hd Hj Hi].
        + destruct Hi as (s & [] & _).
        + exact IHn. }
    assert (FN : r <> NoFuel).
    { intros ->. apply (add_fuel iadd fuel st (mk (k, v))); [|split; reflexivity|exact Fu|now rewrite E].
      intros d Hd. rewrite HD in Hd. apply in_map_iff in Hd as (p & <- & _). split; reflexivity. }
    destruct r as [i| | | |]; try contradiction; try (exfalso; apply C; auto; fail).
    destruct (A i eq_refl) as (-> & _ & HD1).
    assert (HR1 : reach iadd is_lock (dev_q l e) (dev_v l e) st1) by (eapply reach_add; eauto).
    assert (HH1 : rhsl st1 = map rh (done ++ [(k, v)])).
    { assert (X : rhsl st1 = rhsl st ++ [c_rhs0 (mk (k, v))]).
      { clear - E. unfold add in E. cbn [fst snd] in E.
        repeat match type of E with context [match ?x with _ => _ end] => destruct x eqn:?; try discriminate end;
        injection E as <-; reflexivity. }
      rewrite X, HH, map_app. reflexivity. }
    destruct (IH st1 (done ++ [(k, v)])) as (st' & E1 & E2 & E3 & E4); auto.
    + rewrite HD1, HD, map_app. reflexivity.
    + rewrite <- app_assoc. exact ND.
    + rewrite <- app_assoc. exact HK.
    + exists st'. rewrite E1. cbn [length seq map]. rewrite <- app_assoc in E3, E4. rewrite app_length in E1. cbn in E1.
      split; [|auto]. rewrite HD, map_length. f_equal. f_equal. rewrite app_length. cbn. now rewrite Nat.add_1_r.
Qed.

Lemma zseq_len a n : length (zseq a n) = n.
Proof. revert a. induction n as [|n IH]; intros a; cbn; [reflexivity|]. now rewrite IH. Qed.
Lemma combine_map_l {A B C} (f : A -> B) (a : list A) (b : list C) x y : In (x, y) (combine (map f a) b) -> exists z, In (z, y) (combine a b) /\ x = f z.
Proof.
  revert b. induction a as [|p t IH]; intros [|q u]; cbn; try contradiction. intros [H|H].
  - injection H as <- <-. exists p. auto.
  - destruct (IH u H) as (z & Hz & ->). exists z. auto.
Qed.
Lemma combine_map_r {A B C} (f : A -> B) (a : list A) (b : list C) z y : In (z, y) (combine a b) -> In (f z, y) (combine (map f a) b).
Proof.
  revert b. induction a as [|p t IH]; intros [|q u]; cbn; try contradiction. intros [H|H]; [injection H as <- <-; auto|auto].
Qed.

Lemma whole_spec iadd fuel (locks : list (nat * list V)) : (1 <= fuel)%nat ->
  NoDup (map fst locks) -> (forall k v, In (k, v) locks -> (k < length l)%nat) ->
  (forall k v r, In (k, v) locks -> length (integ k v r) = Z.to_nat (size_q l k)) ->
  exists st, adds iadd fuel (init (dev_q l e) (dev_v l e)) (map mk locks) = (st, map Added (seq 0 (length locks))) /\
  rhsl st = map rh locks /\
  (forall i, covers (notOutArgs st) i <-> 0 <= i < dev_q l e /\ forall k v, In (k, v) locks -> ~ rank_q l k <= i < rank_q l k + size_q l k) /\
  (forall i, covers (notOutDers st) i <-> 0 <= i < dev_v l e /\ forall k v, In (k, v) locks -> ~ rank_v l k <= i < rank_v l k + size_v l k) /\
  forall rl q, length rl = length locks -> exists q', solve (with_rhs st rl) q = Some q' /\
    (forall k v r, In ((k, v), r) (combine locks rl) -> map q' (zseq (rank_q l k) (Z.to_nat (size_q l k))) = integ k v r) /\
    (forall i, (forall k v, In (k, v) locks -> ~ rank_q l k <= i < rank_q l k + size_q l k) -> q' i = q i).
Proof.
  intros Fu ND HK HS.
  destruct (adds_locks iadd fuel locks Fu (init (dev_q l e) (dev_v l e)) []) as (st & E & R & D & H); auto; [constructor|].
  cbn [app length] in *. exists st. split; [exact E|]. split; [exact H|].
  destruct (index_sets iadd is_lock _ _ lock_family st R) as (_ & I1 & _ & _ & I2 & _ & _).
  assert (O : forall i, output (data st) i <-> exists k v, In (k, v) locks /\ rank_q l k <= i < rank_q l k + size_q l k).
  { intros i. unfold output. rewrite D. split.
    - intros (c & Hc & Hi). apply in_map_iff in Hc as ((k, v) & <- & Hk). cbn in Hi. apply one_covers in Hi. eauto.
    - intros (k & v & Hk & Hi). exists (mk (k, v)). split; [exact (in_map mk _ _ Hk)|]. cbn. now apply one_covers. }
  assert (Ov : forall i, outputv (data st) i <-> exists k v, In (k, v) locks /\ rank_v l k <= i < rank_v l k + size_v l k).
  { intros i. unfold outputv. rewrite D. split.
    - intros (c & Hc & Hi). apply in_map_iff in Hc as ((k, v) & <- & Hk). cbn in Hi. apply one_covers in Hi. eauto.
    - intros (k & v & Hk & Hi). exists (mk (k, v)). split; [exact (in_map mk _ _ Hk)|]. cbn. now apply one_covers. }
  split; [|split].
  - intros i. rewrite I1, O. split; intros [A B]; (split; [exact A|]).
    + intros k v Hk Hi. apply B. eauto.
    + intros (k & v & Hk & Hi). exact (B k v Hk Hi).
  - intros i. rewrite I2, Ov. split; intros [A B]; (split; [exact A|]).
    + intros k v Hk Hi. apply B. eauto.
    + intros (k & v & Hk & Hi). exact (B k v Hk Hi).
  - intros rl q Hl. destruct (solve_spec iadd is_lock _ _ lock_family st rl q R) as (q' & S & (S1 & S2) & _).
    + rewrite D, map_length. exact Hl.
    + intros c Hc. rewrite D in Hc. apply in_map_iff in Hc as ((k, v) & <- & Hk). intros r x _. cbn.
      rewrite (HS k v r Hk), app_nil_r. unfold seg_indices. cbn [fst snd]. now rewrite zseq_len.
    + exists q'. split; [exact S|]. split.
      * intros k v r Hk. apply (combine_map_r mk) in Hk. rewrite <- D in Hk. specialize (S1 _ _ Hk). unfold satisfies in S1. cbn in S1.
        rewrite app_nil_r in S1. exact S1.
      * intros i Hi. apply S2. intros (c & Hc & Hi'). apply in_map_iff in Hc as ((c', r) & <- & Hc). apply in_combine_l in Hc.
        rewrite D in Hc. apply in_map_iff in Hc as ((k, v) & E1 & Hk). cbn in E1. subst c'. cbn in Hi'. apply one_covers in Hi'. exact (Hi k v Hk Hi').
Qed.
End L.

Lemma partial_spec (V : Type) (zero : V) vadd l k index value iadd fuel st :
  let c := lock_partial zero vadd l k index value in
  c_out (lk_con c) = [] /\ c_inv (lk_con c) = [(rank_q l k, size_q l k - index)] /\ c_outv (lk_con c) = [(rank_v l k, size_v l k - index)] /\
  rank_in_configuration c = None /\ (value <> [] -> lk_asserts c = false) /\ add iadd fuel st (lk_con c) = (st, Undef).
Proof. repeat split. intros H. unfold lock_partial, explicit_new. cbn. destruct value; [contradiction|]. reflexivity. Qed.
Lemma extra_spec (V : Type) (zero : V) vadd l e index value iadd fuel st :
  let c := lock_extra zero vadd l e index value in
  c_out (lk_con c) = [] /\ c_inv (lk_con c) = [(total fst l + index, Z.of_nat (length value))] /\
  c_outv (lk_con c) = [(total snd l + index, Z.of_nat (length value))] /\
  rank_in_configuration c = None /\ (value <> [] -> lk_asserts c = false) /\ add iadd fuel st (lk_con c) = (st, Undef).
Proof.
  repeat split.
  - cbn. unfold dev_q. repeat f_equal. lia.
  - cbn. unfold dev_v. repeat f_equal. lia.
  - intros H. unfold lock_extra, explicit_new. cbn. destruct value; [contradiction|]. reflexivity.
Qed.

Lemma ranks (V : Type) (zero : V) integ vadd l k e index value :
  rank_in_configuration (lock_whole zero integ l k value) = Some (rank_q l k) /\
  rank_in_velocity (lock_whole zero integ l k value) = Some (rank_v l k) /\
  rank_in_velocity (lock_partial zero vadd l k index value) = Some (rank_v l k) /\
  rank_in_velocity (lock_extra zero vadd l e index value) = Some (total snd l + index).
Proof. repeat split. unfold rank_in_velocity, lock_extra, dev_v. cbn. f_equal. lia. Qed.
