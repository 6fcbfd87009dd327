From Coq Require Import ZArith List Bool Arith Lia ZifyBool.
From Verif Require Import SegModel SegSpec SegProofs TreeModel TreeSpec.
Import ListNotations.
Open Scope Z_scope.

Section T.
Variable par : nat -> nat.
Hypothesis TR : tree par.

Lemma anc_le i a : anc par i a -> (a <= i)%nat.
Proof. induction 1 as [|i a H _ IH]; [lia|]. specialize (TR i H). lia. Qed.
Lemma anc_iff i a : (0 < i)%nat -> (anc par i a <-> a = i \/ anc par (par i) a).
Proof. intros H. split; [inversion 1; subst; auto|]. intros [->|X]; [constructor|]. now constructor. Qed.
Lemma anc_zero a : anc par 0 a <-> a = 0%nat.
Proof. split; [intros H; apply anc_le in H; lia|]. intros ->. constructor. Qed.
Lemma anc_dec i a : anc par i a \/ ~ anc par i a.
Proof.
  induction i as [i IH] using lt_wf_ind. destruct (Nat.eq_dec i a) as [->|N]; [left; constructor|].
  destruct (Nat.eq_dec i 0) as [->|Z]; [right; rewrite anc_zero; congruence|].
  destruct (IH (par i)) as [H|H]; [apply TR; lia|left; constructor; [lia|exact H]|right].
  rewrite anc_iff by lia. intros [E|E]; [congruence|auto].
Qed.

Section S.
Variable seg : nat -> Z * Z.
Lemma in_joint_iff i v : in_joint seg i v = true <-> of_joint seg i v.
Proof. unfold in_joint, of_joint, send. lia. Qed.

Lemma raise_iff i f v : raise_ seg i f v = true <-> of_joint seg i v \/ f v = true.
Proof. unfold raise_. destruct (in_joint seg i v) eqn:E; [apply in_joint_iff in E; tauto|]. split; [auto|]. intros [H|H]; [|exact H]. apply in_joint_iff in H. congruence. Qed.

Lemma set_active_spec fuel : forall i1 i2 f, (i1 + i2 <= fuel)%nat ->
  exists f', set_active par seg fuel i1 i2 f = Some f' /\ forall v, f' v = true <-> f v = true \/ on_path par seg i1 i2 v.
Proof.
  induction fuel as [|n IH]; intros i1 i2 f H; cbn [set_active]; destruct (Nat.eqb_spec i1 i2) as [->|N].
  - exists f. split; [reflexivity|]. intros v. unfold on_path. split; [auto|]. intros [X|(a & _ & _ & [[]|[]])]; tauto.
  - lia.
  - exists f. split; [reflexivity|]. intros v. unfold on_path. split; [auto|]. intros [X|(a & _ & _ & [[]|[]])]; tauto.
  - destruct (Nat.ltb_spec i2 i1) as [L|L].
    + assert (P1 : (0 < i1)%nat) by lia. pose proof (TR i1 P1). apply Nat.ltb_lt in P1 as P2. rewrite P2.
      destruct (IH (par i1) i2 (raise_ seg i1 f)) as (f' & E & F); [lia|]. exists f'. split; [exact E|]. intros v.
      rewrite F, raise_iff. unfold on_path.
      assert (N1 : ~ anc par i2 i1) by (intros X; apply anc_le in X; lia).
      assert (N2 : ~ anc par (par i1) i1) by (intros X; apply anc_le in X; lia).
      split.
      * intros [[X|X]|(a & A & B & C)]; [right|auto|right].
        -- exists i1. split; [exact P1|]. split; [exact X|]. left. split; [constructor|exact N1].
        -- exists a. split; [exact A|]. split; [exact B|]. rewrite (anc_iff i1 a P1).
           assert (a = i1 -> False) by (intros ->; tauto). tauto.
      * intros [X|(a & A & B & C)]; [auto|]. rewrite (anc_iff i1 a P1) in C.
        destruct (Nat.eq_dec a i1) as [->|Na]; [auto|]. right. exists a. tauto.
    + assert (P1 : (0 < i2)%nat) by lia. pose proof (TR i2 P1). apply Nat.ltb_lt in P1 as P2. rewrite P2.
      destruct (IH i1 (par i2) (raise_ seg i2 f)) as (f' & E & F); [lia|]. exists f'. split; [exact E|]. intros v.
      rewrite F, raise_iff. unfold on_path.
      assert (N1 : ~ anc par i1 i2) by (intros X; apply anc_le in X; lia).
      assert (N2 : ~ anc par (par i2) i2) by (intros X; apply anc_le in X; lia).
      split.
      * intros [[X|X]|(a & A & B & C)]; [right|auto|right].
        -- exists i2. split; [exact P1|]. split; [exact X|]. right. split; [exact N1|constructor].
        -- exists a. split; [exact A|]. split; [exact B|]. rewrite (anc_iff i2 a P1).
           assert (a = i2 -> False) by (intros ->; tauto). tauto.
      * intros [X|(a & A & B & C)]; [auto|]. rewrite (anc_iff i2 a P1) in C.
        destruct (Nat.eq_dec a i2) as [->|Na]; [auto|]. right. exists a. tauto.
Qed.

Hypothesis DJ : disjoint seg.
Definition up (i : nat) (v : Z) : Prop := exists a, (0 < a)%nat /\ of_joint seg a v /\ anc par i a.
Lemma up_dec i v : up i v \/ ~ up i v.
Proof.
  induction i as [i IH] using lt_wf_ind. destruct (Nat.eq_dec i 0) as [->|Z].
  - right. intros (a & A & _ & B). apply anc_zero in B. lia.
  - destruct (in_joint seg i v) eqn:E.
    + left. exists i. split; [lia|]. split; [now apply in_joint_iff|constructor].
    + destruct (IH (par i)) as [(a & A & B & C)|H]; [apply TR; lia| |].
      { left. exists a. split; [exact A|]. split; [exact B|]. constructor; [lia|exact C]. }
      right.
      intros (a & A & B & C). rewrite anc_iff in C by lia. destruct C as [->|C]; [apply in_joint_iff in B; congruence|]. apply H. exists a. auto.
Qed.

Lemma climb_spec fuel : forall i f, (i <= fuel)%nat ->
  exists f', climb par seg fuel i f = Some f' /\ forall v, (up i v -> f' v = negb (f v)) /\ (~ up i v -> f' v = f v).
Proof.
  induction fuel as [|n IH]; intros i f H; cbn; destruct (Nat.eqb_spec i 0) as [->|N].
  - exists f. split; [reflexivity|]. intros v. split; [|auto]. intros (a & A & _ & B). apply anc_zero in B. lia.
  - lia.
  - exists f. split; [reflexivity|]. intros v. split; [|auto]. intros (a & A & _ & B). apply anc_zero in B. lia.
  - assert (P : (0 < i)%nat) by lia. pose proof (TR i P). destruct (IH (par i) (invert seg i f)) as (f' & E & F); [lia|].
    exists f'. split; [exact E|]. intros v. destruct (F v) as [F1 F2]. unfold invert in F1, F2.
    assert (NP : in_joint seg i v = true -> ~ up (par i) v).
    { intros X (a & A & B & C). apply in_joint_iff in X. assert (a = i) by (eapply DJ; eauto). subst a. apply anc_le in C. lia. }
    assert (U : up i v <-> in_joint seg i v = true \/ up (par i) v).
    { split.
      - intros (a & A & B & C). rewrite anc_iff in C by lia. destruct C as [->|C]; [left; now apply in_joint_iff|right; exists a; auto].
      - intros [X|(a & A & B & C)]; [exists i; split; [lia|]; split; [now apply in_joint_iff|constructor]|].
        exists a. split; [exact A|]. split; [exact B|]. constructor; auto. }
    destruct (in_joint seg i v) eqn:X.
    + specialize (NP eq_refl). rewrite (F2 NP). split; [reflexivity|]. intros Y. exfalso. apply Y, U. now left.
    + split; intros Y.
      * apply F1. apply U in Y as [Y|Y]; [discriminate|exact Y].
      * apply F2. intros W. apply Y, U. now right.
Qed.

Lemma on_path_up i j v : on_path par seg i j v <-> up i v /\ ~ up j v \/ ~ up i v /\ up j v.
Proof.
  split.
  - intros (a & A & B & [[C D]|[C D]]); [left|right]; split; try (exists a; auto; fail);
      intros (b & A' & B' & C'); assert (b = a) by (eapply DJ; eauto); subst b; auto.
  - intros [[(a & A & B & C) D]|[D (a & A & B & C)]]; exists a; (split; [exact A|]); (split; [exact B|]); [left|right]; split; auto; intros X; apply D; exists a; auto.
Qed.

Lemma rel_pose_spec fuel i1 i2 : (i1 <= fuel)%nat -> (i2 <= fuel)%nat -> (0 < i2)%nat ->
  exists f, rel_pose_vars par seg fuel i1 i2 = Some f /\ forall v, f v = true <-> on_path par seg i1 (par i2) v.
Proof.
  intros H1 H2 P. unfold rel_pose_vars. destruct (climb_spec fuel i1 (fun _ => false) H1) as (f & E & F). rewrite E.
  pose proof (TR i2 P). destruct (climb_spec fuel (par i2) f) as (f' & E' & F'); [lia|]. exists f'. split; [exact E'|]. intros v.
  rewrite on_path_up. destruct (F v) as [A B], (F' v) as [A' B'].
  destruct (up_dec i1 v) as [U|U], (up_dec (par i2) v) as [U'|U'].
  - rewrite (A' U'), (A U). cbn. split; [discriminate|tauto].
  - rewrite (B' U'), (A U). cbn. tauto.
  - rewrite (A' U'), (B U). cbn. tauto.
  - rewrite (B' U'), (B U). split; [discriminate|tauto].
Qed.

(** path to a joint and to its parent *)
Lemma path_parent i j v : (0 < j)%nat -> ~ anc par i j -> (on_path par seg i j v <-> on_path par seg i (par j) v \/ of_joint seg j v).
Proof.
  intros P N. rewrite !on_path_up.
  assert (Uj : up j v <-> of_joint seg j v \/ up (par j) v).
  { split.
    - intros (a & A & B & C). rewrite anc_iff in C by lia. destruct C as [->|C]; [auto|right; exists a; auto].
    - intros [X|(a & A & B & C)]; [exists j; split; [exact P|]; split; [exact X|constructor]|]. exists a. split; [exact A|]. split; [exact B|]. constructor; auto. }
  assert (Ni : of_joint seg j v -> ~ up i v).
  { intros X (a & A & B & C). assert (a = j) by (eapply DJ; eauto). subst a. auto. }
  assert (Np : of_joint seg j v -> ~ up (par j) v).
  { intros X (a & A & B & C). assert (a = j) by (eapply DJ; eauto). subst a. apply anc_le in C. specialize (TR j P). lia. }
  rewrite Uj. destruct (up_dec i v), (up_dec (par j) v), (in_joint seg j v) eqn:E; try apply in_joint_iff in E; try tauto;
    assert (~ of_joint seg j v) by (intros X; apply in_joint_iff in X; congruence); tauto.
Qed.

Lemma contact_vars_spec fuel obj floors : (0 < obj)%nat -> (obj <= fuel)%nat -> (forall j, In j floors -> (j <= fuel)%nat) -> forall res,
  exists f, contact_vars par seg fuel floors obj res = Some f /\
    forall v, f v = true <-> res v = true \/ exists j, In j floors /\ on_path par seg j (par obj) v.
Proof.
  intros P Ho. induction floors as [|j t IH]; intros Hf res; cbn.
  - exists res. split; [reflexivity|]. intros v. split; [auto|]. intros [X|(j & [] & _)]; exact X.
  - destruct (rel_pose_spec fuel j obj) as (c & E & C); auto; [apply Hf; now left|]. rewrite E.
    destruct (IH (fun k Hk => Hf k (or_intror Hk)) (fun v => if c v then true else res v)) as (f & E' & F). exists f. split; [exact E'|].
    intros v. rewrite F. specialize (C v). destruct (c v).
    + split; [|auto]. intros _. right. exists j. split; [now left|]. now apply C.
    + split.
      * intros [X|(k & K & X)]; [auto|]. right. exists k. split; [now right|exact X].
      * intros [X|(k & [<-|K] & X)]; [auto|apply C in X; discriminate|]. right. exists k. auto.
Qed.

End S.

Lemma add_object_spec seg fuel floors : forall o f, (forall j, In j floors -> (j + o <= fuel)%nat) ->
  exists f', add_object par seg fuel floors o f = Some f' /\ forall v, f' v = true <-> f v = true \/ exists j, In j floors /\ on_path par seg j o v.
Proof.
  induction floors as [|j t IH]; intros o f H; cbn.
  - exists f. split; [reflexivity|]. intros v. split; [auto|]. intros [X|(j & [] & _)]; exact X.
  - destruct (set_active_spec seg fuel j o f) as (f1 & E & F); [apply H; now left|]. rewrite E.
    destruct (IH o f1 (fun k Hk => H k (or_intror Hk))) as (f2 & E2 & F2). exists f2. split; [exact E2|]. intros v. rewrite F2, F. split.
    + intros [[X|X]|(k & K & X)]; [auto| |]; right; [exists j; split; [now left|exact X]|exists k; split; [now right|exact X]].
    + intros [X|(k & [<-|K] & X)]; [auto|auto|]. right. exists k. auto.
Qed.
Lemma contact_active_spec seg fuel floors objects : (forall j o, In j floors -> In o objects -> (j + o <= fuel)%nat) -> forall f,
  exists f', contact_active par seg fuel floors objects f = Some f' /\
    forall v, f' v = true <-> f v = true \/ exists j o, In j floors /\ In o objects /\ on_path par seg j o v.
Proof.
  induction objects as [|o t IH]; intros H f; cbn.
  - exists f. split; [reflexivity|]. intros v. split; [auto|]. intros [X|(j & o & _ & [] & _)]; exact X.
  - destruct (add_object_spec seg fuel floors o f) as (f1 & E & F); [intros j Hj; apply H; auto; now left|]. rewrite E.
    destruct (IH (fun j k Hj Hk => H j k Hj (or_intror Hk)) f1) as (f2 & E2 & F2). exists f2. split; [exact E2|]. intros v. rewrite F2, F. split.
    + intros [[X|(j & J & X)]|(j & k & J & K & X)]; [auto| |]; right; [exists j, o|exists j, k]; (split; [exact J|]); split; try exact X; [now left|now right].
    + intros [X|(j & k & J & [<-|K] & X)]; [auto|left; right; exists j; split; [exact J|exact X]|]. right. exists j, k. split; [exact J|]. split; [exact K|exact X].
Qed.

(** Relative poses only depend on the variables on the path. *)
Section Pose.
Context {V G : Type}.
Variables (mul : G -> G -> G) (inv : G -> G) (one : G).
Hypothesis mulA : forall a b c, mul a (mul b c) = mul (mul a b) c.
Hypothesis mul1 : forall a, mul one a = a.
Hypothesis mulV : forall a, mul (inv a) a = one.
Variable seg : nat -> Z * Z.
Variable jm : nat -> (Z -> V) -> G.
Hypothesis local : forall i q q', (0 < i)%nat -> (forall v, of_joint seg i v -> q v = q' v) -> jm i q = jm i q'.
Variable oM : nat -> (Z -> V) -> G.
Hypothesis step : forall i q, (0 < i)%nat -> oM i q = mul (oM (par i) q) (jm i q).

Lemma mulVr a : mul a (inv a) = one.
Proof.
  rewrite <- (mul1 (mul a (inv a))), <- (mulV (inv a)) at 1. rewrite <- mulA, (mulA (inv a) a), mulV, mul1. apply mulV.
Qed.
Lemma mulr1 a : mul a one = a.
Proof. rewrite <- (mulV a), mulA, mulVr. apply mul1. Qed.
Lemma inv_mul a b : inv (mul a b) = mul (inv b) (inv a).
Proof.
  assert (E : mul (mul (inv b) (inv a)) (mul a b) = one) by now rewrite <- mulA, (mulA (inv a)), mulV, mul1.
  rewrite <- (mul1 (inv (mul a b))), <- E, <- mulA, mulVr. apply mulr1.
Qed.

Notation rel := (fun i j q => mul (inv (oM i q)) (oM j q)).

(** between two joints, one step at a time *)
Lemma rel_step_l i j q : (0 < i)%nat -> rel i j q = mul (inv (jm i q)) (rel (par i) j q).
Proof. intros H. cbn. rewrite (step i q H), inv_mul, mulA. reflexivity. Qed.
Lemma rel_step_r i j q : (0 < j)%nat -> rel i j q = mul (rel i (par j) q) (jm j q).
Proof. intros H. cbn. rewrite (step j q H), mulA. reflexivity. Qed.

Lemma rel_depends n : forall i j q q', (i + j <= n)%nat ->
  (forall v, on_path par seg i j v -> q v = q' v) -> rel i j q = rel i j q'.
Proof.
  induction n as [|n IH]; intros i j q q' L H; destruct (Nat.eq_dec i j) as [->|N].
  - cbn. now rewrite !mulV.
  - lia.
  - cbn. now rewrite !mulV.
  - destruct (Nat.lt_ge_cases j i) as [C|C].
    + assert (P : (0 < i)%nat) by lia. pose proof (TR i P). rewrite !(rel_step_l i j) by exact P.
      assert (N1 : ~ anc par j i) by (intros X; apply anc_le in X; lia).
      assert (N2 : ~ anc par (par i) i) by (intros X; apply anc_le in X; lia).
      rewrite (local i q q' P); [|intros v Hv; apply H; exists i; split; [exact P|]; split; [exact Hv|]; left; split; [constructor|exact N1]].
      f_equal. apply IH; [lia|]. intros v (a & A & B & D). apply H. exists a. split; [exact A|]. split; [exact B|]. rewrite (anc_iff i a P).
      assert (a <> i) by (intros ->; tauto). tauto.
    + assert (P : (0 < j)%nat) by lia. pose proof (TR j P). rewrite !(rel_step_r i j) by exact P.
      assert (N1 : ~ anc par i j) by (intros X; apply anc_le in X; lia).
      assert (N2 : ~ anc par (par j) j) by (intros X; apply anc_le in X; lia).
      rewrite (local j q q' P); [|intros v Hv; apply H; exists j; split; [exact P|]; split; [exact Hv|]; right; split; [exact N1|constructor]].
      f_equal. apply IH; [lia|]. intros v (a & A & B & D). apply H. exists a. split; [exact A|]. split; [exact B|]. rewrite (anc_iff j a P).
      assert (a <> j) by (intros ->; tauto). tauto.
Qed.
End Pose.
End T.

Lemma to_intervals_spec n f : 0 <= n ->
  (forall i, covers (to_intervals n f) i <-> 0 <= i < n /\ f i = true) /\ sorted_separated (to_intervals n f) /\ positive (to_intervals n f).
Proof.
  intros H. unfold to_intervals. destruct (from_logical_spec (map (fun k => f (Z.of_nat k)) (seq 0 (Z.to_nat n)))) as (A & B & C).
  split; [|auto]. intros i. rewrite A. split.
  - intros [I E]. rewrite nth_error_map in E. destruct (nth_error (seq 0 (Z.to_nat n)) (Z.to_nat i)) as [k|] eqn:X; [|discriminate]. cbn in E.
    assert (L : (Z.to_nat i < Z.to_nat n)%nat) by (rewrite <- (seq_length (Z.to_nat n) 0); apply nth_error_Some; congruence).
    assert (k = Z.to_nat i).
    { apply (nth_error_nth _ _ 0%nat) in X. rewrite seq_nth in X by exact L. lia. }
    subst k. rewrite Z2Nat.id in E by lia. injection E as E. split; [lia|exact E].
  - intros [I E]. split; [lia|]. rewrite nth_error_map.
    assert (L : (Z.to_nat i < Z.to_nat n)%nat) by lia.
    rewrite (nth_error_nth' _ 0%nat) by (rewrite seq_length; exact L). rewrite seq_nth by exact L. cbn. rewrite Z2Nat.id by lia. now rewrite E.
Qed.

Lemma active_spec par seg i1 i2 f fuel : tree par -> (i1 + i2 <= fuel)%nat ->
  exists f', set_active par seg fuel i1 i2 f = Some f' /\
    forall v, f' v = true <-> f v = true \/ on_path par seg i1 i2 v.
Proof. intros T H. now apply set_active_spec. Qed.
Lemma rel_pose_inputs par seg i1 i2 fuel : tree par -> disjoint seg ->
  (i1 <= fuel)%nat -> (i2 <= fuel)%nat -> (0 < i2)%nat ->
  exists f, rel_pose_vars par seg fuel i1 i2 = Some f /\ forall v, f v = true <-> on_path par seg i1 (par i2) v.
Proof. intros. now apply rel_pose_spec. Qed.
Lemma not_true b : ~ b = true -> b = false.
Proof. destruct b; congruence. Qed.
Lemma two_algorithms par seg i1 i2 fuel : tree par -> disjoint seg ->
  (i1 + i2 <= fuel)%nat -> (0 < i2)%nat -> ~ anc par i1 i2 ->
  exists f g, set_active par seg fuel i1 i2 (fun _ => false) = Some f /\ rel_pose_vars par seg fuel i1 i2 = Some g /\
    (forall v, f v = true <-> g v = true \/ of_joint seg i2 v) /\
    (forall v, of_joint seg i2 v -> g v = false).
Proof.
  intros T D L P N. destruct (set_active_spec par T seg fuel i1 i2 (fun _ => false) L) as (f & E & F).
  destruct (rel_pose_spec par T seg D fuel i1 i2) as (g & E' & G'); [lia|lia|exact P|]. exists f, g.
  split; [exact E|]. split; [exact E'|]. split.
  - intros v. rewrite F, G', (path_parent par T seg D i1 i2 v P N). intuition discriminate.
  - intros v H. apply not_true. rewrite G'. intros (a & A & B & C). assert (a = i2) by (eapply D; eauto). subst a.
    destruct C as [[C _]|[_ C]]; [auto|]. apply (anc_le par T) in C. specialize (T i2 P). lia.
Qed.
Lemma output_in_inputs par seg i1 i2 fuel : tree par -> disjoint seg ->
  (i1 <= fuel)%nat -> (i2 <= fuel)%nat -> (0 < i2)%nat -> anc par i1 i2 ->
  exists g, rel_pose_vars par seg fuel i1 i2 = Some g /\ forall v, of_joint seg i2 v -> g v = true.
Proof.
  intros T D L1 L2 P A. destruct (rel_pose_spec par T seg D fuel i1 i2 L1 L2 P) as (g & E & G'). exists g. split; [exact E|].
  intros v H. apply G'. exists i2. split; [exact P|]. split; [exact H|]. left. split; [exact A|].
  intros C. apply (anc_le par T) in C. specialize (T i2 P). lia.
Qed.
Lemma independent (V G : Type) (mul : G -> G -> G) (inv : G -> G) (one : G) :
  (forall a b c, mul a (mul b c) = mul (mul a b) c) -> (forall a, mul one a = a) -> (forall a, mul (inv a) a = one) ->
  forall par seg (jm oM : nat -> (Z -> V) -> G), tree par ->
  (forall i q q', (0 < i)%nat -> (forall v, of_joint seg i v -> q v = q' v) -> jm i q = jm i q') ->
  (forall i q, (0 < i)%nat -> oM i q = mul (oM (par i) q) (jm i q)) ->
  forall i j q q' fuel f, (i + j <= fuel)%nat ->
  set_active par seg fuel i j (fun _ => false) = Some f ->
  (forall v, f v = true -> q v = q' v) ->
  mul (inv (oM i q)) (oM j q) = mul (inv (oM i q')) (oM j q').
Proof.
  intros A1 A2 A3 par seg jm oM T Lo St i j q q' fuel f L E H.
  destruct (set_active_spec par T seg fuel i j (fun _ => false) L) as (f' & E' & F). rewrite E in E'. injection E' as <-.
  apply (rel_depends par T mul inv one A1 A2 A3 seg jm Lo oM St (i + j) i j q q'); [lia|]. intros v Hv. apply H, F. now right.
Qed.
Lemma on_path_sym par seg i j v : on_path par seg i j v -> on_path par seg j i v.
Proof. intros (a & A & B & C). exists a. tauto. Qed.
Lemma inputs_suffice (V G : Type) (mul : G -> G -> G) (inv : G -> G) (one : G) :
  (forall a b c, mul a (mul b c) = mul (mul a b) c) -> (forall a, mul one a = a) -> (forall a, mul (inv a) a = one) ->
  forall par seg (jm oM : nat -> (Z -> V) -> G), tree par -> disjoint seg ->
  (forall i q q', (0 < i)%nat -> (forall v, of_joint seg i v -> q v = q' v) -> jm i q = jm i q') ->
  (forall i q, (0 < i)%nat -> oM i q = mul (oM (par i) q) (jm i q)) ->
  forall i j q q' fuel g, (i <= fuel)%nat -> (j <= fuel)%nat -> (0 < j)%nat ->
  rel_pose_vars par seg fuel i j = Some g ->
  (forall v, g v = true -> q v = q' v) ->
  mul (inv (oM (par j) q)) (oM i q) = mul (inv (oM (par j) q')) (oM i q').
Proof.
  intros A1 A2 A3 par seg jm oM T D Lo St i j q q' fuel f L1 L2 P E H.
  destruct (rel_pose_spec par T seg D fuel i j L1 L2 P) as (f' & E' & F). rewrite E in E'. injection E' as <-.
  apply (rel_depends par T mul inv one A1 A2 A3 seg jm Lo oM St (par j + i) (par j) i q q'); [lia|].
  intros v Hv. apply H, F. now apply on_path_sym.
Qed.
Lemma contact_active_set par seg floors objects fuel : tree par ->
  (forall j o, In j floors -> In o objects -> (j + o <= fuel)%nat) ->
  exists f, contact_active par seg fuel floors objects (fun _ => false) = Some f /\
    forall v, f v = true <-> exists j o, In j floors /\ In o objects /\ on_path par seg j o v.
Proof.
  intros T H. destruct (contact_active_spec par T seg fuel floors objects H (fun _ => false)) as (f & E & F).
  exists f. split; [exact E|]. intros v. rewrite F. intuition discriminate.
Qed.
Lemma contact_inputs par seg floors objects o fuel : tree par -> disjoint seg ->
  (forall j, In j floors -> (j + o <= fuel)%nat) -> (0 < o <= fuel)%nat ->
  objects <> [] -> (forall o', In o' objects -> o' = o) -> floors <> [] -> (forall j, In j floors -> ~ anc par j o) ->
  exists f g, contact_active par seg fuel floors objects (fun _ => false) = Some f /\
    contact_vars par seg fuel floors o (fun _ => false) = Some g /\
    (forall v, g v = true <-> exists j, In j floors /\ on_path par seg j (par o) v) /\
    (forall v, f v = true <-> g v = true \/ of_joint seg o v).
Proof.
  intros T D Hf Ho NO HO NF HF.
  destruct (contact_active_set par seg floors objects fuel T) as (f & E & F).
  { intros j o' Hj Ho'. rewrite (HO o' Ho'). auto. }
  destruct (contact_vars_spec par T seg D fuel o floors) with (res := fun _ : Z => false) as (g & E' & G'); [lia|lia|intros j Hj; specialize (Hf j Hj); lia|].
  assert (GG : forall v, g v = true <-> exists j, In j floors /\ on_path par seg j (par o) v) by (intros v; rewrite G'; intuition discriminate).
  exists f, g. split; [exact E|]. split; [exact E'|]. split; [exact GG|]. intros v. rewrite F, GG. split.
  - intros (j & o' & Hj & Ho' & X). rewrite (HO o' Ho') in X. apply (path_parent par T seg D j o v) in X as [X|X]; [left; exists j; auto|auto|lia|auto].
  - destruct objects as [|o' objects]; [congruence|]. pose proof (HO o' (or_introl eq_refl)) as ->. intros [(j & Hj & X)|X].
    + exists j, o. split; [exact Hj|]. split; [now left|]. apply (path_parent par T seg D j o v); [lia|auto|now left].
    + destruct floors as [|j floors]; [congruence|]. exists j, o. split; [now left|]. split; [now left|].
      apply (path_parent par T seg D j o v); [lia|apply HF; now left|now right].
Qed.
