From Coq Require Import ZArith List Bool Lia.
From Verif Require Import EqModel.
Import ListNotations.

Section EqP.
Context {V : Type}.
Variable veq : V -> V -> bool.
Hypothesis VEQ : forall x y, veq x y = true <-> x = y.

Lemma leq_iff {B} (eq : B -> B -> bool) : (forall x y, eq x y = true <-> x = y) -> forall a b, leq eq a b = true <-> a = b.
Proof.
  intros E. induction a as [|x a IH]; intros [|y b]; cbn; try (split; congruence). rewrite andb_true_iff, E, IH. split; [intros [-> ->]; auto|intros H; injection H; auto].
Qed.
Lemma vleq_iff a b : vleq veq a b = true <-> a = b.
Proof. apply leq_iff. exact VEQ. Qed.
Lemma mleq_iff a b : mleq veq a b = true <-> a = b.
Proof. apply leq_iff. exact vleq_iff. Qed.
Lemma segeq_iff a b : segeq a b = true <-> a = b.
Proof. unfold segeq. rewrite andb_true_iff, !Z.eqb_eq. destruct a, b; cbn. split; [intros []; congruence|intros H; injection H; auto]. Qed.
Lemma sleq_iff a b : leq segeq a b = true <-> a = b.
Proof. apply leq_iff. exact segeq_iff. Qed.
Lemma bleq_iff a b : leq eqb a b = true <-> a = b.
Proof. apply leq_iff. apply eqb_true_iff. Qed.
Lemma base_eq_iff a b : base_eq a b = true <-> a = b.
Proof.
  unfold base_eq. rewrite !andb_true_iff, !Nat.eqb_eq, !Z.eqb_eq. destruct a, b; cbn. split; [intros [[[]]]; congruence|intros H; injection H; auto].
Qed.

Lemma sym_of {B} (eq : B -> B -> bool) : (forall x y, eq x y = true <-> x = y) -> forall a b, eq a b = eq b a.
Proof. intros E a b. apply eq_true_iff_eq. rewrite !E. split; auto. Qed.

Lemma floors_sym n : forall a b : list (list V), floors_eq veq n a b = floors_eq veq n b a.
Proof.
  induction n as [|n IH]; intros [|x a] [|y b]; cbn; auto. rewrite (sym_of (vleq veq) vleq_iff x y), IH. reflexivity.
Qed.

Lemma is_equal_sym_class f g : is_equal veq f g = is_equal veq g f \/
  (exists r t o, fk f = KExtracted r t o) \/ (exists r t o, fk g = KExtracted r t o).
Proof.
  pose proof (sym_of _ base_eq_iff (fb f) (fb g)) as EB.
  unfold is_equal. destruct (fk f), (fk g); auto; try (right; left; eauto; fail); try (right; right; eauto; fail); left; rewrite <- EB.
  - reflexivity.
  - now rewrite (sym_of _ mleq_iff J J0), (sym_of _ vleq_iff b b0).
  - now rewrite (sym_of _ vleq_iff c c0).
  - now rewrite (Nat.eqb_sym cls cls0), (Nat.eqb_sym robot robot0), (sym_of _ bleq_iff mask mask0).
  - rewrite (Nat.eqb_sym robot robot0), (Nat.eqb_sym (length objects)), floors_sym. destruct (Nat.eqb_spec (length objects0) (length objects)) as [->|]; [reflexivity|]. now rewrite !andb_false_r.
  - now rewrite (Nat.eqb_sym robot), (Nat.eqb_sym joint1), (Nat.eqb_sym joint2), (sym_of _ vleq_iff p1 p0), (sym_of _ vleq_iff p2 p3).
  - now rewrite (Nat.eqb_sym robot), (sym_of _ vleq_iff goal goal0), (sym_of _ vleq_iff weights weights0).
  - now rewrite (Nat.eqb_sym g0), (sym_of _ segeq_iff sa sa0), (sym_of _ segeq_iff sd sd0).
  - now rewrite (Nat.eqb_sym f0), (sym_of _ sleq_iff intervals intervals0).
  - now rewrite (Nat.eqb_sym f0), (Nat.eqb_sym robot), (sym_of _ sleq_iff cols cols0), (sym_of _ mleq_iff J J0), (sym_of _ mleq_iff JJT JJT0).
Qed.

Theorem fun_eq_sym f g : fun_eq veq f g = fun_eq veq g f.
Proof.
  destruct (is_equal_sym_class f g) as [E|[(r & t & o & E)|(r & t & o & E)]].
  - unfold fun_eq. rewrite E. reflexivity.
  - pose proof (sym_of _ base_eq_iff (fb f) (fb g)) as EB. unfold fun_eq, is_equal. rewrite E. destruct (fk g); rewrite <- ?EB; destruct (base_eq _ _); auto.
  - pose proof (sym_of _ base_eq_iff (fb f) (fb g)) as EB. unfold fun_eq, is_equal. rewrite E. destruct (fk f); rewrite <- ?EB; destruct (base_eq _ _); auto.
Qed.

Lemma floors_refl n : forall a : list (list V), floors_eq veq n a a = if Nat.leb n (length a) then B true else Undef.
Proof.
  induction n as [|n IH]; intros [|x a]; cbn; auto. rewrite (proj2 (vleq_iff x x) eq_refl). apply IH.
Qed.

Theorem fun_eq_refl f :
  fun_eq veq f f = match fk f with
                   | KConstant _ => B false
                   | KContact _ floors objects => if Nat.leb (length objects) (length floors) then B true else Undef
                   | _ => B true
                   end.
Proof.
  assert (RB : base_eq (fb f) (fb f) = true) by now apply base_eq_iff.
  assert (RV : forall a, vleq veq a a = true) by (intros; now apply vleq_iff).
  assert (RM : forall a, mleq veq a a = true) by (intros; now apply mleq_iff).
  assert (RS : forall a, segeq a a = true) by (intros; now apply segeq_iff).
  assert (RL : forall a, leq segeq a a = true) by (intros; now apply sleq_iff).
  assert (RK : forall a, leq eqb a a = true) by (intros; now apply bleq_iff).
  unfold fun_eq, is_equal. destruct (fk f); rewrite ?RB, ?RV, ?RM, ?RS, ?RL, ?RK, ?Nat.eqb_refl; cbn; auto.
  rewrite floors_refl. destruct (Nat.leb _ _); auto.
Qed.

(** kinds for which all members are compared *)
Definition compared (k : kind V) : Prop :=
  match k with KIdentity | KAffine _ _ | KPoints _ _ _ _ _ | KConfig _ _ _ | KSubset _ _ _ | KActiveSet _ _ | KManip _ _ _ _ _ => True | _ => False end.

Theorem fun_eq_sound f g : compared (fk f) -> fun_eq veq f g = B true -> f = g.
Proof.
  unfold fun_eq, is_equal. destruct f as [bf kf], g as [bg kg]. cbn. intros K.
  destruct kf, kg; try contradiction K; try discriminate;
  match goal with |- context [match ?c with B _ => _ | BadCast => _ | Undef => _ end = _] => idtac | _ => idtac end;
  intros H; repeat match type of H with context [if ?b then _ else _] => destruct b eqn:? end; try discriminate;
  repeat match goal with
  | H : _ && _ = true |- _ => apply andb_prop in H as [? ?]
  | H : base_eq _ _ = true |- _ => apply base_eq_iff in H
  | H : Nat.eqb _ _ = true |- _ => apply Nat.eqb_eq in H
  | H : vleq _ _ _ = true |- _ => apply vleq_iff in H
  | H : mleq _ _ _ = true |- _ => apply mleq_iff in H
  | H : segeq _ _ = true |- _ => apply segeq_iff in H
  | H : leq segeq _ _ = true |- _ => apply sleq_iff in H
  end; subst; auto.
Qed.

Theorem constant_eq b c b' c' : fun_eq veq (mkfun b (KConstant c)) (mkfun b' (KConstant c')) = B true <-> b = b' /\ c <> c'.
Proof.
  unfold fun_eq, is_equal. cbn. rewrite (sym_of _ base_eq_iff b' b), (sym_of _ vleq_iff c' c).
  destruct (base_eq b b') eqn:E1, (vleq veq c c') eqn:E2; cbn.
  - apply vleq_iff in E2. split; [discriminate|tauto].
  - apply base_eq_iff in E1. assert (c <> c') by (intros ->; rewrite (proj2 (vleq_iff c' c') eq_refl) in E2; discriminate). tauto.
  - split; [discriminate|]. intros [-> _]. rewrite (proj2 (base_eq_iff b' b') eq_refl) in E1. discriminate.
  - split; [discriminate|]. intros [-> _]. rewrite (proj2 (base_eq_iff b' b') eq_refl) in E1. discriminate.
Qed.

Theorem transform_eq b cl r j1 j2 F1 F2 m b' cl' r' j1' j2' F1' F2' m' :
  fun_eq veq (mkfun b (KTransform cl r j1 j2 F1 F2 m)) (mkfun b' (KTransform cl' r' j1' j2' F1' F2' m')) = B true <->
  b = b' /\ cl = cl' /\ r = r' /\ m = m'.
Proof.
  unfold fun_eq, is_equal. cbn. rewrite (sym_of _ base_eq_iff b' b), (Nat.eqb_sym cl' cl), (Nat.eqb_sym r' r), (sym_of _ bleq_iff m' m).
  rewrite <- (base_eq_iff b b'), <- (Nat.eqb_eq cl cl'), <- (Nat.eqb_eq r r'), <- (bleq_iff m m').
  destruct (Nat.eqb cl cl'), (base_eq b b'), (Nat.eqb r r'), (leq eqb m m'); cbn; intuition discriminate.
Qed.

Theorem contact_eq b r fl ob b' r' fl' ob' : length ob <= length fl -> length ob <= length fl' ->
  fun_eq veq (mkfun b (KContact r fl ob)) (mkfun b' (KContact r' fl' ob')) = B true <->
  b = b' /\ r = r' /\ length ob = length ob' /\ firstn (length ob) fl = firstn (length ob) fl'.
Proof.
  intros L L'.
  assert (FE : forall n (x y : list (list V)), n <= length x -> n <= length y -> exists t, floors_eq veq n x y = B t /\ (t = true <-> firstn n x = firstn n y)).
  { induction n as [|n IH]; intros [|u x] [|v y] H1 H2; cbn in *; try lia; try (exists true; split; [reflexivity|split; auto]).
    destruct (vleq veq u v) eqn:E.
    - apply vleq_iff in E. subst. destruct (IH x y) as (t & E & H); try lia. exists t. split; auto. rewrite H. split; [congruence|]. intros K. injection K. auto.
    - exists false. split; auto. split; [discriminate|]. intros K. injection K as -> _. rewrite (proj2 (vleq_iff v v) eq_refl) in E. discriminate. }
  unfold fun_eq, is_equal. cbn. rewrite (sym_of _ base_eq_iff b' b), (Nat.eqb_sym r' r), (Nat.eqb_sym (length ob') (length ob)), (floors_sym _ fl' fl).
  rewrite <- (base_eq_iff b b'), <- (Nat.eqb_eq r r').
  destruct (base_eq b b'), (Nat.eqb r r'); cbn; try (intuition discriminate).
  destruct (Nat.eqb_spec (length ob) (length ob')) as [E|N]; [|intuition discriminate]. rewrite <- E.
  destruct (FE (length ob) fl fl' L L') as (t & -> & Ht). destruct t; intuition discriminate.
Qed.

(** the history of evaluations enters the comparison of Manipulability *)
Theorem manip_eq b f r c J JJ b' f' r' c' J' JJ' :
  fun_eq veq (mkfun b (KManip f r c J JJ)) (mkfun b' (KManip f' r' c' J' JJ')) = B true ->
  J = J' /\ JJ = JJ'.
Proof. intros H. apply fun_eq_sound in H; [|exact I]. injection H. auto. Qed.
End EqP.
