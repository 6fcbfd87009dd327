(** Proofs about the resolution loops. *)
From Coq Require Import ZArith List Bool Lia.
From Verif Require Import SolveModel SolveSpec.
Import ListNotations.
Open Scope Z_scope.

Section HierLoop.
Context {Q D St V : Type}.
Variables (ltb : V -> V -> bool) (E : Q -> V).
Variables (descent : St -> Q -> D * St) (dnorm : D -> V) (dmin : V).
Variables (thr : V) (maxit : Z) (rdim : Z).
Variables (lsearch : St -> Q -> D -> Q * D * St) (inf : V).
Variable p : St * Q.

Local Notation it n := (iterate descent lsearch n p).
Local Notation dec n := (decreased ltb E descent lsearch inf p n).
Local Notation HL := (hloop ltb E descent dnorm dmin thr maxit lsearch).
Local Notation stop n := (stops ltb E descent lsearch dnorm dmin thr inf maxit p n).

(** number of successive iterations without decrease before iterate n *)
Fixpoint cnt (n : nat) : nat :=
  match n with O => O | S m => if dec m then O else S (cnt m) end.
Lemma cnt_le n : (cnt n <= n)%nat.
Proof. induction n; cbn; [lia|]. destruct (dec n); lia. Qed.
Lemma cnt_last n k : (n - cnt n <= k < n)%nat -> dec k = false.
Proof.
  revert k. induction n as [|n IH]; intros k H; [lia|]. cbn in H. destruct (dec n) eqn:Dn; [lia|].
  destruct (Nat.eq_dec k n) as [->|]; [exact Dn|]. pose proof (cnt_le n). apply IH. lia.
Qed.
Lemma cnt_ge n j : (j <= n)%nat -> (forall k, (n - j <= k < n)%nat -> dec k = false) -> (j <= cnt n)%nat.
Proof.
  revert j. induction n as [|n IH]; intros j Hj H; [lia|]. cbn. destruct j as [|j]; [lia|].
  rewrite (H n) by lia. apply le_n_S, IH; [lia|]. intros k Hk. apply H. lia.
Qed.
Lemma cnt_three n : (3 <= cnt n)%nat <-> three_increases ltb E descent lsearch inf p n.
Proof.
  unfold three_increases. split.
  - intros H. pose proof (cnt_le n). split; [lia|]. intros k Hk. apply (cnt_last n). lia.
  - intros [H1 H2]. apply cnt_ge; assumption.
Qed.

Definition visited (n : nat) : list Q := map (fun k => snd (it k)) (rev (seq 0 n)).
Lemma visited_S n : visited (S n) = snd (it n) :: visited n.
Proof. unfold visited. rewrite seq_S, rev_app_distr. reflexivity. Qed.

Definition hst (n : nat) : option status :=
  if forallb (fun k => dec k) (seq 0 n) then None else Some ERROR_INCREASED.
Lemma hst_S n : hst (S n) = if dec n then hst n else Some ERROR_INCREASED.
Proof.
  unfold hst. rewrite seq_S, forallb_app. cbn [forallb plus].
  destruct (forallb (fun k => dec k) (seq 0 n)); destruct (dec n); reflexivity.
Qed.

Lemma loop_spec n : forall fuel, (Z.to_nat (maxit - Z.of_nat n) <= fuel)%nat ->
  (cnt n <= 3)%nat ->
  exists m st, (n <= m)%nat /\
    HL fuel (fst (it n)) (snd (it n)) (visited n) (E (snd (it n))) (reference E descent lsearch inf p n)
       (3 - Z.of_nat (cnt n)) (Z.of_nat n) (hst n) = Some (st, snd (it m), visited m, E (snd (it m)), Z.of_nat m) /\
    stop m /\ (forall k, (n <= k < m)%nat -> ~ stop k) /\
    ((st = Some INFEASIBLE /\ above ltb E descent lsearch thr p m /\ small_step ltb descent lsearch dnorm dmin p m /\ Z.of_nat m < maxit /\
        ~ three_increases ltb E descent lsearch inf p m) \/
     (st = hst m /\ (~ above ltb E descent lsearch thr p m \/ three_increases ltb E descent lsearch inf p m \/ maxit <= Z.of_nat m))).
Proof.
  remember (Z.to_nat (maxit - Z.of_nat n)) as g eqn:Eg. revert n Eg.
  induction g as [|g IH]; intros n Eg fuel Hf Hc.
  - assert (Hm : maxit <= Z.of_nat n) by lia.
    exists n, (hst n). split; [lia|].
    assert (R : (ltb thr (E (snd (it n))) && negb (3 - Z.of_nat (cnt n) =? 0) && (Z.of_nat n <? maxit)) = false).
    { destruct (Z.ltb_spec (Z.of_nat n) maxit); [lia|]. rewrite andb_false_r. reflexivity. }
    split; [|split; [right; right; left; exact Hm|split; [intros; lia|right; split; [reflexivity|right; right; exact Hm]]]].
    destruct fuel; cbn [hloop]; rewrite R; reflexivity.
  - assert (Hm : Z.of_nat n < maxit) by lia. destruct fuel as [|f]; [lia|].
    cbn [hloop].
    destruct (ltb thr (E (snd (it n)))) eqn:Ht; cbn [andb].
    2:{ exists n, (hst n). split; [lia|]. split; [reflexivity|].
        assert (~ above ltb E descent lsearch thr p n) by (unfold above; rewrite Ht; discriminate).
        split; [left; assumption|]. split; [intros; lia|]. right. split; [reflexivity|left; assumption]. }
    destruct (Z.eqb_spec (3 - Z.of_nat (cnt n)) 0) as [E3|E3]; cbn [negb andb].
    { exists n, (hst n). split; [lia|]. split; [reflexivity|].
      assert (three_increases ltb E descent lsearch inf p n) by (apply cnt_three; lia).
      split; [right; left; assumption|]. split; [intros; lia|]. right. split; [reflexivity|right; left; assumption]. }
    destruct (Z.ltb_spec (Z.of_nat n) maxit) as [Hlt|]; [|lia].
    destruct (descent (fst (it n)) (snd (it n))) as [dq s1] eqn:Ed.
    destruct (ltb (dnorm dq) dmin) eqn:Esm.
    { exists n, (Some INFEASIBLE). split; [lia|]. split; [reflexivity|].
      assert (small_step ltb descent lsearch dnorm dmin p n) by (unfold small_step; rewrite Ed; exact Esm).
      split; [right; right; right; assumption|]. split; [intros; lia|].
      left. repeat split; try assumption. intros H3. apply cnt_three in H3. lia. }
    destruct (lsearch s1 (snd (it n)) dq) as [[a' dq'] s2] eqn:El.
    assert (Hn : it (S n) = (s2, a')).
    { cbn [iterate]. unfold next. rewrite Ed, El. reflexivity. }
    assert (Hns : ~ stop n).
    { intros [H|[H|[H|H]]].
      - apply H. exact Ht.
      - apply cnt_three in H. lia.
      - lia.
      - unfold small_step in H. rewrite Ed in H. cbn in H. congruence. }
    assert (Hd : ltb (E a') (reference E descent lsearch inf p n) = dec n).
    { unfold decreased. rewrite Hn. reflexivity. }
    rewrite Hd.
    assert (Hc' : (cnt (S n) <= 3)%nat) by (cbn [cnt]; destruct (dec n); lia).
    destruct (IH (S n) ltac:(lia) f ltac:(lia) Hc') as [m [st [Hnm [R [S1 [S2 S3]]]]]].
    exists m, st. split; [lia|]. split; [|split; [exact S1|split; [|exact S3]]].
    + rewrite <- R. rewrite visited_S, hst_S. rewrite Hn. cbn [fst snd].
      assert (E1 : reference E descent lsearch inf p (S n) = E a') by (unfold reference; rewrite Hn; reflexivity).
      rewrite E1. replace (Z.of_nat (S n)) with (Z.of_nat n + 1) by lia.
      f_equal. cbn [cnt]. destruct (dec n); lia.
    + intros k Hk. destruct (Nat.eq_dec k n) as [->|]; [exact Hns|]. apply S2. lia.
Qed.

(** complete description of the result: the first iterate at which a stop condition
    holds, and the status *)
Lemma hsolve_spec : forall fuel, (Z.to_nat maxit <= fuel)%nat ->
  exists n st, hsolve ltb E descent dnorm dmin thr maxit rdim lsearch inf fuel (fst p) (snd p) =
      Some (Some st, snd (it n), map (fun k => snd (it k)) (rev (seq 0 n)), Z.of_nat n) /\
    (0 <= Z.of_nat n <= Z.max 0 maxit) /\
    (st = SUCCESS <-> ~ above ltb E descent lsearch thr p n) /\
    ((n = 0%nat /\ rdim = 0 /\ above ltb E descent lsearch thr p 0 /\ st = INFEASIBLE) \/
     (~ (rdim = 0 /\ above ltb E descent lsearch thr p 0) /\
      stop n /\ (forall k, (k < n)%nat -> ~ stop k) /\
      (st = MAX_ITERATION_REACHED <-> above ltb E descent lsearch thr p n /\ maxit <= Z.of_nat n) /\
      (st = ERROR_INCREASED <-> above ltb E descent lsearch thr p n /\ Z.of_nat n < maxit /\ three_increases ltb E descent lsearch inf p n) /\
      (st = INFEASIBLE <-> above ltb E descent lsearch thr p n /\ Z.of_nat n < maxit /\ ~ three_increases ltb E descent lsearch inf p n))).
Proof.
  intros fuel Hf. unfold hsolve.
  destruct (ltb thr (E (snd p)) && (rdim =? 0)) eqn:Er.
  { apply andb_true_iff in Er. destruct Er as [Er1 Er2]. apply Z.eqb_eq in Er2.
    exists 0%nat, INFEASIBLE. split; [reflexivity|]. split; [lia|]. split.
    - split; [discriminate|]. intros H. exfalso. apply H. exact Er1.
    - left. auto. }
  assert (Hr : ~ (rdim = 0 /\ above ltb E descent lsearch thr p 0)).
  { intros [H1 H2]. unfold above in H2. cbn [iterate] in H2. rewrite H2 in Er. subst rdim. discriminate. }
  destruct (loop_spec 0 fuel) as [n [st [_ [R [S1 [S2 S3]]]]]]; [cbn; lia|cbn; lia|].
  change (visited 0) with (@nil Q) in R. change (hst 0) with (@None status) in R. cbn [cnt reference] in R.
  change (3 - Z.of_nat 0) with 3 in R. change (Z.of_nat 0) with 0 in R.
  change (it 0) with p in R. rewrite R.
  assert (Hb : 0 <= Z.of_nat n <= Z.max 0 maxit).
  { split; [lia|]. destruct n as [|n]; [lia|]. specialize (S2 n ltac:(lia)).
    assert (Z.of_nat n < maxit); [|lia]. apply Z.nle_gt. intros H. apply S2. right; right; left; exact H. }
  destruct (ltb thr (E (snd (it n)))) eqn:Ea.
  - assert (Ha : above ltb E descent lsearch thr p n) by exact Ea.
    destruct (Z.leb_spec maxit (Z.of_nat n)) as [Hm|Hm].
    + exists n, MAX_ITERATION_REACHED. split; [reflexivity|]. split; [exact Hb|].
      split; [split; [discriminate|intros H; exfalso; exact (H Ha)]|].
      right. split; [exact Hr|]. split; [exact S1|]. split; [intros k Hk; apply S2; lia|].
      repeat split; try discriminate; try assumption; intros; try lia; exfalso; lia.
    + destruct S3 as [[-> [_ [H2 [H3 H4]]]]|[-> [H|[H|H]]]].
      * exists n, INFEASIBLE. split; [reflexivity|]. split; [exact Hb|].
        split; [split; [discriminate|intros H; exfalso; exact (H Ha)]|].
        right. split; [exact Hr|]. split; [exact S1|]. split; [intros k Hk; apply S2; lia|].
        repeat split; try discriminate; try assumption; intros; exfalso.
        -- lia.
        -- tauto.
      * contradiction.
      * exists n, ERROR_INCREASED. split.
        { assert (Hh : hst n = Some ERROR_INCREASED); [|rewrite Hh; reflexivity].
          destruct n as [|n]; [destruct H as [H _]; lia|].
          rewrite hst_S. destruct H as [H1 H2]. rewrite (H2 n) by lia. reflexivity. }
        split; [exact Hb|].
        split; [split; [discriminate|intros H0; exfalso; exact (H0 Ha)]|].
        right. split; [exact Hr|]. split; [exact S1|]. split; [intros k Hk; apply S2; lia|].
        split; [split; [discriminate|intros; lia]|]. split; [split; auto|].
        split; [discriminate|]. intros [_ [_ H0]]. contradiction.
      * lia.
  - assert (Ha : ~ above ltb E descent lsearch thr p n) by (unfold above; rewrite Ea; discriminate).
    exists n, SUCCESS. split; [reflexivity|]. split; [exact Hb|]. split; [split; auto|].
    right. split; [exact Hr|]. split; [exact S1|]. split; [intros k Hk; apply S2; lia|].
    repeat split; try discriminate; tauto.
Qed.
End HierLoop.
