(** Expressions of comparison types. *)
From Coq Require Import ZArith List Bool Lia.
From Verif Require Import EcsModel CmpModel CmpSpec.
Import ListNotations.
Local Open Scope Z_scope.

Lemma push_ok v i : count_ok i -> Z.of_nat (length (v ++ item_list i)) <= max_size -> push v i = Some (v ++ item_list i).
Proof.
  destruct i as [c|n c]; [reflexivity|]. cbn [count_ok push item_list]. intros H L. unfold push_many, replicate. cbn [r_n r_type].
  rewrite Z.mod_small by lia. rewrite app_length, repeat_length in L. destruct (Z.leb_spec (Z.of_nat (length v) + n) max_size); [reflexivity|lia].
Qed.
Lemma push_negative v i : negative i -> push v i = None.
Proof.
  destruct i as [c|n c]; [intros []|]. cbn [negative push]. intros H. unfold push_many, replicate. cbn [r_n].
  replace (n mod 2 ^ 64) with (n + 2 ^ 64) by (rewrite <- (Z.mod_small (n + 2 ^ 64) (2 ^ 64)) by lia; now rewrite <- (Z_mod_plus_full n 1), Z.mul_1_l).
  destruct (Z.leb_spec (Z.of_nat (length v) + (n + 2 ^ 64)) max_size); [unfold max_size in *; lia|reflexivity].
Qed.
Lemma shifts_temp is : forall s v, Forall count_ok is -> Z.of_nat (length (v ++ denoted is)) <= max_size -> shifts s (Temp v) is = Some (s, Temp (v ++ denoted is)).
Proof.
  induction is as [|i is IH]; intros s v F L; cbn [shifts denoted flat_map]; [now rewrite app_nil_r|]. inversion F; subst.
  cbn [denoted flat_map] in L. rewrite app_assoc in L. unfold shift. cbn [content]. rewrite push_ok; [|assumption|rewrite app_length in L; lia].
  rewrite IH by assumption. now rewrite app_assoc.
Qed.
Lemma shifts_ref is : forall s x, Forall count_ok is -> Z.of_nat (length (s x ++ denoted is)) <= max_size ->
  exists s', shifts s (Ref x) is = Some (s', Ref x) /\ s' x = s x ++ denoted is /\ forall y, y <> x -> s' y = s y.
Proof.
  induction is as [|i is IH]; intros s x F L; cbn [shifts denoted flat_map]; [exists s; rewrite app_nil_r; auto|]. inversion F; subst.
  cbn [denoted flat_map] in L. rewrite app_assoc in L. unfold shift. cbn [content]. rewrite push_ok; [|assumption|rewrite app_length in L; lia].
  destruct (IH (upd s x (s x ++ item_list i)) x) as (s' & E & A & B); [assumption|unfold upd; now rewrite Nat.eqb_refl|].
  exists s'. split; [exact E|]. split; [rewrite A; unfold upd; now rewrite Nat.eqb_refl, app_assoc|].
  intros y N. rewrite B by exact N. unfold upd. destruct (Nat.eqb_spec y x); [contradiction|reflexivity].
Qed.
Lemma eval_spec s h is : head_ok h is -> Forall count_ok is -> Z.of_nat (length (head_list s h ++ denoted is)) <= max_size ->
  exists s' r, eval s h is = Some (s', r) /\ content s' r = head_list s h ++ denoted is /\
  (forall x, h <> Var x -> s' x = s x) /\ (forall x, h = Var x -> r = Ref x /\ s' x = s x ++ denoted is).
Proof.
  intros H F L. destruct h as [a|x|v]; cbn [eval head_list head_ok] in *.
  - destruct is as [|b is].
    + destruct a as [c|n c]; [congruence|]. change (push_many [] n c) with (push [] (Many n c)). rewrite push_ok; [|exact H|cbn [denoted flat_map] in L; now rewrite app_nil_r in L].
      eexists; eexists; split; [reflexivity|]. split; [cbn [content denoted flat_map app]; now rewrite app_nil_r|]. split; [reflexivity|discriminate].
    + inversion F; subst. assert (Ha : count_ok a) by (destruct a; [exact I|exact H]). unfold first_shift.
      cbn [denoted flat_map] in L. rewrite app_assoc in L. rewrite push_ok; [|exact Ha|cbn [app]; rewrite !app_length in L; lia]. cbn [app].
      rewrite push_ok; [|assumption|rewrite app_length in L; lia]. rewrite shifts_temp by assumption.
      eexists; eexists; split; [reflexivity|]. split; [cbn [content denoted flat_map]; now rewrite app_assoc|]. split; [reflexivity|discriminate].
  - destruct (shifts_ref is s x F L) as (s' & E & A & B). exists s', (Ref x). split; [exact E|]. split; [exact A|]. split; [intros y N; apply B; congruence|].
    intros y E'. injection E' as <-. auto.
  - rewrite shifts_temp by assumption. eexists; eexists; split; [reflexivity|]. split; [reflexivity|]. split; [reflexivity|discriminate].
Qed.
Lemma shifts_negative is : forall s l i, In i is -> negative i -> shifts s l is = None.
Proof.
  induction is as [|j is IH]; intros s l i H N; [destruct H|]. cbn [shifts]. unfold shift. destruct H as [->|H].
  - now rewrite push_negative.
  - destruct (push (content s l) j); [|reflexivity]. destruct l; now apply (IH _ _ i).
Qed.
Lemma eval_negative s h is i : (h = Item i \/ In i is) -> negative i -> eval s h is = None.
Proof.
  intros H N. destruct h as [a|x|v]; cbn [eval].
  - destruct H as [H|H].
    + injection H as ->. destruct is as [|b is].
      * destruct i as [c|n c]; [reflexivity|]. change (push_many [] n c) with (push [] (Many n c)). now rewrite push_negative.
      * unfold first_shift. now rewrite push_negative.
    + destruct is as [|b is]; [destruct H|]. unfold first_shift. destruct (push [] a); [|reflexivity]. destruct H as [->|H]; [now rewrite push_negative|].
      destruct (push l b); [|reflexivity]. now apply (shifts_negative _ _ _ i).
  - destruct H as [H|H]; [discriminate|]. now apply (shifts_negative _ _ _ i).
  - destruct H as [H|H]; [discriminate|]. now apply (shifts_negative _ _ _ i).
Qed.
Lemma eq_rep_spec v n c : 0 <= n < 2 ^ 31 -> (eq_rep v (replicate n c) = true <-> v = repeat c (Z.to_nat n)).
Proof.
  intros H. unfold eq_rep, replicate. cbn [r_n r_type]. rewrite Z.mod_small by lia. destruct (Z.eqb_spec (Z.of_nat (length v)) n) as [E|E]; cbn [negb].
  - rewrite forallb_forall. rewrite <- E, Nat2Z.id. clear. induction v as [|x v IH]; cbn; [split; [reflexivity|intros _ y []]|]. split.
    + intros K. f_equal; [|apply IH; intros; apply K; auto]. specialize (K x (or_introl eq_refl)). destruct x, c; try discriminate; reflexivity.
    + intros K y [<-|Hy]; [injection K as -> _; destruct c; reflexivity|]. injection K as _ K. apply IH; assumption.
  - split; [discriminate|]. intros ->. rewrite repeat_length in E. lia.
Qed.
Lemma variable_changes : exists s s' r, eval s (Var 0) [One Superior] = Some (s', r) /\ s 0%nat = [Equality] /\ content s' r = [Equality; Superior] /\ s' 0%nat = [Equality; Superior] /\
  eval s (Const [Equality]) [One Superior] = Some (s, Temp [Equality; Superior]).
Proof. exists (fun _ => [Equality]). eexists; eexists. split; [reflexivity|]. repeat split. Qed.
