(** Order facts about IEEE comparison. *)
From Coq Require Import ZArith List Bool Lia ZifyBool Floats.SpecFloat.
From Verif Require Import NanModel.
Import ListNotations.
Open Scope Z_scope.

Definition key (x : spec_float) : Z * Z * Z :=
  match x with
  | S754_zero _ => (0, 0, 0)
  | S754_infinity true => (-2, 0, 0)
  | S754_infinity false => (2, 0, 0)
  | S754_nan => (0, 0, 0)
  | S754_finite true m e => (-1, - e, - Z.pos m)
  | S754_finite false m e => (1, e, Z.pos m)
  end.
Definition keylt (a b : Z * Z * Z) : bool :=
  let '(a1, a2, a3) := a in let '(b1, b2, b3) := b in
  (a1 <? b1) || ((a1 =? b1) && ((a2 <? b2) || ((a2 =? b2) && (a3 <? b3)))).

Lemma flt_key a b : flt a b = negb (isnan a) && negb (isnan b) && keylt (key a) (key b).
Proof.
  unfold flt, SFltb, keylt.
  destruct a as [sa|sa| |sa ma ea], b as [sb|sb| |sb mb eb]; try destruct sa; try destruct sb; cbn; try reflexivity.
  - change (Pos.compare_cont Eq ma mb) with (ma ?= mb)%positive.
    destruct (Z.compare_spec ea eb), (Pos.compare_spec ma mb); cbn; lia.
  - change (Pos.compare_cont Eq ma mb) with (ma ?= mb)%positive.
    destruct (Z.compare_spec ea eb), (Pos.compare_spec ma mb); cbn; lia.
Qed.

Lemma keylt_trans a b c : keylt a b = true -> keylt b c = true -> keylt a c = true.
Proof. destruct a as [[a1 a2] a3], b as [[b1 b2] b3], c as [[c1 c2] c3]; unfold keylt; lia. Qed.
Lemma keylt_cotrans a b c : keylt a c = true -> keylt a b = true \/ keylt b c = true.
Proof. destruct a as [[a1 a2] a3], b as [[b1 b2] b3], c as [[c1 c2] c3]; unfold keylt; lia. Qed.

Lemma flt_trans a b c : flt a b = true -> flt b c = true -> flt a c = true.
Proof.
  rewrite !flt_key. intros H1 H2. apply andb_prop in H1 as [H1 K1], H2 as [H2 K2].
  rewrite (keylt_trans _ _ _ K1 K2). destruct (isnan a), (isnan b), (isnan c); cbn in *; auto.
Qed.
Lemma flt_cotrans a b c : isnan b = false -> flt a c = true -> flt a b = true \/ flt b c = true.
Proof.
  rewrite !flt_key. intros Hb H. apply andb_prop in H as [H K]. rewrite Hb.
  destruct (keylt_cotrans _ (key b) _ K) as [G|G]; rewrite G; destruct (isnan a), (isnan c); cbn in *; auto; discriminate.
Qed.
Lemma flt_irrefl a : flt a a = false.
Proof. rewrite flt_key. destruct (key a) as [[x y] z]; unfold keylt. destruct (isnan a); cbn; lia. Qed.
Lemma flt_nan_l b : flt S754_nan b = false.
Proof. destruct b; reflexivity. Qed.
Lemma flt_nan_r a : flt a S754_nan = false.
Proof. destruct a as [[]|[]| |[] ? ?]; reflexivity. Qed.
Lemma flt_not_nan a b : flt a b = true -> isnan a = false /\ isnan b = false.
Proof. rewrite flt_key. destruct (isnan a), (isnan b); cbn; auto; discriminate. Qed.

Lemma fmax_not_nan a b : isnan a = false -> isnan (fmax a b) = false.
Proof. intros H. unfold fmax. destruct (flt a b) eqn:E; [apply (flt_not_nan _ _ E) | exact H]. Qed.

Lemma fmax_lt a b t : isnan a = false -> flt (fmax a b) t = flt a t && (isnan b || flt b t).
Proof.
  intros Ha. unfold fmax. destruct (isnan b) eqn:Hb.
  - destruct b; try discriminate. rewrite flt_nan_r. cbn [orb]. rewrite andb_true_r; reflexivity.
  - cbn [orb]. destruct (flt a b) eqn:E.
    + destruct (flt b t) eqn:E2; [|rewrite andb_false_r; reflexivity]. rewrite (flt_trans _ _ _ E E2); reflexivity.
    + destruct (flt a t) eqn:E2; [|reflexivity]. cbn.
      destruct (flt_cotrans _ b _ Hb E2) as [H|H]; [congruence | symmetry; exact H].
Qed.

Lemma fold_fmax_lt (l : list spec_float) : forall a t, isnan a = false ->
  (flt (fold_left fmax l a) t = true <-> flt a t = true /\ forall x, In x l -> isnan x = true \/ flt x t = true).
Proof.
  induction l as [|b l IH]; intros a t Ha; cbn [fold_left].
  - split; [intros H; split; [exact H | intros x []] | tauto].
  - rewrite IH by (apply fmax_not_nan; exact Ha). rewrite fmax_lt by exact Ha.
    rewrite andb_true_iff, orb_true_iff. split.
    + intros [[H1 H2] H3]. split; [exact H1|]. intros x [<-|Hx]; auto.
    + intros [H1 H2]. split; [split; [exact H1 | apply H2; left; reflexivity]|]. intros x Hx; apply H2; right; exact Hx.
Qed.
