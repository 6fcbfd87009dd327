(** Maximum of a Lipschitz function on a cube. *)
From Coq Require Import Reals Lra Lia.
Open Scope R_scope.

(** points of [-1, 1]^n, first n coordinates *)
Definition box (n : nat) (x : nat -> R) : Prop := forall i, (i < n)%nat -> -1 <= x i <= 1.
Definition near (n : nat) (e : R) (x y : nat -> R) : Prop := forall i, (i < n)%nat -> Rabs (x i - y i) <= e.
(** bounded and Lipschitz on the cube *)
Definition good (n : nat) (f : (nat -> R) -> R) : Prop := exists L B, 0 <= L /\ 0 <= B /\
  (forall x, box n x -> Rabs (f x) <= B) /\ (forall x y e, box n x -> box n y -> near n e x y -> 0 <= e -> Rabs (f x - f y) <= L * e).

Definition upd (x : nat -> R) (k : nat) (t : R) : nat -> R := fun i => if Nat.eq_dec i k then t else x i.
Definition clip (t : R) : R := Rmax (-1) (Rmin 1 t).
Lemma clip_in t : -1 <= clip t <= 1.
Proof. unfold clip, Rmax, Rmin; repeat destruct Rle_dec; lra. Qed.
Lemma clip_id t : -1 <= t <= 1 -> clip t = t.
Proof. unfold clip, Rmax, Rmin; repeat destruct Rle_dec; lra. Qed.
Lemma clip_lip t s : Rabs (clip t - clip s) <= Rabs (t - s).
Proof. unfold clip, Rmax, Rmin, Rabs; repeat destruct Rle_dec; repeat destruct Rcase_abs; lra. Qed.

Lemma good_const n c : good n (fun _ => c).
Proof.
exists 0, (Rabs c). split; [lra|]. split; [apply Rabs_pos|]. split; [intros; lra|].
intros. rewrite Rminus_diag_eq by reflexivity. rewrite Rabs_R0; lra.
Qed.
Lemma good_coord n i : (i < n)%nat -> good n (fun x => x i).
Proof.
intros H. exists 1, 1. split; [lra|]. split; [lra|]. split.
- intros x Hx. apply Rabs_le. apply (Hx i H).
- intros x y e _ _ Hn _. rewrite Rmult_1_l. apply Hn, H.
Qed.
Lemma good_add n f g : good n f -> good n g -> good n (fun x => f x + g x).
Proof.
intros (L & B & HL & HB & H1 & H2) (L' & B' & HL' & HB' & H1' & H2').
exists (L + L'), (B + B'). split; [lra|]. split; [lra|]. split.
- intros x Hx. pose proof (H1 x Hx). pose proof (H1' x Hx). pose proof (Rabs_triang (f x) (g x)). lra.
- intros x y e Hx Hy Hn He. pose proof (H2 x y e Hx Hy Hn He). pose proof (H2' x y e Hx Hy Hn He).
  replace (f x + g x - (f y + g y)) with ((f x - f y) + (g x - g y)) by ring.
  pose proof (Rabs_triang (f x - f y) (g x - g y)). lra.
Qed.
Lemma good_mul n f g : good n f -> good n g -> good n (fun x => f x * g x).
Proof.
intros (L & B & HL & HB & H1 & H2) (L' & B' & HL' & HB' & H1' & H2').
exists (L * B' + B * L'), (B * B'). split; [nra|]. split; [nra|]. split.
- intros x Hx. rewrite Rabs_mult. apply Rmult_le_compat; auto using Rabs_pos.
- intros x y e Hx Hy Hn He.
  replace (f x * g x - f y * g y) with ((f x - f y) * g x + f y * (g x - g y)) by ring.
  eapply Rle_trans; [apply Rabs_triang|]. rewrite !Rabs_mult.
  replace ((L * B' + B * L') * e) with (L * e * B' + B * (L' * e)) by ring.
  apply Rplus_le_compat; apply Rmult_le_compat; auto using Rabs_pos.
Qed.
Lemma good_inv n f : good n f -> (forall x, box n x -> 1 <= f x) -> good n (fun x => / f x).
Proof.
intros (L & B & HL & HB & H1 & H2) H. exists L, 1. split; [lra|]. split; [lra|]. split.
- intros x Hx. specialize (H x Hx). rewrite Rabs_pos_eq by (left; apply Rinv_0_lt_compat; lra).
  rewrite <- Rinv_1. apply Rinv_le_contravar; lra.
- intros x y e Hx Hy Hn He. pose proof (H2 x y e Hx Hy Hn He) as H3. pose proof (H x Hx). pose proof (H y Hy).
  replace (/ f x - / f y) with ((f x - f y) * - (/ f x * / f y)) by (field; lra).
  rewrite Rabs_mult, Rabs_Ropp, Rabs_mult.
  assert (Rabs (/ f x) <= 1) by (rewrite Rabs_pos_eq by (left; apply Rinv_0_lt_compat; lra); rewrite <- Rinv_1; apply Rinv_le_contravar; lra).
  assert (Rabs (/ f y) <= 1) by (rewrite Rabs_pos_eq by (left; apply Rinv_0_lt_compat; lra); rewrite <- Rinv_1; apply Rinv_le_contravar; lra).
  pose proof (Rabs_pos (/ f x)). pose proof (Rabs_pos (/ f y)). pose proof (Rabs_pos (f x - f y)).
  assert (Rabs (/ f x) * Rabs (/ f y) <= 1) by nra. nra.
Qed.
Lemma good_ext n f g : (forall x, f x = g x) -> good n f -> good n g.
Proof.
intros H (L & B & HL & HB & H1 & H2). exists L, B. split; [lra|]. split; [lra|]. split.
- intros x Hx. rewrite <- H. auto.
- intros x y e Hx Hy Hn He. rewrite <- !H. auto.
Qed.
(** a coordinate set to 1 *)
Lemma good_face n f k : good n f -> good n (fun x => f (upd x k 1)).
Proof.
intros (L & B & HL & HB & H1 & H2). exists L, B.
assert (Hb : forall x, box n x -> box n (upd x k 1)). { intros x Hx i Hi. unfold upd. destruct Nat.eq_dec; [lra|]. auto. }
split; [lra|]. split; [lra|]. split; [auto|]. intros x y e Hx Hy Hn He. apply H2; auto.
intros i Hi. unfold upd. destruct Nat.eq_dec; [rewrite Rminus_diag_eq, Rabs_R0 by reflexivity; lra|auto].
Qed.

Lemma box_upd n x t : box n x -> -1 <= t <= 1 -> box (S n) (upd x n t).
Proof. intros Hx Ht i Hi. unfold upd. destruct Nat.eq_dec; [lra|]. apply Hx. lia. Qed.

Lemma lip_continuity g L c : 0 <= L -> (forall t s, Rabs (g t - g s) <= L * Rabs (t - s)) -> continuity_pt g c.
Proof.
intros HL H e He. exists (e / (L + 1)). split.
- apply Rdiv_lt_0_compat; lra.
- intros x (_ & Hx). simpl in *. unfold R_dist in *. eapply Rle_lt_trans; [apply H|].
  apply Rle_lt_trans with ((L + 1) * Rabs (x - c)).
  + pose proof (Rabs_pos (x - c)); nra.
  + apply Rmult_lt_reg_l with (/ (L + 1)); [apply Rinv_0_lt_compat; lra|].
    rewrite <- Rmult_assoc, Rinv_l, Rmult_1_l by lra. unfold Rdiv in Hx. lra.
Qed.

(** a bounded function attaining its supremum for each t: the supremum as a function *)
Lemma attained n f : good n f -> exists x, box n x /\ forall y, box n y -> f y <= f x.
Proof.
revert f. induction n as [|n IH]; intros f Hf.
- exists (fun _ => 0). split; [intros i Hi; lia|]. intros y Hy. destruct Hf as (L & B & HL & HB & H1 & H2).
  assert (Hb : box 0 (fun _ => 0)) by (intros i Hi; lia).
  assert (H3 : Rabs (f y - f (fun _ => 0)) <= L * 0) by (apply H2; auto; [intros i Hi; lia|lra]).
  rewrite Rmult_0_r in H3. pose proof (Rle_abs (f y - f (fun _ => 0))). lra.
- destruct Hf as (L & B & HL & HB & H1 & H2).
  assert (Hgood : forall t, good n (fun x => f (upd x n (clip t)))).
  { intros t. exists L, B. split; [lra|]. split; [lra|]. split.
    - intros x Hx. apply H1, box_upd; auto using clip_in.
    - intros x y e Hx Hy Hn He. apply H2; auto using box_upd, clip_in.
      intros i Hi. unfold upd. destruct Nat.eq_dec; [rewrite Rminus_diag_eq, Rabs_R0 by reflexivity; lra|]. apply Hn. lia. }
  assert (Hsup : forall t, { m | is_lub (fun v => exists x, box n x /\ v = f (upd x n (clip t))) m }).
  { intros t. apply completeness.
    - exists B. intros v (x & Hx & ->). pose proof (H1 _ (box_upd n x _ Hx (clip_in t))) as H. pose proof (Rle_abs (f (upd x n (clip t)))). lra.
    - exists (f (upd (fun _ => 0) n (clip t))), (fun _ => 0). split; auto. intros i Hi. lra. }
  pose (g t := proj1_sig (Hsup t)).
  assert (Hg : forall t, exists x, box n x /\ g t = f (upd x n (clip t)) /\ forall y, box n y -> f (upd y n (clip t)) <= g t).
  { intros t. destruct (IH _ (Hgood t)) as (x & Hx & Hm). unfold g. destruct (Hsup t) as (m & Hu & Hl); simpl.
    exists x. split; auto. assert (m = f (upd x n (clip t))).
    - apply Rle_antisym.
      + apply Hl. intros v (y & Hy & ->). auto.
      + apply Hu. exists x; auto.
    - split; auto. intros y Hy. rewrite H. auto. }
  assert (Hle : forall t s, g t - g s <= L * Rabs (t - s)).
  { intros t s. destruct (Hg t) as (x & Hx & Ht & _). destruct (Hg s) as (_ & _ & _ & Hs). specialize (Hs x Hx).
    pose proof (H2 (upd x n (clip t)) (upd x n (clip s)) (Rabs (t - s)) (box_upd n x _ Hx (clip_in t)) (box_upd n x _ Hx (clip_in s))) as H.
    assert (H' : Rabs (f (upd x n (clip t)) - f (upd x n (clip s))) <= L * Rabs (t - s)).
    { apply H; [|apply Rabs_pos]. intros i Hi. unfold upd. destruct Nat.eq_dec.
      - apply clip_lip.
      - rewrite Rminus_diag_eq, Rabs_R0 by reflexivity. apply Rabs_pos. }
    pose proof (Rle_abs (f (upd x n (clip t)) - f (upd x n (clip s)))). lra. }
  destruct (continuity_ab_maj g (-1) 1) as (c & Hc & Hc1); [lra| |].
  { intros c _. apply lip_continuity with L; auto. intros t s. apply Rabs_le. split; [|apply Hle].
    pose proof (Hle s t) as H. rewrite Rabs_minus_sym in H. lra. }
  destruct (Hg c) as (x & Hx & Hxc & _). exists (upd x n (clip c)). split; [apply box_upd; auto using clip_in|].
  intros y Hy. destruct (Hg (y n)) as (_ & _ & _ & Hs).
  assert (Hyn : -1 <= y n <= 1) by (apply Hy; lia). specialize (Hs y ltac:(intros i Hi; apply Hy; lia)).
  rewrite (clip_id _ Hyn) in Hs.
  assert (Heq : f y = f (upd y n (y n))).
  { assert (Hb : box (S n) (upd y n (y n))) by (apply box_upd; [intros i Hi; apply Hy; lia|auto]).
    assert (H3 : Rabs (f y - f (upd y n (y n))) <= L * 0).
    { apply H2; auto; [|lra]. intros i Hi. unfold upd. destruct Nat.eq_dec; [subst|]; rewrite Rminus_diag_eq, Rabs_R0 by reflexivity; lra. }
    rewrite Rmult_0_r in H3. pose proof (Rabs_pos (f y - f (upd y n (y n)))). 
    destruct (Req_dec (f y - f (upd y n (y n))) 0) as [H4|H4]; [lra|]. apply Rabs_pos_lt in H4. lra. }
  rewrite Heq. rewrite <- Hxc. specialize (Hc _ Hyn). lra.
Qed.

Lemma quad_zero (s c : R) : 0 <= s -> (forall t, 0 < t -> t * ((s + s) + t * c) <= 0) -> s = 0.
Proof.
intros Hs H. destruct (Req_dec s 0) as [|Hn]; auto. exfalso.
assert (Hp : 0 < s) by lra. pose proof (Rabs_pos c) as Hc.
assert (Hd : 0 < 1 + Rabs c) by lra.
pose (t := s / (1 + Rabs c)). assert (Ht : 0 < t) by (apply Rdiv_lt_0_compat; lra).
assert (Hts : t * (1 + Rabs c) = s) by (unfold t; field; lra).
specialize (H t Ht). assert (Hl : - Rabs c <= c) by (unfold Rabs; destruct Rcase_abs; lra).
assert (0 < (s + s) + t * c) by nra. nra.
Qed.
