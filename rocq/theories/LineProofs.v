(** Proofs about the line searches. *)
From Coq Require Import Reals List Rtrigo_def Lra Lia Rpower.
From Verif Require Import LineModel.
Import ListNotations.
Open Scope R_scope.

(** ** tanh *)
Lemma cosh_pos x : 0 < cosh x.
Proof. unfold cosh. assert (H1 := exp_pos x). assert (H2 := exp_pos (- x)). lra. Qed.
Lemma tanh_bounds x : -1 < tanh x < 1.
Proof.
  unfold tanh. assert (H := cosh_pos x). assert (H1 := exp_pos x). assert (H2 := exp_pos (- x)).
  unfold sinh, cosh in *. split.
  - apply (Rmult_lt_reg_r ((exp x + exp (- x)) / 2)); [exact H|]. unfold Rdiv at 2. rewrite Rmult_assoc, Rinv_l; lra.
  - apply (Rmult_lt_reg_r ((exp x + exp (- x)) / 2)); [exact H|]. unfold Rdiv at 1. rewrite Rmult_assoc, Rinv_l; lra.
Qed.
(** tanh x = 1 - 2 / (e^2x + 1) *)
Lemma tanh_alt x : tanh x = 1 - 2 / (exp (2 * x) + 1).
Proof.
  unfold tanh, sinh, cosh. replace (2 * x) with (x + x) by ring. rewrite exp_plus, exp_Ropp.
  assert (H := exp_pos x). field. split; nra.
Qed.
Lemma tanh_inc x y : x < y -> tanh x < tanh y.
Proof.
  intros H. rewrite !tanh_alt. assert (H1 : exp (2 * x) < exp (2 * y)) by (apply exp_increasing; lra).
  assert (H2 := exp_pos (2 * x)).
  assert (/ (exp (2 * y) + 1) < / (exp (2 * x) + 1)) by (apply Rinv_lt_contravar; nra). unfold Rdiv. lra.
Qed.
Lemma tanh_0 : tanh 0 = 0.
Proof. rewrite tanh_alt, Rmult_0_r, exp_0. field. Qed.
Lemma tanh_atanh x : -1 < x < 1 -> tanh (atanh x) = x.
Proof.
  intros [H1 H2]. rewrite tanh_alt. unfold atanh.
  replace (2 * (ln ((1 + x) / (1 - x)) / 2)) with (ln ((1 + x) / (1 - x))) by field.
  rewrite exp_ln; [field; lra|]. apply Rdiv_lt_0_compat; lra.
Qed.
Lemma tanh_lt_inv x y : tanh x < tanh y -> x < y.
Proof.
  intros H. destruct (Rtotal_order x y) as [L|[->|L]]; [exact L|lra|]. apply tanh_inc in L. lra.
Qed.
Lemma atanh_neg x : -1 < x < 0 -> atanh x < 0.
Proof. intros H. apply tanh_lt_inv. rewrite tanh_0, tanh_atanh; lra. Qed.
Lemma atanh_pos x : 0 < x < 1 -> 0 < atanh x.
Proof. intros H. apply tanh_lt_inv. rewrite tanh_0, tanh_atanh; lra. Qed.
Lemma atanh_0 : atanh 0 = 0.
Proof. unfold atanh. replace ((1 + 0) / (1 - 0)) with 1 by field. rewrite ln_1. field. Qed.

Section Line.
Context {Q D : Type}.
Variables (integrate : Q -> D -> Q) (scale : R -> D -> D) (f : Q -> R).

(** ** fixed sequence *)
Fixpoint fixed_after (n : nat) (calls : nat -> Q * D) : fixed :=
  match n with
  | O => fixed_new
  | S m => fst (fixed_step integrate scale (fixed_after m calls) (fst (calls m)) (snd (calls m)))
  end.
Lemma fixed_closed n calls : fixed_after n calls = mkfixed (95 / 100 - 75 / 100 * (8 / 10) ^ n) (95 / 100) (8 / 10).
Proof.
  induction n as [|n IH]; [unfold fixed_after, fixed_new; f_equal; simpl; lra|].
  cbn [fixed_after]. rewrite IH. unfold fixed_step. cbn [fst fx_alpha fx_max fx_K]. f_equal. simpl. lra.
Qed.
Lemma fixed_spec n calls arg darg :
  let a := 95 / 100 - 75 / 100 * (8 / 10) ^ n in
  snd (fixed_step integrate scale (fixed_after n calls) arg darg) = (true, integrate arg (scale a darg), scale a darg) /\
  2 / 10 <= a < 95 / 100.
Proof.
  cbv zeta. rewrite fixed_closed. split; [reflexivity|].
  assert (0 < (8 / 10) ^ n) by (apply pow_lt; lra).
  assert ((8 / 10) ^ n <= 1) by (rewrite <- (pow1 n); apply pow_incr; lra). lra.
Qed.
Lemma fixed_increasing n m : (n < m)%nat -> 95 / 100 - 75 / 100 * (8 / 10) ^ n < 95 / 100 - 75 / 100 * (8 / 10) ^ m.
Proof.
  intros H. assert ((8 / 10) ^ m < (8 / 10) ^ n); [|lra].
  replace m with (n + (m - n))%nat by lia. rewrite pow_add.
  assert (0 < (8 / 10) ^ n) by (apply pow_lt; lra).
  assert ((8 / 10) ^ (m - n) < 1) by (apply pow_lt_1_compat; [lra|lia]). nra.
Qed.

(** ** error norm based *)
Lemma enb_range m a b r : m < 1 -> m < enb_alpha (enb_new3 m a b) r < 1.
Proof.
  intros H. unfold enb_alpha, enb_new3. cbn [en_C en_K en_a en_b]. assert (T := tanh_bounds (a * r + b)). nra.
Qed.
Lemma enb_new_range m r : m < 1 -> m < enb_alpha (enb_new m) r < 1.
Proof. exact (enb_range m _ _ r). Qed.
Lemma enb_arg m : m < 1 -> (delta - 1 + (1 / 2 + m / 2)) / ((1 - m) / 2) = (m - 96 / 100) / (1 - m).
Proof. intros H. unfold delta. field. lra. Qed.
Lemma enb_arg_range m : m < 98 / 100 -> -1 < (m - 96 / 100) / (1 - m) < 1.
Proof.
  intros H. split.
  - apply (Rmult_lt_reg_r (1 - m)); [lra|]. unfold Rdiv. rewrite Rmult_assoc, Rinv_l; lra.
  - apply (Rmult_lt_reg_r (1 - m)); [lra|]. unfold Rdiv. rewrite Rmult_assoc, Rinv_l; lra.
Qed.
Lemma enb_at_one m : m < 98 / 100 -> enb_alpha (enb_new m) 1 = 98 / 100.
Proof.
  intros H. unfold enb_alpha, enb_new. cbn [en_C en_K en_a en_b]. rewrite enb_arg by lra.
  replace (_ * 1 + _) with (atanh ((m - 96 / 100) / (1 - m))) by (unfold r_half; field; lra).
  rewrite tanh_atanh by (apply enb_arg_range, H). field. lra.
Qed.
Lemma enb_at_half m : enb_alpha (enb_new m) r_half = (1 + m) / 2.
Proof.
  unfold enb_alpha, enb_new. cbn [en_C en_K en_a en_b].
  replace (_ * r_half + _) with 0 by ring. rewrite tanh_0. field.
Qed.
Lemma enb_a_pos m : m < 96 / 100 -> 0 < en_a (enb_new m).
Proof.
  intros H. unfold enb_new. cbn [en_a]. rewrite enb_arg by lra.
  assert (N : atanh ((m - 96 / 100) / (1 - m)) < 0).
  { apply atanh_neg. split; [apply enb_arg_range; lra|]. apply Rmult_lt_reg_r with (1 - m); [lra|]. unfold Rdiv. rewrite Rmult_assoc, Rinv_l; lra. }
  unfold r_half. nra.
Qed.
Lemma enb_a_neg m : 96 / 100 < m < 98 / 100 -> en_a (enb_new m) < 0.
Proof.
  intros H. unfold enb_new. cbn [en_a]. rewrite enb_arg by lra.
  assert (N : 0 < atanh ((m - 96 / 100) / (1 - m))).
  { apply atanh_pos. split; [apply Rdiv_lt_0_compat; lra|apply enb_arg_range; lra]. }
  unfold r_half. nra.
Qed.
Lemma enb_decreasing m r1 r2 : m < 96 / 100 -> r1 < r2 -> enb_alpha (enb_new m) r2 < enb_alpha (enb_new m) r1.
Proof.
  intros H Hr. assert (Ha := enb_a_pos m H). unfold enb_alpha.
  assert (T : tanh (en_a (enb_new m) * r1 + en_b (enb_new m)) < tanh (en_a (enb_new m) * r2 + en_b (enb_new m))) by (apply tanh_inc; nra).
  unfold enb_new at 1 2 5 6. cbn [en_K en_C]. nra.
Qed.
Lemma enb_increasing m r1 r2 : 96 / 100 < m < 98 / 100 -> r1 < r2 -> enb_alpha (enb_new m) r1 < enb_alpha (enb_new m) r2.
Proof.
  intros H Hr. assert (Ha := enb_a_neg m H). unfold enb_alpha.
  assert (T : tanh (en_a (enb_new m) * r2 + en_b (enb_new m)) < tanh (en_a (enb_new m) * r1 + en_b (enb_new m))) by (apply tanh_inc; nra).
  unfold enb_new at 1 2 5 6. cbn [en_K en_C]. nra.
Qed.

Lemma enb_default m : m < 96 / 100 ->
  enb_alpha (enb_new m) 1 = 98 / 100 /\ enb_alpha (enb_new m) r_half = (1 + m) / 2 /\
  (forall r, m < enb_alpha (enb_new m) r < 1) /\
  (forall r1 r2, r1 < r2 -> enb_alpha (enb_new m) r2 < enb_alpha (enb_new m) r1).
Proof.
  intros H. split; [apply enb_at_one; lra|]. split; [apply enb_at_half|]. split; [intros r; apply enb_new_range; lra|].
  intros r1 r2. apply enb_decreasing, H.
Qed.

(** ** backtracking *)
Definition armijo (t : R) (arg : Q) (u : D) (alpha : R) : Prop :=
  - alpha * t <= f arg - f (integrate arg (scale alpha u)).
Local Notation loop := (bt_loop integrate scale f).

Lemma bt_loop_spec s t arg u fuel : forall k, (forall j, (j < k)%nat -> bt_small s < bt_tau s ^ j /\ ~ armijo t arg u (bt_tau s ^ j)) ->
  match loop fuel s t (f arg) arg u (bt_tau s ^ k) with
  | None => True
  | Some (Some (q, d)) => exists n, bt_small s < bt_tau s ^ n /\ armijo t arg u (bt_tau s ^ n) /\
      (forall j, (j < n)%nat -> ~ armijo t arg u (bt_tau s ^ j)) /\
      d = scale (bt_tau s ^ n) u /\ q = integrate arg d
  | Some None => exists n, ~ bt_small s < bt_tau s ^ n /\ forall j, (j < n)%nat -> bt_small s < bt_tau s ^ j /\ ~ armijo t arg u (bt_tau s ^ j)
  end.
Proof.
  induction fuel as [|n IH]; intros k Hk; cbn [bt_loop].
  - destruct (Rlt_dec (bt_small s) (bt_tau s ^ k)) as [L|L]; [exact Logic.I|]. exists k. auto.
  - destruct (Rlt_dec (bt_small s) (bt_tau s ^ k)) as [L|L]; [|exists k; auto].
    destruct (Rle_dec (- bt_tau s ^ k * t) (f arg - f (integrate arg (scale (bt_tau s ^ k) u)))) as [A|A].
    + exists k. split; [exact L|]. split; [exact A|]. split; [intros j Hj; apply Hk, Hj|]. auto.
    + replace (bt_tau s ^ k * bt_tau s) with (bt_tau s ^ S k) by (simpl; ring). apply IH.
      intros j Hj. destruct (Nat.eq_dec j k) as [->|]; [split; [exact L|exact A]|]. apply Hk. lia.
Qed.
Lemma bt_loop_fuel s t arg u N : bt_tau s ^ N <= bt_small s -> forall fuel k, (N <= k + fuel)%nat -> 0 < bt_tau s < 1 ->
  loop fuel s t (f arg) arg u (bt_tau s ^ k) <> None.
Proof.
  intros HN. induction fuel as [|n IH]; intros k Hk Ht; cbn [bt_loop].
  - destruct (Rlt_dec (bt_small s) (bt_tau s ^ k)) as [L|L]; [|discriminate]. exfalso.
    replace k with (N + (k - N))%nat in L by lia. rewrite pow_add in L.
    assert (bt_tau s ^ (k - N) <= 1) by (rewrite <- (pow1 (k - N)); apply pow_incr; lra).
    assert (0 < bt_tau s ^ N) by (apply pow_lt; lra). nra.
  - destruct (Rlt_dec (bt_small s) (bt_tau s ^ k)) as [L|L]; [|discriminate].
    destruct (Rle_dec (- bt_tau s ^ k * t) (f arg - f (integrate arg (scale (bt_tau s ^ k) u)))); [discriminate|].
    replace (bt_tau s ^ k * bt_tau s) with (bt_tau s ^ S k) by (simpl; ring). apply IH; [lia|exact Ht].
Qed.

Lemma bt_step_spec s slope arg u : 0 < bt_tau s < 1 -> 0 < bt_small s ->
  exists fuel0, forall fuel, (fuel0 <= fuel)%nat ->
  exists ok q d, bt_step integrate scale f fuel s slope arg u = Some (ok, q, d) /\ q = integrate arg d /\
    let t := 2 * bt_c s * slope in
    (ok = true -> t <= 0 /\ exists n, bt_small s < bt_tau s ^ n /\ d = scale (bt_tau s ^ n) u /\
       - (bt_tau s ^ n) * t <= f arg - f q /\
       forall j, (j < n)%nat -> ~ armijo t arg u (bt_tau s ^ j)) /\
    (ok = false -> d = scale (bt_small s) u /\
       (0 < t \/ forall n, bt_small s < bt_tau s ^ n -> ~ armijo t arg u (bt_tau s ^ n))).
Proof.
  intros Ht Hs.
  destruct (pow_lt_1_zero (bt_tau s) ltac:(rewrite Rabs_pos_eq; lra) (bt_small s) Hs) as [N HN].
  assert (HN' : bt_tau s ^ N <= bt_small s).
  { specialize (HN N (le_n N)). rewrite Rabs_pos_eq in HN by (apply pow_le; lra). lra. }
  exists N. intros fuel Hf. unfold bt_step.
  destruct (Rlt_dec 0 (2 * bt_c s * slope)) as [L|L].
  { eexists false, _, _. split; [reflexivity|]. split; [reflexivity|]. cbv zeta. split; [discriminate|].
    intros _. split; [reflexivity|left; exact L]. }
  assert (Hne := bt_loop_fuel s (2 * bt_c s * slope) arg u N HN' fuel 0 ltac:(lia) Ht).
  assert (Sp := bt_loop_spec s (2 * bt_c s * slope) arg u fuel 0 ltac:(intros; lia)).
  cbn [pow] in Hne, Sp.
  destruct (loop fuel s (2 * bt_c s * slope) (f arg) arg u 1) as [[[q d]|]|]; [| |congruence].
  - destruct Sp as [n [H1 [H2 [H3 [-> ->]]]]].
    eexists true, _, _. split; [reflexivity|]. split; [reflexivity|]. cbv zeta. split; [|discriminate].
    intros _. split; [lra|]. exists n. auto.
  - destruct Sp as [n [H1 H2]].
    eexists false, _, _. split; [reflexivity|]. split; [reflexivity|]. cbv zeta. split; [discriminate|].
    intros _. split; [reflexivity|right]. intros k Hk. apply H2.
    destruct (Nat.lt_ge_cases k n) as [|G]; [assumption|exfalso]. apply H1.
    replace k with (n + (k - n))%nat in Hk by lia. rewrite pow_add in Hk.
    assert (bt_tau s ^ (k - n) <= 1) by (rewrite <- (pow1 (k - n)); apply pow_incr; lra).
    assert (0 < bt_tau s ^ n) by (apply pow_lt; lra). nra.
Qed.
Lemma bt_default_trials n : bt_small bt_new < bt_tau bt_new ^ n -> (n <= 4)%nat.
Proof.
  unfold bt_new. cbn [bt_small bt_tau]. intros H. destruct (Nat.le_gt_cases n 4) as [|G]; [assumption|exfalso].
  replace n with (5 + (n - 5))%nat in H by lia. rewrite pow_add in H.
  assert ((7 / 10) ^ (n - 5) <= 1) by (rewrite <- (pow1 (n - 5)); apply pow_incr; lra).
  assert (0 < (7 / 10) ^ (n - 5)) by (apply pow_lt; lra). simpl in H. nra.
Qed.
End Line.

(** the slope is the derivative of half the squared norm of all errors along dq, for
    errors that vary linearly *)
Definition sqsum (l : list R) : R := fold_right (fun x s => x * x + s) 0 l.
Definition moved (al : R) (dq : list R) (l : list (list R) * list R) : list R :=
  map (fun p => snd p + al * dot (fst p) dq) (combine (fst l) (snd l)).
Definition total (levels : list (list R)) : R := fold_right (fun l s => sqsum l + s) 0 levels.
Lemma slope_fold levels dq : forall s, fold_left (fun s l => s + dot (map (fun row => dot row dq) (fst l)) (snd l)) levels s =
  s + fold_right (fun l t => dot (map (fun row => dot row dq) (fst l)) (snd l) + t) 0 levels.
Proof. induction levels as [|l ls IH]; intros s; cbn [fold_left fold_right]; [lra|]. rewrite IH. lra. Qed.
Lemma sq_moved al dq : forall J e, length J = length e ->
  sqsum (moved al dq (J, e)) = sqsum e + 2 * al * dot (map (fun row => dot row dq) J) e + al * al * sqsum (map (fun row => dot row dq) J).
Proof.
  induction J as [|r J IH]; intros [|x e] H; try discriminate H.
  - unfold moved, sqsum, dot. simpl. ring.
  - injection H as H. specialize (IH e H). unfold moved, sqsum in *. cbn [combine map fold_right fst snd] in *.
    rewrite IH. change (dot (dot r dq :: map (fun row => dot row dq) J) (x :: e)) with (dot r dq * x + dot (map (fun row => dot row dq) J) e). ring.
Qed.
Lemma slope_linear levels dq al : (forall l, In l levels -> length (fst l) = length (snd l)) ->
  total (map (moved al dq) levels) = total (map snd levels) + 2 * al * local_slope levels dq +
    al * al * total (map (fun l => map (fun row => dot row dq) (fst l)) levels).
Proof.
  intros H. unfold local_slope. rewrite slope_fold. induction levels as [|[J e] ls IH]; cbn [map total fold_right]; [ring|].
  fold (total (map (moved al dq) ls)). fold (total (map snd ls)).
  fold (total (map (fun l => map (fun row => dot row dq) (fst l)) ls)).
  rewrite IH by (intros l Hl; apply H; right; exact Hl). rewrite sq_moved by (apply (H (J, e)); left; reflexivity).
  cbn [fst snd]. ring.
Qed.
