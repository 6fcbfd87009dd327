From Coq Require Import Reals List Bool Arith Lra Lia ZArith Floats.SpecFloat.
From Verif Require Import FdModel FdProofs FdFloatModel.
Import ListNotations.
Local Open Scope R_scope.

Lemma mono u u' h : 0 <= h -> (forall c, 0 <= c <= h -> derivable_pt_lim u c (u' c)) -> (forall c, 0 <= c <= h -> 0 <= u' c) -> u 0 <= u h.
Proof.
  intros H D P. destruct (Req_dec h 0) as [->|N]; [lra|].
  destruct (MVT_cor2 u u' 0 h) as (c & E & Hc); [lra|intros; apply D; lra|].
  assert (0 <= u' c * (h - 0)) by (apply Rmult_le_pos; [apply P; lra|lra]). lra.
Qed.
(** |u'| <= B' gives |u h - u 0| <= B h - B 0 *)
Lemma bound_int u u' B B' h : 0 <= h -> (forall c, 0 <= c <= h -> derivable_pt_lim u c (u' c)) -> (forall c, 0 <= c <= h -> derivable_pt_lim B c (B' c)) ->
  (forall c, 0 <= c <= h -> Rabs (u' c) <= B' c) -> Rabs (u h - u 0) <= B h - B 0.
Proof.
  intros H D DB P. apply Rabs_le.
  assert (G : forall c, 0 <= c <= h -> - B' c <= u' c <= B' c).
  { intros c Hc. specialize (P c Hc). split; [pose proof (Rle_abs (- u' c)) as Q; rewrite Rabs_Ropp in Q; lra|pose proof (Rle_abs (u' c)); lra]. }
  assert (M1 : (B - u)%F 0 <= (B - u)%F h).
  { apply (mono _ (fun c => B' c - u' c)); [lra| |].
    - intros c Hc. apply derivable_pt_lim_minus; auto.
    - intros c Hc. specialize (G c Hc). lra. }
  assert (M2 : (B + u)%F 0 <= (B + u)%F h).
  { apply (mono _ (fun c => B' c + u' c)); [lra| |].
    - intros c Hc. apply derivable_pt_lim_plus; auto.
    - intros c Hc. specialize (G c Hc). lra. }
  unfold minus_fct, plus_fct in *. lra.
Qed.
Lemma lim_eq f t a b : derivable_pt_lim f t a -> a = b -> derivable_pt_lim f t b.
Proof. now intros H <-. Qed.
Lemma lim_poly k n t : derivable_pt_lim (fun c => k * c ^ n) t (k * (INR n * t ^ pred n)).
Proof. exact (derivable_pt_lim_scal (fun c => c ^ n) k t _ (derivable_pt_lim_pow t n)). Qed.
Section Taylor.
Variables (phi f1 f2 f3 : R -> R) (h M2 M3 : R).
Hypothesis h_pos : 0 < h.
Hypothesis D1 : forall t, - h <= t <= h -> derivable_pt_lim phi t (f1 t).
Hypothesis D2 : forall t, - h <= t <= h -> derivable_pt_lim f1 t (f2 t).
Lemma taylor1 : (forall t, 0 <= t <= h -> Rabs (f2 t) <= M2) -> Rabs (phi h - phi 0 - f1 0 * h) <= M2 * h * h / 2.
Proof.
  intros Hb.
  assert (S1 : forall t, 0 <= t <= h -> Rabs (f1 t - f1 0) <= M2 * t).
  { intros t Ht. replace (M2 * t) with (M2 * t ^ 1 - M2 * 0 ^ 1) by (simpl; ring). apply (bound_int f1 f2 (fun c => M2 * c ^ 1) (fun c => M2 * (INR 1 * c ^ 0))); [lra| | |].
    - intros c Hc. apply D2. lra.
    - intros c Hc. apply (lim_poly M2 1 c).
    - intros c Hc. simpl. rewrite !Rmult_1_r. apply Hb. lra. }
  pose (u := fun t => phi t - f1 0 * t).
  assert (E : phi h - phi 0 - f1 0 * h = u h - u 0) by (unfold u; ring). rewrite E.
  replace (M2 * h * h / 2) with (M2 / 2 * h ^ 2 - M2 / 2 * 0 ^ 2) by (simpl; field).
  apply (bound_int u (fun t => f1 t - f1 0) (fun c => M2 / 2 * c ^ 2) (fun c => M2 / 2 * (INR 2 * c ^ 1))); [lra| | |].
  - intros c Hc. unfold u. apply (derivable_pt_lim_minus phi (fun t => f1 0 * t)); [apply D1; lra|].
    apply (lim_eq _ _ (f1 0 * 1)); [exact (derivable_pt_lim_scal id (f1 0) c 1 (derivable_pt_lim_id c))|ring].
  - intros c Hc. apply (lim_poly (M2 / 2) 2 c).
  - intros c Hc. simpl. replace (M2 / 2 * ((1 + 1) * (c * 1))) with (M2 * c) by field. apply S1. lra.
Qed.
Lemma lim_neg f g t : derivable_pt_lim f (- t) g -> derivable_pt_lim (fun c => f (- c)) t (- g).
Proof.
  intros H. apply (lim_eq _ _ (g * -1)); [|ring].
  apply (derivable_pt_lim_comp (fun c => - c) f t (-1) g); [|exact H].
  apply (lim_eq _ _ (- 1)); [exact (derivable_pt_lim_opp id t 1 (derivable_pt_lim_id t))|lra].
Qed.
Lemma taylor2 : (forall t, - h <= t <= h -> derivable_pt_lim f2 t (f3 t)) -> (forall t, - h <= t <= h -> Rabs (f3 t) <= M3) ->
  Rabs (phi h - phi (- h) - 2 * f1 0 * h) <= M3 * h * h * h / 3.
Proof.
  intros D3 Hb.
  assert (S2 : forall t, 0 <= t <= h -> Rabs (f2 t - f2 (- t)) <= M3 * (2 * t)).
  { intros t Ht. destruct (Req_dec t 0) as [->|N]; [rewrite Ropp_0, Rminus_eq_0, Rabs_R0; lra|].
    destruct (MVT_cor2 f2 f3 (- t) t) as (c & E & Hc); [lra|intros; apply D3; lra|].
    rewrite E, Rabs_mult. rewrite (Rabs_right (t - - t)) by lra. replace (t - - t) with (2 * t) by ring.
    apply Rmult_le_compat_r; [lra|]. apply Hb. lra. }
  assert (S1 : forall t, 0 <= t <= h -> Rabs (f1 t + f1 (- t) - 2 * f1 0) <= M3 * t * t).
  { intros t Ht. pose (v := fun t => f1 t + f1 (- t)).
    replace (f1 t + f1 (- t) - 2 * f1 0) with (v t - v 0) by (unfold v; rewrite Ropp_0; ring).
    replace (M3 * t * t) with (M3 * t ^ 2 - M3 * 0 ^ 2) by (simpl; ring).
    apply (bound_int v (fun t => f2 t - f2 (- t)) (fun c => M3 * c ^ 2) (fun c => M3 * (INR 2 * c ^ 1))); [lra| | |].
    - intros c Hc. unfold v. apply (lim_eq _ _ (f2 c + - f2 (- c))); [|ring].
      apply (derivable_pt_lim_plus f1 (fun c => f1 (- c))); [apply D2; lra|apply lim_neg, D2; lra].
    - intros c Hc. apply (lim_poly M3 2 c).
    - intros c Hc. simpl. replace (M3 * ((1 + 1) * (c * 1))) with (M3 * (2 * c)) by ring. apply S2. lra. }
  pose (w := fun t => phi t - phi (- t) - 2 * f1 0 * t).
  assert (E : phi h - phi (- h) - 2 * f1 0 * h = w h - w 0) by (unfold w; rewrite Ropp_0; ring). rewrite E.
  replace (M3 * h * h * h / 3) with (M3 / 3 * h ^ 3 - M3 / 3 * 0 ^ 3) by (simpl; field).
  apply (bound_int w (fun t => f1 t + f1 (- t) - 2 * f1 0) (fun c => M3 / 3 * c ^ 3) (fun c => M3 / 3 * (INR 3 * c ^ 2))); [lra| | |].
  - intros c Hc. unfold w. apply (derivable_pt_lim_minus (fun t => phi t - phi (- t)) (fun t => 2 * f1 0 * t)).
    + apply (lim_eq _ _ (f1 c - - f1 (- c))); [|ring].
      apply (derivable_pt_lim_minus phi (fun c => phi (- c))); [apply D1; lra|apply lim_neg, D1; lra].
    + apply (lim_eq _ _ (2 * f1 0 * 1)); [exact (derivable_pt_lim_scal id (2 * f1 0) c 1 (derivable_pt_lim_id c))|ring].
  - intros c Hc. apply (lim_poly (M3 / 3) 3 c).
  - intros c Hc. simpl. replace (M3 / 3 * ((1 + 1 + 1) * (c * (c * 1)))) with (M3 * c * c) by field. apply S1. lra.
Qed.
End Taylor.

Lemma accuracy eps adp (f g : vec -> vec) x n J i k f1 f2 f3 M2 M3 delta : respects f -> 0 < eps -> (k < n)%nat -> adp k = true ->
  let h := step eps k x in
  let phi := fun t => g (shift x k t) i in
  (forall t, Rabs (f (shift x k t) i - phi t) <= delta) ->
  (forall t, - h <= t <= h -> derivable_pt_lim phi t (f1 t) /\ derivable_pt_lim f1 t (f2 t)) ->
  ((forall t, 0 <= t <= h -> Rabs (f2 t) <= M2) -> Rabs (forward vector_op eps adp f x n J i k - f1 0) <= M2 * h / 2 + 2 * delta / h) /\
  ((forall t, - h <= t <= h -> derivable_pt_lim f2 t (f3 t) /\ Rabs (f3 t) <= M3) ->
   Rabs (central vector_op eps adp f x n J i k - f1 0) <= M3 * h * h / 6 + delta / h).
Proof.
  intros RF E0 K A h phi Hd Hf.
  assert (Hh : 0 < h) by (apply step_pos; exact E0).
  assert (X0 : forall t, shift x k t = shift x k t) by reflexivity.
  split.
  - intros HM.
    assert (T := taylor1 phi f1 f2 h M2 Hh (fun t Ht => proj1 (Hf t Ht)) (fun t Ht => proj2 (Hf t Ht)) HM).
    rewrite (vector_forward eps adp f x n J i k RF), (ltb_case3 K A). fold h.
    assert (F0 : f x i = f (shift x k 0) i) by (apply RF; intros j; unfold shift; destruct (Nat.eqb j k); lra).
    rewrite F0. pose proof (Hd h) as B1. pose proof (Hd 0) as B2.
    set (a := f (shift x k h) i) in *. set (b := f (shift x k 0) i) in *.
    replace ((a - b) / h - f1 0) with (((a - phi h) - (b - phi 0) + (phi h - phi 0 - f1 0 * h)) / h) by (field; lra).
    unfold Rdiv at 1. rewrite Rabs_mult, (Rabs_right (/ h)) by (apply Rle_ge, Rlt_le, Rinv_0_lt_compat, Hh).
    replace (M2 * h / 2 + 2 * delta / h) with ((2 * delta + M2 * h * h / 2) * / h) by (field; lra).
    apply Rmult_le_compat_r; [apply Rlt_le, Rinv_0_lt_compat, Hh|].
    eapply Rle_trans; [apply Rabs_triang|]. apply Rplus_le_compat; [|exact T].
    eapply Rle_trans; [apply (Rabs_triang (a - phi h) (- (b - phi 0)))|]. rewrite Rabs_Ropp. lra.
  - intros HM.
    assert (T := taylor2 phi f1 f2 f3 h M3 Hh (fun t Ht => proj1 (Hf t Ht)) (fun t Ht => proj2 (Hf t Ht)) (fun t Ht => proj1 (HM t Ht)) (fun t Ht => proj2 (HM t Ht))).
    rewrite (vector_central eps adp f x n J i k RF), (ltb_case3 K A). fold h.
    pose proof (Hd h) as B1. pose proof (Hd (- h)) as B2.
    set (a := f (shift x k h) i) in *. set (b := f (shift x k (- h)) i) in *.
    replace ((a - b) / h / 2 - f1 0) with (((a - phi h) - (b - phi (- h)) + (phi h - phi (- h) - 2 * f1 0 * h)) / (2 * h)) by (field; lra).
    unfold Rdiv at 1. rewrite Rabs_mult, (Rabs_right (/ (2 * h))) by (apply Rle_ge, Rlt_le, Rinv_0_lt_compat; lra).
    replace (M3 * h * h / 6 + delta / h) with ((2 * delta + M3 * h * h * h / 3) * / (2 * h)) by (field; lra).
    apply Rmult_le_compat_r; [apply Rlt_le, Rinv_0_lt_compat; lra|].
    eapply Rle_trans; [apply Rabs_triang|]. apply Rplus_le_compat; [|exact T].
    eapply Rle_trans; [apply (Rabs_triang (a - phi h) (- (b - phi (- h))))|]. rewrite Rabs_Ropp. lra.
Qed.

(** f (t) = t + 1 at 2^-60 and at 0 *)
Lemma float_case : let f := fun t => fadd t one in
  fcentral eps_default f (halved 60 one) = S754_zero false /\ fforward eps_default f (halved 60 one) = S754_zero false /\
  fcentral eps_default f (S754_zero false) = one /\ fforward eps_default f (S754_zero false) = one.
Proof. vm_compute. repeat split. Qed.

(** x^3 at 1 with step 1: the bound of central differences is reached *)
Lemma cube_case : let f := (fun (x : vec) (_ : nat) => x 0%nat * x 0%nat * x 0%nat) in let x := (fun _ : nat => 1) in
  let phi := fun t => f (shift x 0 t) 0%nat in let f1 := fun t => 3 * (1 + t) * (1 + t) in let f2 := fun t => 6 * (1 + t) in
  step 1 0 x = 1 /\
  (forall t, derivable_pt_lim phi t (f1 t) /\ derivable_pt_lim f1 t (f2 t) /\ derivable_pt_lim f2 t 6) /\
  central vector_op 1 (fun _ => true) f x 1 (fun _ _ => 0) 0%nat 0%nat = f1 0 + 6 * 1 * 1 / 6.
Proof.
  cbv zeta.
  assert (S1 : step 1 0 (fun _ : nat => 1) = 1).
  { unfold step, is0. rewrite Rabs_right by lra. destruct (Req_EM_T 1 0); lra. }
  split; [exact S1|].
  assert (L1 : forall t, derivable_pt_lim (fun c => 1 + c) t 1).
  { intros t. apply (lim_eq _ _ (0 + 1)); [|ring]. exact (derivable_pt_lim_plus (fun _ => 1) id t 0 1 (derivable_pt_lim_const 1 t) (derivable_pt_lim_id t)). }
  assert (L2 : forall t, derivable_pt_lim (fun c => (1 + c) * (1 + c)) t (2 * (1 + t))).
  { intros t. apply (lim_eq _ _ (1 * (1 + t) + (1 + t) * 1)); [|ring]. exact (derivable_pt_lim_mult (fun c => 1 + c) (fun c => 1 + c) t 1 1 (L1 t) (L1 t)). }
  split; [intros t; split; [|split]|].
  - apply (lim_eq _ _ (2 * (1 + t) * (1 + t) + (1 + t) * (1 + t) * 1)); [|ring].
    exact (derivable_pt_lim_mult (fun c => (1 + c) * (1 + c)) (fun c => 1 + c) t _ 1 (L2 t) (L1 t)).
  - apply (lim_ext (fun c => 3 * ((1 + c) * (1 + c)))); [intros; ring|]. apply (lim_eq _ _ (3 * (2 * (1 + t)))); [|ring].
    exact (derivable_pt_lim_scal (fun c => (1 + c) * (1 + c)) 3 t _ (L2 t)).
  - apply (lim_eq _ _ (6 * 1)); [|ring]. exact (derivable_pt_lim_scal (fun c => 1 + c) 6 t _ (L1 t)).
  - rewrite vector_central; [|intros u v H j; now rewrite !H]. rewrite S1. cbn. unfold shift. cbn. field.
Qed.

Lemma float_step : fmul eps_default eps_default = halved 52 one /\ fadd one (halved 53 one) = one /\ fadd one (halved 52 one) <> one /\
  fstep eps_default one = eps_default /\ fstep eps_default (SFopp one) = eps_default /\ fstep eps_default (S754_zero false) = eps_default /\
  fstep eps_default (SFopp (halved 60 one)) = halved 86 one.
Proof. repeat split; try (vm_compute; reflexivity). vm_compute. discriminate. Qed.
