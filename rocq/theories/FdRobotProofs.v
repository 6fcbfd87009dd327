From Coq Require Import Reals List Bool Arith Lra Lia.
From Verif Require Import FdModel FdProofs FdAccProofs FdRobotModel.
Local Open Scope R_scope.

Lemma robot_accuracy integ eps adp (f g : vec -> vec) x n J i k f1 f2 f3 M2 M3 delta : respects f ->
  (forall u v, (forall k, u k = v k) -> forall k, integ x u k = integ x v k) -> (forall k, integ x (fun _ => 0) k = x k) ->
  0 < eps -> (k < n)%nat -> adp k = true ->
  let h := step eps k x in
  let phi := fun t => g (integ x (unit_vec k t)) i in
  (forall t, Rabs (f (integ x (unit_vec k t)) i - phi t) <= delta) ->
  (forall t, - h <= t <= h -> derivable_pt_lim phi t (f1 t) /\ derivable_pt_lim f1 t (f2 t)) ->
  ((forall t, 0 <= t <= h -> Rabs (f2 t) <= M2) -> Rabs (forward (robot_op integ) eps adp f x n J i k - f1 0) <= M2 * h / 2 + 2 * delta / h) /\
  ((forall t, - h <= t <= h -> derivable_pt_lim f2 t (f3 t) /\ Rabs (f3 t) <= M3) ->
   Rabs (central (robot_op integ) eps adp f x n J i k - f1 0) <= M3 * h * h / 6 + delta / h).
Proof.
  intros RF RI I0 E0 K A h phi Hd Hf.
  assert (Hh : 0 < h) by (apply step_pos; exact E0).
  split.
  - intros HM.
    assert (T := taylor1 phi f1 f2 h M2 Hh (fun t Ht => proj1 (Hf t Ht)) (fun t Ht => proj2 (Hf t Ht)) HM).
    rewrite (robot_forward integ eps adp f x n J i k RF RI), (ltb_case3 K A). fold h.
    assert (F0 : f x i = f (integ x (unit_vec k 0)) i).
    { apply RF. intros j. rewrite <- I0. apply RI. intros m. unfold unit_vec. now destruct (Nat.eqb m k). }
    rewrite F0. pose proof (Hd h) as B1. pose proof (Hd 0) as B2.
    set (a := f (integ x (unit_vec k h)) i) in *. set (b := f (integ x (unit_vec k 0)) i) in *.
    replace ((a - b) / h - f1 0) with (((a - phi h) - (b - phi 0) + (phi h - phi 0 - f1 0 * h)) / h) by (field; lra).
    unfold Rdiv at 1. rewrite Rabs_mult, (Rabs_right (/ h)) by (apply Rle_ge, Rlt_le, Rinv_0_lt_compat, Hh).
    replace (M2 * h / 2 + 2 * delta / h) with ((2 * delta + M2 * h * h / 2) * / h) by (field; lra).
    apply Rmult_le_compat_r; [apply Rlt_le, Rinv_0_lt_compat, Hh|].
    eapply Rle_trans; [apply Rabs_triang|]. apply Rplus_le_compat; [|exact T].
    eapply Rle_trans; [apply (Rabs_triang (a - phi h) (- (b - phi 0)))|]. rewrite Rabs_Ropp. lra.
  - intros HM.
    assert (T := taylor2 phi f1 f2 f3 h M3 Hh (fun t Ht => proj1 (Hf t Ht)) (fun t Ht => proj2 (Hf t Ht)) (fun t Ht => proj1 (HM t Ht)) (fun t Ht => proj2 (HM t Ht))).
    rewrite (robot_central integ eps adp f x n J i k RF RI), (ltb_case3 K A). fold h.
    pose proof (Hd h) as B1. pose proof (Hd (- h)) as B2.
    set (a := f (integ x (unit_vec k h)) i) in *. set (b := f (integ x (unit_vec k (- h))) i) in *.
    replace ((a - b) / h / 2 - f1 0) with (((a - phi h) - (b - phi (- h)) + (phi h - phi (- h) - 2 * f1 0 * h)) / (2 * h)) by (field; lra).
    unfold Rdiv at 1. rewrite Rabs_mult, (Rabs_right (/ (2 * h))) by (apply Rle_ge, Rlt_le, Rinv_0_lt_compat; lra).
    replace (M3 * h * h / 6 + delta / h) with ((2 * delta + M3 * h * h * h / 3) * / (2 * h)) by (field; lra).
    apply Rmult_le_compat_r; [apply Rlt_le, Rinv_0_lt_compat; lra|].
    eapply Rle_trans; [apply Rabs_triang|]. apply Rplus_le_compat; [|exact T].
    eapply Rle_trans; [apply (Rabs_triang (a - phi h) (- (b - phi (- h))))|]. rewrite Rabs_Ropp. lra.
Qed.

Lemma chain_ext x u v : (forall k, u k = v k) -> forall k, chain_integrate x u k = chain_integrate x v k.
Proof. intros H k. destruct k as [|[|[|[|k]]]]; cbn; now rewrite ?H. Qed.
Lemma chain_zero x k : chain_integrate x (fun _ => 0) k = x k.
Proof. destruct k as [|[|[|[|k]]]]; cbn; rewrite ?cos_0, ?sin_0; ring. Qed.

Lemma cube3_respects : respects cube3.
Proof. intros u v H i. unfold cube3. now rewrite H. Qed.

Lemma chain_values eps x J : 0 < eps -> x 2%nat <> 0 ->
  let h := eps * Rabs (x 2%nat) in let b := x 3%nat in
  forward (robot_op chain_integrate) eps (fun _ => true) cube3 x 3 J 0%nat 2%nat = 3 * b * b + 3 * b * h + h * h /\
  central (robot_op chain_integrate) eps (fun _ => true) cube3 x 3 J 0%nat 2%nat = 3 * b * b + h * h.
Proof.
  intros E N h b.
  assert (S : step eps 2 x = h). { unfold step, is0. destruct (Req_EM_T (Rabs (x 2%nat)) 0) as [Z|Z]; [|reflexivity]. destruct (Rabs_no_R0 _ N Z). }
  assert (P : 0 < h) by (apply Rmult_lt_0_compat; [exact E|now apply Rabs_pos_lt]).
  rewrite (robot_forward chain_integrate eps (fun _ => true) cube3 x 3 J 0 2 cube3_respects (chain_ext x)).
  rewrite (robot_central chain_integrate eps (fun _ => true) cube3 x 3 J 0 2 cube3_respects (chain_ext x)).
  rewrite S. cbn [Nat.ltb Nat.leb]. unfold cube3, chain_integrate, unit_vec. cbn [Nat.eqb]. fold b. split; field; lra.
Qed.

Lemma chain_unbounded eps M : 0 < eps -> exists x, x 0%nat * x 0%nat + x 1%nat * x 1%nat = 1 /\ x 3%nat = 1 /\ forall J,
  M < Rabs (forward (robot_op chain_integrate) eps (fun _ => true) cube3 x 3 J 0%nat 2%nat - 3) /\
  M < Rabs (central (robot_op chain_integrate) eps (fun _ => true) cube3 x 3 J 0%nat 2%nat - 3).
Proof.
  intros E. set (a := (1 + Rabs M) / eps).
  assert (AM := Rabs_pos M). assert (MM := Rle_abs M).
  assert (Pa : 0 < a) by (apply Rdiv_lt_0_compat; lra).
  exists (fun k => match k with 0%nat => 1 | 1%nat => 0 | 2%nat => a | 3%nat => 1 | _ => 0 end).
  split; [ring|]. split; [reflexivity|]. intros J.
  destruct (chain_values eps (fun k => match k with 0%nat => 1 | 1%nat => 0 | 2%nat => a | 3%nat => 1 | _ => 0 end) J E) as [F C]; [lra|].
  rewrite F, C. rewrite (Rabs_right a) by lra.
  replace (eps * a) with (1 + Rabs M) by (unfold a; field; lra).
  assert (Q : 1 + Rabs M <= (1 + Rabs M) * (1 + Rabs M)) by nra.
  split; (eapply Rlt_le_trans; [|apply Rle_abs]); lra.
Qed.

Lemma chain_deriv x : derivable_pt_lim (fun t => cube3 (chain_integrate x (unit_vec 2 t)) 0%nat) 0 (3 * x 3%nat * x 3%nat).
Proof.
  unfold cube3, chain_integrate, unit_vec. cbn [Nat.eqb]. set (b := x 3%nat).
  assert (D : derivable_pt_lim (fun t => b + t) 0 1).
  { apply (lim_eq _ _ (0 + 1)); [|ring]. exact (derivable_pt_lim_plus (fct_cte b) id 0 0 1 (derivable_pt_lim_const b 0) (derivable_pt_lim_id 0)). }
  assert (D2 := derivable_pt_lim_mult _ _ 0 _ _ D D). assert (D3 := derivable_pt_lim_mult _ _ 0 _ _ D2 D).
  apply (lim_eq _ _ _ _ D3). unfold mult_fct. ring.
Qed.

Lemma chain_refuted eps M : 0 < eps -> exists x, x 0%nat * x 0%nat + x 1%nat * x 1%nat = 1 /\ x 3%nat = 1 /\
  derivable_pt_lim (fun t => cube3 (chain_integrate x (unit_vec 2 t)) 0%nat) 0 3 /\ forall J,
  M < Rabs (forward (robot_op chain_integrate) eps (fun _ => true) cube3 x 3 J 0%nat 2%nat - 3) /\
  M < Rabs (central (robot_op chain_integrate) eps (fun _ => true) cube3 x 3 J 0%nat 2%nat - 3).
Proof.
  intros E. destruct (chain_unbounded eps M E) as (x & A & B & C). exists x. split; [exact A|]. split; [exact B|]. split; [|exact C].
  apply (lim_eq _ _ _ _ (chain_deriv x)). rewrite B. ring.
Qed.
