From Coq Require Import Reals Lra Lia List.
From Verif Require Import Geo GeoLemmas Rigid GTDeriv QPModel QPSpec.
Import ListNotations.
Local Open Scope R_scope.

Lemma tdot_sym a b : tdot a b = tdot b a.
Proof. unfold tdot, vdot. ring. Qed.
Lemma tdot_add a b c : tdot a (tadd b c) = tdot a b + tdot a c.
Proof. unfold tdot, tadd, vdot. cbn. ring. Qed.
Lemma tdot_scale a s b : tdot a (tscale s b) = s * tdot a b.
Proof. unfold tdot, tscale, vdot. cbn. ring. Qed.
Lemma tdot_0 a : tdot a t0 = 0.
Proof. unfold tdot, t0, vdot. cbn. ring. Qed.
Lemma tdot_add_l a b c : tdot (tadd a b) c = tdot a c + tdot b c.
Proof. now rewrite tdot_sym, tdot_add, !(tdot_sym c). Qed.
Lemma tdot_scale_l a s b : tdot (tscale s a) b = s * tdot a b.
Proof. now rewrite tdot_sym, tdot_scale, (tdot_sym b). Qed.
Lemma tdot_pos a : 0 <= tdot a a.
Proof. unfold tdot, vdot. nra. Qed.
Lemma tdot_zero a : tdot a a = 0 -> a = t0.
Proof. destruct a as [[x y z] [u v w]]. unfold tdot, vdot, t0, v0. cbn. intros H. f_equal; f_equal; nra. Qed.

Lemma dots_map (P : list twist) e : forall F, length F = length P -> dots (map (fun a => tdot a e) P) F = tdot (japp P F) e.
Proof.
  induction P as [|a P IH]; intros [|x F] L; try discriminate L; cbn; [now rewrite tdot_sym, tdot_0|].
  rewrite IH by (cbn in L; lia). rewrite tdot_add_l, tdot_scale_l. ring.
Qed.
Lemma dots_sym u : forall v, dots u v = dots v u.
Proof. induction u as [|x u IH]; intros [|y v]; cbn; auto. rewrite IH. ring. Qed.
Lemma quad (P : list twist) : forall F, length F = length P -> dots F (map (fun row => dots row F) (hessian P)) = tdot (japp P F) (japp P F).
Proof.
  intros F L. unfold hessian. rewrite map_map.
  rewrite (map_ext _ (fun a => tdot a (japp P F))).
  - rewrite dots_sym. now apply dots_map.
  - intros a. rewrite (tdot_sym a (japp P F)), <- (dots_map P a F L). f_equal. apply map_ext. intros. apply tdot_sym.
Qed.
Lemma objective_E P F : length F = length P -> 2 * objective (hessian P) (gradient P) F + tdot minus_gravity minus_gravity = residual P F.
Proof.
  intros L. unfold objective, residual, gradient. rewrite quad, dots_map by exact L.
  rewrite tdot_add, !tdot_add_l, (tdot_sym gravity (japp P F)). replace (tdot gravity gravity) with (tdot minus_gravity minus_gravity) by (unfold tdot, gravity, minus_gravity, vdot, v0; cbn; ring). field.
Qed.
Section P.
Variable qp : list (list R) -> list R -> list R * R.
Lemma solve_min P : qp_solves qp P -> exists F, solveQP qp (QPS P) = (F, residual P F) /\ forces (length P) F /\ forall F', forces (length P) F' -> residual P F <= residual P F'.
Proof.
  unfold qp_solves, solveQP. cbn [pval]. destruct (qp (hessian P) (gradient P)) as [F obj]. intros (HF & -> & M).
  exists F. assert (L : length F = length P) by apply HF. rewrite objective_E by exact L. split; [reflexivity|]. split; [exact HF|].
  intros F' HF'. specialize (M F' HF'). rewrite <- !objective_E by (try exact L; apply HF'). lra.
Qed.

Variable Q : Type.
Variables (phi : Q -> list twist) (dphi : Q -> list (list twist)).
Lemma value_right st q : qp_solves qp (phi q) ->
  let r := snd (qp_compute Q phi qp st q) in
  (exists F, forces (length (phi q)) F /\ r = residual (phi q) F) /\
  (forall F, forces (length (phi q)) F -> r <= residual (phi q) F) /\ 0 <= r /\ (r = 0 <-> balanced (phi q)).
Proof.
  intros S. destruct (solve_min _ S) as (F & E & HF & M). cbv zeta. unfold qp_compute. cbn [snd]. rewrite E. cbn [snd].
  split; [eauto|]. split; [exact M|]. split; [apply tdot_pos|]. split.
  - intros Z. exists F. split; [exact HF|]. apply tdot_zero in Z. destruct (japp (phi q) F) as [[a b c] [d e f]]. unfold tadd, gravity, t0, minus_gravity, vadd, v0 in *. cbn in Z. injection Z as. f_equal; f_equal; lra.
  - intros (F' & HF' & B). assert (Y := M F' HF'). unfold residual in Y at 2. rewrite B in Y.
    assert (Z : tdot (tadd minus_gravity gravity) (tadd minus_gravity gravity) = 0) by (unfold tdot, tadd, minus_gravity, gravity, vdot, v0; cbn; ring).
    cbv zeta in Y. rewrite Z in Y. pose proof (tdot_pos (tadd (japp (phi q) F) gravity)). unfold residual in *. cbv zeta in *. lra.
Qed.

(** * Jacobian *)
Lemma jt_dot dP e k : forall F, length F = length dP -> dots F (jttimes dP e k) = tdot e (jtimes dP F k).
Proof.
  unfold jttimes. induction dP as [|c dP IH]; intros [|x F] L; try discriminate L; cbn; [now rewrite tdot_0|].
  rewrite IH by (cbn in L; lia). now rewrite tdot_add, tdot_scale.
Qed.
Lemma jac_half st nv q F : fst (solveQP qp st) = F -> length F = length (dphi q) ->
  qp_jacobian Q dphi qp st nv q = map (fun k => tdot (tadd (japp (pval st) F) gravity) (jtimes (dphi q) F k)) (seq 0 nv).
Proof.
  intros E L. unfold qp_jacobian. rewrite E. cbv zeta. apply map_ext. intros k. rewrite jt_dot by exact L.
  rewrite !tdot_add_l, tdot_scale_l. field.
Qed.
Lemma rapp_map_add {A} (f g : A -> R) l : forall d, rapp (map (fun k => f k + g k) l) d = rapp (map f l) d + rapp (map g l) d.
Proof. induction l as [|a l IH]; intros [|x d]; cbn; try ring. rewrite IH. ring. Qed.
Lemma rapp_map_scale {A} (f : A -> R) a l : forall d, rapp (map (fun k => a * f k) l) d = a * rapp (map f l) d.
Proof. induction l as [|b l IH]; intros [|x d]; cbn; try ring. rewrite IH. ring. Qed.
Lemma rapp_tdot e c : forall d, rapp (map (tdot e) c) d = tdot e (japp c d).
Proof. induction c as [|a c IH]; intros [|x d]; cbn; try (now rewrite tdot_0). rewrite IH, tdot_add, tdot_scale. ring. Qed.
Lemma map_nth_seq (h : twist -> R) c : map (fun k => h (nth k c t0)) (seq 0 (length c)) = map h c.
Proof. induction c as [|a c IH]; cbn; [reflexivity|]. f_equal. now rewrite <- seq_shift, map_map. Qed.
Lemma sum_cols dP e d : forall F, length F = length dP -> (forall i, (i < length dP)%nat -> length (nth i dP []) = length d) ->
  rapp (map (fun k => tdot e (jtimes dP F k)) (seq 0 (length d))) d = tdot e (japp (map (fun c => japp c d) dP) F).
Proof.
  induction dP as [|c dP IH]; intros [|x F] L H; try discriminate L.
  - cbn. rewrite tdot_0. apply rapp_zero, Forall_forall. intros y Hy. apply in_map_iff in Hy as (? & <- & _). rewrite ?tdot_0. reflexivity.
  - cbn [jtimes map japp]. rewrite tdot_add, tdot_scale, <- (IH F) by (cbn in L; try lia; intros i Hi; apply (H (S i)); cbn; lia).
    assert (Hc : length c = length d) by (apply (H 0%nat); cbn; lia).
    rewrite (rapp_ext _ (fun k => x * tdot e (nth k c t0) + tdot e (jtimes dP F k))) by (intros; now rewrite tdot_add, tdot_scale).
    rewrite rapp_map_add. f_equal. rewrite rapp_map_scale. f_equal. rewrite <- Hc, (map_nth_seq (tdot e)). apply rapp_tdot.
Qed.

(** ** derivative of the residual with constant forces *)
Lemma tderiv_ext f g t a : (forall s, f s = g s) -> tderiv f t a -> tderiv g t a.
Proof.
  intros E [[A [B C]] [D [G K]]]. repeat split; [eapply deriv_ext; [|exact A]|eapply deriv_ext; [|exact B]|eapply deriv_ext; [|exact C]|eapply deriv_ext; [|exact D]|eapply deriv_ext; [|exact G]|eapply deriv_ext; [|exact K]]; intros; cbn; now rewrite E.
Qed.
Lemma tderiv_add f g t a b : tderiv f t a -> tderiv g t b -> tderiv (fun s => tadd (f s) (g s)) t (tadd a b).
Proof.
  intros [[A [B C]] [D [G K]]] [[A' [B' C']] [D' [G' K']]]. repeat split; cbn; apply deriv_add; assumption.
Qed.
Lemma tderiv_const a t : tderiv (fun _ => a) t t0.
Proof. repeat split; cbn; apply deriv_const. Qed.
Lemma tderiv_scale x f t a : tderiv f t a -> tderiv (fun s => tscale x (f s)) t (tscale x a).
Proof. intros [[A [B C]] [D [G K]]]. repeat split; cbn; apply deriv_scale; assumption. Qed.
Lemma tderiv_app (P : R -> list twist) t (D : list twist) : forall n F, length D = n -> length F = n ->
  (forall s, length (P s) = n) -> (forall i, (i < n)%nat -> tderiv (fun s => nth i (P s) t0) t (nth i D t0)) ->
  tderiv (fun s => japp (P s) F) t (japp D F).
Proof.
  intros n F LD. revert n P LD F. induction D as [|a D IH]; intros n P LD F LF LP H.
  - apply (tderiv_ext (fun _ => t0)); [|apply tderiv_const]. intros s. specialize (LP s). destruct (P s); [reflexivity|]. cbn in *. lia.
  - destruct F as [|x F]; [cbn in *; lia|]. destruct n as [|n]; [discriminate LD|].
    apply (tderiv_ext (fun s => tadd (tscale x (nth 0 (P s) t0)) (japp (tl (P s)) F))).
    + intros s. specialize (LP s). destruct (P s); [discriminate LP|reflexivity].
    + cbn [japp]. apply tderiv_add; [apply tderiv_scale, (H 0%nat); lia|].
      apply (IH n); cbn in *; try lia. * intros s. specialize (LP s). destruct (P s); cbn in *; lia.
      * intros i Hi. apply (tderiv_ext (fun s => nth (S i) (P s) t0)); [|apply (H (S i)); lia]. intros s. specialize (LP s). destruct (P s); [discriminate LP|reflexivity].
Qed.
Lemma tdot_deriv f t a : tderiv f t a -> deriv (fun s => tdot (f s) (f s)) t (2 * tdot (f t) a).
Proof.
  intros [[A [B C]] [D [G K]]]. unfold tdot, vdot.
  eapply deriv_eq; [|repeat apply deriv_add; apply deriv_mul; eassumption]. cbv beta. ring.
Qed.
Lemma envelope r h t r' h' : deriv r t r' -> deriv h t h' -> (forall s, r s <= h s) -> r t = h t -> r' = h'.
Proof.
  intros Dr Dh L E.
  assert (D : derivable_pt_lim (fun s => h s - r s) t (h' - r')) by (apply (derivable_pt_lim_minus h r); assumption).
  pose (pr := exist _ (h' - r') D : derivable_pt (fun s => h s - r s) t).
  assert (Z : derive_pt (fun s => h s - r s) t pr = 0).
  { apply (deriv_minimum _ (t - 1) (t + 1)); try lra. intros s _ _. specialize (L s). lra. }
  unfold derive_pt, pr in Z. cbn in Z. lra.
Qed.
Lemma jacobian_right (c : R -> Q) t d r' st nv : columns_move phi dphi c t d -> (forall s, qp_solves qp (phi (c s))) ->
  length d = nv -> pval st = phi (c t) -> (forall st, deriv (fun s => snd (qp_compute Q phi qp st (c s))) t r') ->
  r' = 2 * rapp (qp_jacobian Q dphi qp st nv (c t)) d.
Proof.
  intros [LP M] S Ln Pv Dr. destruct st as [pv]. cbn in Pv. subst pv nv.
  destruct (solve_min _ (S t)) as (F & E & HF & MF).
  assert (LF : length F = length (dphi (c t))) by (rewrite <- (LP t); apply HF).
  rewrite (jac_half _ _ _ F) by (try rewrite E; auto). cbn [pval].
  rewrite sum_cols by (try exact LF; intros i Hi; apply M; exact Hi).
  refine (envelope _ (fun s => residual (phi (c s)) F) t _ _ (Dr (QPS [])) _ _ _).
  - unfold residual. cbv zeta. apply (tdot_deriv (fun s => tadd (japp (phi (c s)) F) gravity)).
    apply (tderiv_ext (fun s => tadd (japp (phi (c s)) F) gravity)); [reflexivity|].
    replace (japp (map (fun c0 => japp c0 d) (dphi (c t))) F) with (tadd (japp (map (fun c0 => japp c0 d) (dphi (c t))) F) t0) by (destruct (japp _ _) as [[? ? ?] [? ? ?]]; unfold tadd, t0, vadd, v0; cbn; now rewrite !Rplus_0_r).
    apply tderiv_add; [|apply tderiv_const]. apply (tderiv_app _ _ _ (length (dphi (c t)))); [apply map_length|exact LF|exact LP|].
    intros i Hi. destruct (M i Hi) as [_ Di]. rewrite (nth_indep _ t0 (japp [] d)) by now rewrite map_length. rewrite (map_nth (fun c0 => japp c0 d)). exact Di.
  - intros s. destruct (value_right (QPS []) (c s) (S s)) as (_ & Y & _). apply Y. destruct HF as [L1 L2]. split; [|exact L2]. rewrite L1, !LP. reflexivity.
  - unfold qp_compute. cbn [snd]. rewrite E. reflexivity.
Qed.
(** the matrix kept is that of the last value *)
Lemma run_keeps n l : pval (qp_run Q phi qp n l) = match last_value Q l with Some q => phi q | None => repeat t0 n end.
Proof.
  unfold qp_run, last_value. rewrite <- (rev_involutive l). generalize (rev l). clear l. intros l. rewrite rev_involutive.
  induction l as [|o l IH]; [reflexivity|]. cbn [rev]. rewrite fold_left_app. cbn [fold_left]. destruct o; cbn [qp_step last_of]; [reflexivity|exact IH].
Qed.
Lemma jacobian_after n l (c : R -> Q) t d r' nv : columns_move phi dphi c t d -> (forall s, qp_solves qp (phi (c s))) ->
  length d = nv -> last_value Q l = Some (c t) -> (forall st, deriv (fun s => snd (qp_compute Q phi qp st (c s))) t r') ->
  r' = 2 * rapp (qp_jacobian Q dphi qp (qp_run Q phi qp n l) nv (c t)) d.
Proof. intros M S Ln Lv Dr. apply jacobian_right; auto. rewrite run_keeps, Lv. reflexivity. Qed.
End P.
