From Coq Require Import Reals Lra List Bool.
From Verif Require Import Geo GeoLemmas Rigid DistModel.
Import ListNotations.
Local Open Scope R_scope.

Section S.
Context {C : Type}.
Variables (ceq : C -> C -> bool) (fk : C -> kin) (ev : C -> kin -> R * v3 * v3) (second : bool).
Hypothesis ceqP : forall a b, ceq a b = true <-> a = b.
Notation sys := (sys C).
Notation compute := (compute ceq fk ev).
Notation jacobian := (jacobian ceq fk ev second).
Notation run := (run ceq fk ev second).
Definition dist_at q := fst (fst (ev q (fk q))).
Definition p1_at q := snd (fst (ev q (fk q))).
Definition p2_at q := snd (ev q (fk q)).

Definition inv (st : sys) : Prop := forall q, f_last (fst st) = Some q ->
  f_res (fst st) = dist_at q /\ f_p1 (fst st) = p1_at q /\ f_p2 (fst st) = p2_at q.
Lemma compute_spec st q : inv st -> inv (snd (compute st q)) /\ fst (compute st q) = dist_at q /\ f_last (fst (snd (compute st q))) = Some q /\
  f_p1 (fst (snd (compute st q))) = p1_at q /\ f_p2 (fst (snd (compute st q))) = p2_at q /\
  snd (snd (compute st q)) = if match f_last (fst st) with Some q' => ceq q q' | None => false end then snd st else fk q.
Proof.
  destruct st as [o k]. intros Iv. unfold DistModel.compute. cbn [fst snd].
  destruct (f_last o) as [q'|] eqn:E; [destruct (ceq q q') eqn:Q|].
  1: { apply ceqP in Q as <-. destruct (Iv q E) as (A & B & D). cbn in *. split; [exact Iv|auto 10]. }
  all: destruct (ev q (fk q)) as [[d a] b] eqn:Ee; cbn; unfold dist_at, p1_at, p2_at; rewrite Ee; cbn; split; auto;
    intros x X; cbn in X; injection X as <-; cbn; unfold dist_at, p1_at, p2_at; rewrite Ee; auto.
Qed.
Lemma jacobian_spec st q : inv st -> inv (snd (jacobian st q)) /\ snd (jacobian st q) = snd (compute st q) /\
  fst (jacobian st q) = jac_of second (if match f_last (fst st) with Some q' => ceq q q' | None => false end then snd st else fk q) (dist_at q) (p1_at q) (p2_at q).
Proof.
  intros Iv. destruct (compute_spec st q Iv) as (A & B & D & E & G & H). unfold DistModel.jacobian. revert A B D E G H. destruct (compute st q) as [d [o k]]. cbn. intros A B D E G H. rewrite B, E, G, H. auto.
Qed.
Lemma step_inv st o : inv st -> inv (DistModel.step ceq fk ev second st o).
Proof. intros Iv. destruct o as [q|q|k]; cbn [DistModel.step]; [apply compute_spec; auto|apply jacobian_spec; auto|exact Iv]. Qed.
Lemma run_inv l : forall st, inv st -> inv (run st l).
Proof. induction l as [|o l IH]; intros st Iv; cbn; auto. apply IH, step_inv, Iv. Qed.
Lemma fresh_inv k : inv (fresh k). Proof. intros q H. discriminate H. Qed.

Lemma value_pure k l q : fst (compute (run (fresh k) l) q) = dist_at q.
Proof. apply compute_spec, run_inv, fresh_inv. Qed.
Lemma jacobian_at k l q : let st := run (fresh k) l in
  fst (jacobian st q) = jac_of second (if match f_last (fst st) with Some q' => ceq q q' | None => false end then snd st else fk q) (dist_at q) (p1_at q) (p2_at q).
Proof. cbn. apply jacobian_spec, run_inv, fresh_inv. Qed.
(** nobody else uses the robot *)
Definition mine (o : op C) : Prop := match o with Other _ => False | _ => True end.
Definition own (st : sys) : Prop := forall q, f_last (fst st) = Some q -> snd st = fk q.
Lemma own_step st o : inv st -> own st -> mine o -> own (DistModel.step ceq fk ev second st o).
Proof.
  intros Iv O M. assert (X : forall q, own (snd (compute st q))).
  { intros q x Hx. destruct (compute_spec st q Iv) as (_ & _ & D & _ & _ & H). rewrite D in Hx. injection Hx as <-. rewrite H.
    destruct (f_last (fst st)) as [q'|] eqn:E; [destruct (ceq q q') eqn:Q|]; auto. apply ceqP in Q as <-. auto. }
  destruct o as [q|q|k]; cbn [DistModel.step]; [apply X| |destruct M]. destruct (jacobian_spec st q Iv) as (_ & -> & _). apply X.
Qed.
Lemma run_own l : forall st, inv st -> own st -> Forall mine l -> own (run st l).
Proof. induction l as [|o l IH]; intros st Iv O M; cbn; auto. inversion M; subst. apply IH; auto using step_inv, own_step. Qed.
Lemma jacobian_pure k l q : Forall mine l -> fst (jacobian (run (fresh k) l) q) = jac_of second (fk q) (dist_at q) (p1_at q) (p2_at q).
Proof.
  intros M. rewrite jacobian_at. f_equal. assert (O : own (run (fresh k) l)) by (apply run_own; auto using fresh_inv; intros x X; discriminate X).
  destruct (f_last (fst (run (fresh k) l))) as [q'|] eqn:E; [destruct (ceq q q') eqn:Q|]; auto. apply ceqP in Q as <-. auto.
Qed.
End S.

(** Derivatives. *)
Lemma colcross_v m u w : mulv (colcross m u) w = vcross (mulv m w) u.
Proof. unfold colcross. geo. Qed.
Lemma point_velocity M t T p : rotation (rot (M t)) -> moves M t T ->
  vderiv (fun s => act (M s) p) t (vadd (mulv (rot (M t)) (lin T)) (vcross (mulv (rot (M t)) (ang T)) (vsub (act (M t) p) (tra (M t))))).
Proof.
  intros Ro [D1 D2]. eapply vderiv_eq; [|exact (vderiv_add _ _ _ _ _ (vderiv_mulv _ (fun _ => p) _ _ _ D1 (vderiv_const p t)) D2)].
  unfold act. replace (vsub (vadd (mulv (rot (M t)) p) (tra (M t))) (tra (M t))) with (mulv (rot (M t)) p) by geo.
  rewrite <- (rotation_cross _ _ _ Ro). rewrite mulvA, cross_matrixE, mulv_0. geo.
Qed.
Lemma norm_pos v : norm v <> 0 -> 0 < vdot v v.
Proof.
  unfold norm. intros H. assert (0 <= vdot v v) by (destruct v as [a b c]; unfold vdot; cbn [vx vy vz]; nra). destruct H0 as [H0|H0]; auto. rewrite <- H0, sqrt_0 in H. lra.
Qed.
Lemma norm_deriv f t v : vderiv f t v -> norm (f t) <> 0 -> deriv (fun s => norm (f s)) t (vdot (f t) v / norm (f t)).
Proof.
  intros D N. assert (P := norm_pos _ N). assert (X := vderiv_dot f f t v v D D).
  assert (S := derivable_pt_lim_sqrt _ P). assert (Y := derivable_pt_lim_comp (fun s => vdot (f s) (f s)) sqrt t _ _ X S).
  eapply deriv_eq; [|exact Y]. fold (norm (f t)). clear Y X S D.
  replace (vdot v (f t)) with (vdot (f t) v) by geo. field. exact N.
Qed.
Lemma row_app d M P J q : rotation (rot M) -> rapp (row d M P J) q =
  vdot d (vadd (mulv (rot M) (lin (japp J q))) (vcross (mulv (rot M) (ang (japp J q))) (vsub P (tra M)))).
Proof.
  intros Ro. revert q. induction J as [|c J IH]; intros [|x q]; cbn [row map rapp japp lin ang t0 tadd tscale].
  1-3: rewrite !mulv_0; generalize (vsub P (tra M)); geo.
  fold (row d M P J). rewrite IH. rewrite colcross_v, !mulv_add, !mulv_scale. generalize (vsub P (tra M)) (mulv (rot M) (lin c)) (mulv (rot M) (ang c)) (mulv (rot M) (lin (japp J q))) (mulv (rot M) (ang (japp J q))). geo.
Qed.
Lemma rapp_scale J q a : rapp (map (fun x => x / a) J) q = rapp J q / a.
Proof. revert q. induction J as [|c J IH]; intros [|x q]; cbn; unfold Rdiv; try ring. unfold Rdiv in IH. rewrite IH. ring. Qed.
Lemma rapp_diff J1 J2 q a : length J1 = length J2 -> rapp (map (fun x => (fst x - snd x) / a) (combine J1 J2)) q = (rapp J1 q - rapp J2 q) / a.
Proof.
  revert J2 q. induction J1 as [|c J IH]; intros [|c2 J2] [|x q] L; cbn in *; try discriminate; unfold Rdiv in *; try ring. rewrite IH by congruence. ring.
Qed.
Lemma norm_sym a b : norm (vsub a b) = norm (vsub b a).
Proof. unfold norm. f_equal. geo. Qed.

Definition at_ (M1 M2 : R -> se3) (J1 J2 : list twist) (s : R) : kin := mkkin (M1 s) (M2 s) J1 J2.
(** the points move with the bodies *)
Lemma jac_deriv2 M1 M2 J1 J2 a b t qd : rotation (rot (M1 t)) -> rotation (rot (M2 t)) -> length J1 = length J2 ->
  moves M1 t (japp J1 qd) -> moves M2 t (japp J2 qd) ->
  let p1 := act (M1 t) a in let p2 := act (M2 t) b in
  norm (vsub p1 p2) <> 0 ->
  deriv (fun s => norm (vsub (act (M1 s) a) (act (M2 s) b))) t (rapp (jac_of true (at_ M1 M2 J1 J2 t) (norm (vsub p1 p2)) p1 p2) qd).
Proof.
  intros Ro1 Ro2 L Mv1 Mv2 p1 p2 N.
  eapply deriv_eq; [|exact (norm_deriv _ _ _ (vderiv_sub _ _ _ _ _ (point_velocity M1 t _ a Ro1 Mv1) (point_velocity M2 t _ b Ro2 Mv2)) N)].
  unfold jac_of, at_. cbn [kM1 kM2 kJ1 kJ2]. rewrite rapp_diff by (unfold row; rewrite !map_length; exact L). rewrite !row_app by assumption. fold p1 p2.
  unfold Rdiv. f_equal.
  generalize (vadd (mulv (rot (M1 t)) (lin (japp J1 qd))) (vcross (mulv (rot (M1 t)) (ang (japp J1 qd))) (vsub p1 (tra (M1 t))))).
  generalize (vadd (mulv (rot (M2 t)) (lin (japp J2 qd))) (vcross (mulv (rot (M2 t)) (ang (japp J2 qd))) (vsub p2 (tra (M2 t))))).
  generalize (vsub p1 p2). geo.
Qed.
Lemma jac_deriv1 M1 M2 J1 J2 a b t qd : rotation (rot (M1 t)) -> moves M1 t (japp J1 qd) ->
  let p1 := act (M1 t) a in norm (vsub p1 b) <> 0 ->
  deriv (fun s => norm (vsub (act (M1 s) a) b)) t (rapp (jac_of false (at_ M1 M2 J1 J2 t) (norm (vsub p1 b)) p1 b) qd).
Proof.
  intros Ro1 Mv1 p1 N.
  eapply deriv_eq; [|exact (norm_deriv _ _ _ (vderiv_sub _ (fun _ => b) _ _ _ (point_velocity M1 t _ a Ro1 Mv1) (vderiv_const b t)) N)].
  unfold jac_of, at_. cbn [kM1 kM2 kJ1 kJ2]. rewrite rapp_scale, row_app by assumption. fold p1. now rewrite vsub_0.
Qed.
