From Coq Require Import Reals Lra List Bool.
From Verif Require Import Geo GeoLemmas Rigid RigidExamples DistModel DistProofs.
Import ListNotations.
Local Open Scope R_scope.

Section S.
Context {C : Type}.
Variables (ceq : C -> C -> bool) (fk : C -> kin) (second : bool).
Hypothesis ceqP : forall a b, ceq a b = true <-> a = b.
Notation own := (fun o => match o with Other _ => False | _ => True end).

Lemma points_value a b k l q :
  fst (compute ceq fk (points_ev second a b) (run ceq fk (points_ev second a b) second (fresh k) l) q) =
  if second then norm (vsub (act (kM2 (fk q)) b) (act (kM1 (fk q)) a)) else norm (act (kM1 (fk q)) a).
Proof. rewrite (value_pure ceq fk _ second ceqP). unfold dist_at, points_ev. now destruct second. Qed.
Lemma bodies_value near k l q :
  fst (compute ceq fk (bodies_ev near) (run ceq fk (bodies_ev near) second (fresh k) l) q) = fst (fst (near q)).
Proof. now rewrite (value_pure ceq fk _ second ceqP). Qed.
Lemma history_free ev k k' l l' q : Forall own l -> Forall own l' ->
  fst (jacobian ceq fk ev second (run ceq fk ev second (fresh k) l) q) = fst (jacobian ceq fk ev second (run ceq fk ev second (fresh k') l') q).
Proof. intros A B. now rewrite !(jacobian_pure ceq fk ev second ceqP). Qed.
Lemma robot_free ev k k' l q q' x : q' <> q ->
  fst (jacobian ceq fk ev second (run ceq fk ev second (fresh k) (l ++ [Value q'; Other x])) q) = fst (jacobian ceq fk ev second (fresh k') q).
Proof.
  intros N. assert (E := jacobian_at ceq fk ev second ceqP k' [] q). cbn zeta in E. cbn in E. rewrite E. clear E.
  rewrite (jacobian_at ceq fk ev second ceqP). cbn zeta.
  assert (E : f_last (fst (run ceq fk ev second (fresh k) (l ++ [Value q'; Other x]))) = Some q').
  { unfold run. rewrite fold_left_app. cbn [fold_left step fst].
    apply (compute_spec ceq fk ev ceqP (fold_left (step ceq fk ev second) l (fresh k)) q'). apply (run_inv ceq fk ev second ceqP). apply fresh_inv. }
  rewrite E. destruct (ceq q q') eqn:Q; [|reflexivity]. apply ceqP in Q. congruence.
Qed.
End S.

Lemma norm_apart a b : a <> b -> norm (vsub a b) <> 0.
Proof.
  intros N Z. apply N. destruct a as [x y z], b as [x' y' z']. unfold norm in Z. cbv beta iota delta [vsub vdot vx vy vz] in Z.
  assert (P : forall u : R, 0 <= u * u) by (intros; nra). pose proof (P (x - x')). pose proof (P (y - y')). pose proof (P (z - z')).
  apply sqrt_eq_0 in Z; [|lra]. assert (Q : forall u : R, u * u = 0 -> u = 0) by (intros u; nra).
  assert (x - x' = 0) by (apply Q; lra). assert (y - y' = 0) by (apply Q; lra). assert (z - z' = 0) by (apply Q; lra). f_equal; lra.
Qed.

Section D.
Context {C : Type}.
Variables (ceq : C -> C -> bool) (fk : C -> kin).
Hypothesis ceqP : forall a b, ceq a b = true <-> a = b.
Notation own := (fun o => match o with Other _ => False | _ => True end).
Variables (c : R -> C) (t : R) (qd : list R).
Let M1 (s : R) := kM1 (fk (c s)).
Let M2 (s : R) := kM2 (fk (c s)).
Let J1 := kJ1 (fk (c t)).
Let J2 := kJ2 (fk (c t)).

Lemma points_derivative a b k l : Forall own l -> rotation (rot (M1 t)) -> rotation (rot (M2 t)) -> length J1 = length J2 ->
  moves M1 t (japp J1 qd) -> moves M2 t (japp J2 qd) -> act (M1 t) a <> act (M2 t) b ->
  let ev := points_ev true a b in let st := run ceq fk ev true (fresh k) l in
  deriv (fun s => fst (compute ceq fk ev st (c s))) t (rapp (fst (jacobian ceq fk ev true st (c t))) qd).
Proof.
  intros Ow R1 R2 L V1 V2 N ev st. unfold st, ev. rewrite (jacobian_pure ceq fk _ true ceqP) by exact Ow.
  assert (Nz : norm (vsub (act (M1 t) a) (act (M2 t) b)) <> 0) by (now apply norm_apart).
  assert (D := jac_deriv2 M1 M2 J1 J2 a b t qd R1 R2 L V1 V2 Nz). cbn zeta in D.
  eapply deriv_ext; [intros s; symmetry; apply (points_value ceq fk true ceqP)|]. cbn iota.
  eapply deriv_ext; [intros s; apply norm_sym|]. eapply deriv_eq; [|exact D]. f_equal.
  unfold dist_at, p1_at, p2_at, points_ev. cbn [fst snd]. rewrite norm_sym. unfold at_, M1, M2, J1, J2. now destruct (fk (c t)).
Qed.
Lemma points_derivative1 a k l : Forall own l -> rotation (rot (M1 t)) -> moves M1 t (japp J1 qd) -> act (M1 t) a <> v0 ->
  let ev := points_ev false a v0 in let st := run ceq fk ev false (fresh k) l in
  deriv (fun s => fst (compute ceq fk ev st (c s))) t (rapp (fst (jacobian ceq fk ev false st (c t))) qd).
Proof.
  intros Ow R1 V1 N ev st. unfold st, ev. rewrite (jacobian_pure ceq fk _ false ceqP) by exact Ow.
  assert (Nz : norm (vsub (act (M1 t) a) v0) <> 0) by (now apply norm_apart).
  assert (D := jac_deriv1 M1 M2 J1 J2 a v0 t qd R1 V1 Nz). cbn zeta in D.
  eapply deriv_ext; [intros s; symmetry; apply (points_value ceq fk false ceqP)|]. cbn iota.
  apply (deriv_ext (fun s => norm (vsub (act (M1 s) a) v0))); [intros s; now rewrite vsub_0|]. eapply deriv_eq; [|exact D]. f_equal.
  unfold dist_at, p1_at, p2_at, points_ev. cbn [fst snd]. rewrite vsub_0. unfold at_, M1, M2, J1, J2. now destruct (fk (c t)).
Qed.
(** nearest points fixed to the bodies, [e] = 1 or -1 (penetration) *)
Lemma bodies_derivative near e a b k l : Forall own l -> rotation (rot (M1 t)) -> rotation (rot (M2 t)) -> length J1 = length J2 ->
  moves M1 t (japp J1 qd) -> moves M2 t (japp J2 qd) -> e * e = 1 -> act (M1 t) a <> act (M2 t) b ->
  near (c t) = (e * norm (vsub (act (M1 t) a) (act (M2 t) b)), act (M1 t) a, act (M2 t) b) ->
  let ev := bodies_ev near in let st := run ceq fk ev true (fresh k) l in
  deriv (fun s => e * norm (vsub (act (M1 s) a) (act (M2 s) b))) t (rapp (fst (jacobian ceq fk ev true st (c t))) qd).
Proof.
  intros Ow R1 R2 L V1 V2 E1 N Nr ev st. unfold st, ev. rewrite (jacobian_pure ceq fk _ true ceqP) by exact Ow.
  assert (Nz : norm (vsub (act (M1 t) a) (act (M2 t) b)) <> 0) by (now apply norm_apart).
  assert (D := jac_deriv2 M1 M2 J1 J2 a b t qd R1 R2 L V1 V2 Nz). cbn zeta in D.
  eapply deriv_eq; [|apply deriv_scale; exact D].
  unfold dist_at, p1_at, p2_at, bodies_ev. rewrite Nr. cbn [fst snd]. unfold jac_of, at_. cbn [kM1 kM2 kJ1 kJ2].
  fold (M1 t) (M2 t) J1 J2. rewrite !rapp_diff by (unfold row; rewrite !map_length; exact L). assert (e <> 0) by nra.
  assert (Ie : / e = e) by (apply Rmult_eq_reg_l with e; [rewrite E1; field; auto|auto]).
  unfold Rdiv. rewrite Rinv_mult, Ie. ring.
Qed.
Lemma bodies_derivative1 near e a b k l : Forall own l -> rotation (rot (M1 t)) ->
  moves M1 t (japp J1 qd) -> e * e = 1 -> act (M1 t) a <> b -> near (c t) = (e * norm (vsub (act (M1 t) a) b), act (M1 t) a, b) ->
  let ev := bodies_ev near in let st := run ceq fk ev false (fresh k) l in
  deriv (fun s => e * norm (vsub (act (M1 s) a) b)) t (rapp (fst (jacobian ceq fk ev false st (c t))) qd).
Proof.
  intros Ow R1 V1 E1 N Nr ev st. unfold st, ev. rewrite (jacobian_pure ceq fk _ false ceqP) by exact Ow.
  assert (Nz : norm (vsub (act (M1 t) a) b) <> 0) by (now apply norm_apart).
  assert (D := jac_deriv1 M1 M2 J1 J2 a b t qd R1 V1 Nz). cbn zeta in D.
  eapply deriv_eq; [|apply deriv_scale; exact D].
  unfold dist_at, p1_at, p2_at, bodies_ev. rewrite Nr. cbn [fst snd]. unfold jac_of, at_. cbn [kM1 kM2 kJ1 kJ2].
  fold (M1 t) (M2 t) J1 J2. rewrite !rapp_scale. assert (e <> 0) by nra.
  assert (Ie : / e = e) by (apply Rmult_eq_reg_l with e; [rewrite E1; field; auto|auto]).
  unfold Rdiv. rewrite Rinv_mult, Ie. ring.
Qed.
End D.
