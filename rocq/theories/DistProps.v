(** C59: values and Jacobians of distance functions.  See properties.jsonl. *)
From Coq Require Import Reals List Bool.
From Verif Require Import Geo Rigid RigidExamples DistModel DistMain DistExamples DistCases.
Import ListNotations.
Local Open Scope R_scope.

Section P.
Context {C : Type}.
Variables (ceq : C -> C -> bool) (fk : C -> kin).
Hypothesis ceqP : forall a b, ceq a b = true <-> a = b.
Notation own := (fun o => match o with Other _ => False | _ => True end).

(** whatever was called before, on the function or on the robot *)
Theorem C59_points_value : forall second a b k l q,
  fst (compute ceq fk (points_ev second a b) (run ceq fk (points_ev second a b) second (fresh k) l) q) =
  if second then norm (vsub (act (kM2 (fk q)) b) (act (kM1 (fk q)) a)) else norm (act (kM1 (fk q)) a).
Proof. exact (fun second => points_value ceq fk second ceqP). Qed.
Theorem C59_bodies_value : forall second near k l q,
  fst (compute ceq fk (bodies_ev near) (run ceq fk (bodies_ev near) second (fresh k) l) q) = fst (fst (near q)).
Proof. exact (fun second => bodies_value ceq fk second ceqP). Qed.
(** the Jacobian depends on the configuration only, if no other code uses the robot *)
Theorem C59_jacobian_alone : forall second ev k k' l l' q, Forall own l -> Forall own l' ->
  fst (jacobian ceq fk ev second (run ceq fk ev second (fresh k) l) q) = fst (jacobian ceq fk ev second (run ceq fk ev second (fresh k') l') q).
Proof. exact (fun second => history_free ceq fk second ceqP). Qed.
(** or if the last configuration was another one *)
Theorem C59_jacobian_other_configuration : forall second ev k k' l q q' x, q' <> q ->
  fst (jacobian ceq fk ev second (run ceq fk ev second (fresh k) (l ++ [Value q'; Other x])) q) = fst (jacobian ceq fk ev second (fresh k') q).
Proof. exact (fun second => robot_free ceq fk second ceqP). Qed.

(** The Jacobian is the derivative along every motion. *)
Theorem C59_points_derivative : forall (c : R -> C) (t : R) (qd : list R) a b k l, Forall own l ->
  let M1 s := kM1 (fk (c s)) in let M2 s := kM2 (fk (c s)) in let J1 := kJ1 (fk (c t)) in let J2 := kJ2 (fk (c t)) in
  rotation (rot (M1 t)) -> rotation (rot (M2 t)) -> length J1 = length J2 ->
  moves M1 t (japp J1 qd) -> moves M2 t (japp J2 qd) -> act (M1 t) a <> act (M2 t) b ->
  let ev := points_ev true a b in let st := run ceq fk ev true (fresh k) l in
  deriv (fun s => fst (compute ceq fk ev st (c s))) t (rapp (fst (jacobian ceq fk ev true st (c t))) qd).
Proof. exact (points_derivative ceq fk ceqP). Qed.
Theorem C59_points_derivative_origin : forall (c : R -> C) (t : R) (qd : list R) a k l, Forall own l ->
  let M1 s := kM1 (fk (c s)) in let J1 := kJ1 (fk (c t)) in
  rotation (rot (M1 t)) -> moves M1 t (japp J1 qd) -> act (M1 t) a <> v0 ->
  let ev := points_ev false a v0 in let st := run ceq fk ev false (fresh k) l in
  deriv (fun s => fst (compute ceq fk ev st (c s))) t (rapp (fst (jacobian ceq fk ev false st (c t))) qd).
Proof. exact (points_derivative1 ceq fk ceqP). Qed.
(** bodies: derivative of the signed distance of the nearest points taken as fixed to the bodies *)
Theorem C59_bodies_derivative : forall (c : R -> C) (t : R) (qd : list R) near e a b k l, Forall own l ->
  let M1 s := kM1 (fk (c s)) in let M2 s := kM2 (fk (c s)) in let J1 := kJ1 (fk (c t)) in let J2 := kJ2 (fk (c t)) in
  rotation (rot (M1 t)) -> rotation (rot (M2 t)) -> length J1 = length J2 ->
  moves M1 t (japp J1 qd) -> moves M2 t (japp J2 qd) -> e * e = 1 -> act (M1 t) a <> act (M2 t) b ->
  near (c t) = (e * norm (vsub (act (M1 t) a) (act (M2 t) b)), act (M1 t) a, act (M2 t) b) ->
  let ev := bodies_ev near in let st := run ceq fk ev true (fresh k) l in
  deriv (fun s => e * norm (vsub (act (M1 s) a) (act (M2 s) b))) t (rapp (fst (jacobian ceq fk ev true st (c t))) qd).
Proof. exact (bodies_derivative ceq fk ceqP). Qed.
Theorem C59_objects_derivative : forall (c : R -> C) (t : R) (qd : list R) near e a b k l, Forall own l ->
  let M1 s := kM1 (fk (c s)) in let J1 := kJ1 (fk (c t)) in
  rotation (rot (M1 t)) -> moves M1 t (japp J1 qd) -> e * e = 1 -> act (M1 t) a <> b ->
  near (c t) = (e * norm (vsub (act (M1 t) a) b), act (M1 t) a, b) ->
  let ev := bodies_ev near in let st := run ceq fk ev false (fresh k) l in
  deriv (fun s => e * norm (vsub (act (M1 s) a) b)) t (rapp (fst (jacobian ceq fk ev false st (c t))) qd).
Proof. exact (bodies_derivative1 ceq fk ceqP). Qed.
End P.

(** The robot was moved by other code after the value was computed. *)
Theorem C59_history_refuted : exists q q' k,
  let ev := points_ev true v0 target in
  fst (jacobian ceq2 arm ev true (run ceq2 arm ev true (fresh k) [Value q; Other (arm q')]) q) <> fst (jacobian ceq2 arm ev true (fresh k) q).
Proof. exact history_refuted. Qed.
(** Without second joint the value ignores the second point, the Jacobian does not. *)
Theorem C59_no_second_refuted : exists point2 t qd d, moves (fun s => kM1 (slide s)) t (japp (kJ1 (slide t)) qd) /\ rotation (rot (kM1 (slide t))) /\
  let ev := points_ev false v0 point2 in
  deriv (fun s => fst (compute ceq1 slide ev (fresh (slide 0)) s)) t d /\ rapp (fst (jacobian ceq1 slide ev false (fresh (slide 0)) t)) qd <> d /\
  fst (compute ceq1 slide ev (fresh (slide 0)) t) <> norm (vsub (act (kM1 (slide t)) v0) point2).
Proof. exact no_second_refuted. Qed.
Example C59_case : let c := fun s : R => (s, 1 + s) in
  rotation (rot (kM1 (arm (c 1)))) /\ rotation (rot (kM2 (arm (c 1)))) /\
  moves (fun s => kM1 (arm (c s))) 1 (japp (kJ1 (arm (c 1))) [1; 1]) /\ moves (fun s => kM2 (arm (c s))) 1 (japp (kJ2 (arm (c 1))) [1; 1]) /\
  length (kJ1 (arm (c 1))) = length (kJ2 (arm (c 1))) /\ act (kM1 (arm (c 1))) v0 <> act (kM2 (arm (c 1))) target.
Proof. exact dist_case. Qed.
Print Assumptions C59_points_value.
Print Assumptions C59_bodies_value.
Print Assumptions C59_jacobian_alone.
Print Assumptions C59_jacobian_other_configuration.
Print Assumptions C59_points_derivative.
Print Assumptions C59_points_derivative_origin.
Print Assumptions C59_bodies_derivative.
Print Assumptions C59_objects_derivative.
Print Assumptions C59_history_refuted.
Print Assumptions C59_no_second_refuted.
