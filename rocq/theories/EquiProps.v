(** Property C93: static equilibrium. *)
From Coq Require Import Reals List Bool Arith.
From Verif Require Import Geo Rigid SymModel SymSpec QPModel QPSpec EquiModel EquiSpec EquiProofs EquiMain.
Import ListNotations.
Local Open Scope R_scope.

(** The matrix computed in a configuration, whatever was evaluated before: one column by contact, the normal
    and the opposite of the moment of the normal about the center of mass. *)
Theorem C93_matrix : forall cs before q0 g q, cs <> [] -> let roots := elements (contact_columns cs) in Forall (uses roots) before ->
  option_map fst (phi_value (contact_columns cs) q (run before (q0, constructed roots g))) =
    Some (map (fun c => Tw (world_normal q c) (vcross (vsub (com q) (world_point q c)) (world_normal q c))) cs).
Proof. exact contact_matrix. Qed.
Print Assumptions C93_matrix.

(** The constructor from force data gives the columns of the contacts, points by points. *)
Theorem C93_force_data : forall fs before q0 g q, flatten fs <> [] -> let roots := elements (force_columns fs) in Forall (uses roots) before ->
  option_map fst (phi_value (force_columns fs) q (run before (q0, constructed roots g))) =
    Some (map (fun c => Tw (world_normal q c) (vcross (vsub (com q) (world_point q c)) (world_normal q c))) (flatten fs)).
Proof. exact force_matrix. Qed.
Print Assumptions C93_force_data.

Theorem C93_nb_contacts : forall fs, nb_contacts fs = length (flatten fs) /\ length (force_columns fs) = nb_contacts fs.
Proof. exact nb_contacts_right. Qed.
Print Assumptions C93_nb_contacts.

(** Without contact the evaluation reads the first element of an empty row. *)
Theorem C93_no_contact_refuted : forall q s, phi_value (contact_columns []) q s = None /\ phi_value (force_columns []) q s = None /\
  phi_jacobian (contact_columns []) q s = None.
Proof. exact (fun q s => conj eq_refl (conj eq_refl eq_refl)). Qed.
Print Assumptions C93_no_contact_refuted.

(** The Jacobian is the derivative of each column along the motion of a degree of freedom. *)
Theorem C93_jacobian : forall cs before q0 g Q, cs <> [] -> motion Q -> let roots := elements (contact_columns cs) in Forall (uses roots) before ->
  exists D, option_map fst (phi_jacobian (contact_columns cs) (Q 0) (run before (q0, constructed roots g))) = Some D /\
    Forall2 (fun c d => tderiv (fun t => wrench (Q t) c) 0 d) cs D.
Proof. exact contact_jacobian. Qed.
Print Assumptions C93_jacobian.
Theorem C93_force_jacobian : forall fs before q0 g Q, flatten fs <> [] -> motion Q -> let roots := elements (force_columns fs) in Forall (uses roots) before ->
  exists D, option_map fst (phi_jacobian (force_columns fs) (Q 0) (run before (q0, constructed roots g))) = Some D /\
    Forall2 (fun c d => tderiv (fun t => wrench (Q t) c) 0 d) (flatten fs) D.
Proof. exact force_jacobian. Qed.
Print Assumptions C93_force_jacobian.

(** Forces along the normals balance gravity in the equation of the code if and only if the forces and the
    moments, about any point, of the contact forces and of the weight have sum zero. *)
Theorem C93_equilibrium : forall q cs F O, japp (map (wrench q) cs) F = minus_gravity <-> in_equilibrium O (loads q cs F).
Proof. exact equilibrium_iff. Qed.
Print Assumptions C93_equilibrium.

(** With vertical normals nonnegative forces balance gravity if and only if the center of mass is above the
    convex hull of the contact points; with normals that do not point upward the residual is at least 1. *)
Theorem C93_support : forall q cs, upward q cs -> (balanced (map (wrench q) cs) <-> above_support (com q) (map (world_point q) cs)).
Proof. exact support_iff. Qed.
Print Assumptions C93_support.
Theorem C93_downward : forall q cs F, Forall (fun c => vz (world_normal q c) <= 0) cs -> forces (length cs) F -> 1 <= residual (map (wrench q) cs) F.
Proof. exact downward_far. Qed.
Print Assumptions C93_downward.

(** The value of QPStaticStability is zero in these cases exactly, if the quadratic program is solved exactly. *)
Theorem C93_qp : forall qp cs before q0 g n (ops : list (qp_op robot)) q, cs <> [] ->
  let roots := elements (contact_columns cs) in Forall (uses roots) before ->
  let phi := phi_of (contact_columns cs) (run before (q0, constructed roots g)) in
  qp_solves qp (phi q) ->
  let r := snd (qp_compute robot phi qp (qp_run robot phi qp n ops) q) in
  (r = 0 <-> exists F, forces (length cs) F /\ forall O, in_equilibrium O (loads q cs F)) /\
  (upward q cs -> (r = 0 <-> above_support (com q) (map (world_point q) cs))).
Proof. exact qp_equilibrium. Qed.
Print Assumptions C93_qp.

(** Three contacts with vertical normals that are not aligned: there is always one equilibrium and only one,
    its forces are nonnegative if and only if the center of mass is above the triangle. *)
Theorem C93_three_contacts : forall q a b c, upward q [a; b; c] -> ~ aligned (world_point q a) (world_point q b) (world_point q c) ->
  exists F, length F = 3%nat /\ (forall O, in_equilibrium O (loads q [a; b; c] F)) /\
    (forall F', length F' = 3%nat -> forall O, in_equilibrium O (loads q [a; b; c] F') -> F' = F) /\
    (Forall (fun x => 0 <= x) F <-> above_support (com q) (map (world_point q) [a; b; c])).
Proof. exact three_contacts. Qed.
Print Assumptions C93_three_contacts.

(** Hence the last six rows of StaticStability may be zero though contacts cannot hold the robot. *)
Theorem C93_span_refuted : exists q cs F, upward q cs /\ length F = length cs /\ (forall O, in_equilibrium O (loads q cs F)) /\ ~ balanced (map (wrench q) cs).
Proof. exact span_refuted. Qed.
Print Assumptions C93_span_refuted.

(** a table with three legs at (0, 0), (4, 0), (0, 4): center of mass above (1, 1) and (3, 3) *)
Example C93_case : upward (still_robot (V3 1 1 5)) [leg 0 0; leg 4 0; leg 0 4] /\
  ~ aligned (V3 0 0 0) (V3 4 0 0) (V3 0 4 0) /\
  above_support (V3 1 1 5) (map (world_point (still_robot (V3 1 1 5))) [leg 0 0; leg 4 0; leg 0 4]) /\
  ~ above_support (V3 3 3 5) (map (world_point (still_robot (V3 3 3 5))) [leg 0 0; leg 4 0; leg 0 4]).
Proof. exact table_case. Qed.
