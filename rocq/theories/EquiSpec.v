(** Specification: a rigid body of unit weight held by contact forces. *)
From Coq Require Import Reals List.
From Verif Require Import Geo Rigid SymModel EquiModel.
Import ListNotations.
Local Open Scope R_scope.

(** point and normal of a contact in the world frame *)
Definition world_point (q : robot) (c : contact) : v3 :=
  match c_joint c with Some j => vadd (mulv (jR q j) (c_point c)) (jp q j) | None => c_point c end.
Definition world_normal (q : robot) (c : contact) : v3 :=
  match c_joint c with Some j => mulv (jR q j) (c_normal c) | None => c_normal c end.
Definition flatten (fs : list force_data) : list contact :=
  flat_map (fun f => map (fun p => mkContact (f_joint f) p (f_normal f)) (f_points f)) fs.

(** A force and the point where it is applied *)
Record load := mkLoad { at_point : v3; force : v3 }.
Fixpoint total_force (l : list load) : v3 := match l with [] => v0 | f :: t => vadd (force f) (total_force t) end.
Fixpoint total_moment (O : v3) (l : list load) : v3 :=
  match l with [] => v0 | f :: t => vadd (vcross (vsub (at_point f) O) (force f)) (total_moment O t) end.
(** Newton-Euler, moments about O *)
Definition in_equilibrium (O : v3) (l : list load) : Prop := total_force l = v0 /\ total_moment O l = v0.
(** the weight, at the center of mass, and forces along the normals *)
Fixpoint contact_loads (q : robot) (cs : list contact) (F : list R) : list load :=
  match cs, F with c :: cs', x :: F' => mkLoad (world_point q c) (vscale x (world_normal q c)) :: contact_loads q cs' F' | _, _ => [] end.
Definition loads (q : robot) (cs : list contact) (F : list R) : list load := mkLoad (com q) (V3 0 0 (-1)) :: contact_loads q cs F.

(** convex hull of the vertical projections *)
Fixpoint wsum (w : list R) (l : list R) : R := match w, l with a :: w', x :: l' => a * x + wsum w' l' | _, _ => 0 end.
Definition above_support (g : v3) (ps : list v3) : Prop := exists w, length w = length ps /\ Forall (fun x => 0 <= x) w /\
  wsum w (map (fun _ => 1) ps) = 1 /\ wsum w (map vx ps) = vx g /\ wsum w (map vy ps) = vy g.

(** the wrench of a unit force of the contact: force, opposite of the moment about the center of mass *)
Definition wrench (q : robot) (c : contact) : twist :=
  Tw (world_normal q c) (vcross (vsub (com q) (world_point q c)) (world_normal q c)).
(** normals that are vertical, three points whose vertical projections are aligned *)
Definition upward (q : robot) (cs : list contact) : Prop := Forall (fun c => world_normal q c = V3 0 0 1) cs.
Definition aligned (a b c : v3) : Prop := (vx b - vx a) * (vy c - vy a) - (vy b - vy a) * (vx c - vx a) = 0.
(** contacts fixed in the world, and a robot that only has a center of mass *)
Definition still_robot (g : v3) : robot := Robot (fun _ => m1) (fun _ => v0) (fun _ => v0) (fun _ => v0) g v0.
Definition leg (x y : R) : contact := mkContact None (V3 x y 0) (V3 0 0 1).
