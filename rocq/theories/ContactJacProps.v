(** C74: contacts of convex shapes, value, Jacobian, contact points.

    [isId] and [isZero] stand for the tests of Eigen, that may miss but do not err. *)
From Coq Require Import Reals List Bool Arith.
From Verif Require Import LogModel GTModel GTSpec.
From Verif Require Import Geo Rigid ShapeModel ShapeSpec ContactJacModel ContactJacSpec ContactJacFrame ContactJacThm ContactJacExamples.
Import ListNotations.
Local Open Scope R_scope.

(** Convex polygons, and single points and segments as objects, are accepted. *)
Theorem C74_built fl ob radius : Forall polygon fl -> Forall surface ob ->
  exists c, create_contact fl ob radius = Done c /\ margin c = 0 /\ rad c = radius (floors c).
Proof. exact (contact_built fl ob radius). Qed.
Print Assumptions C74_built.

(** The value: the pair is closest in space; [A] and [B] are the frames of the floor turned over and of the object. *)
Theorem C74_value isId isZero fl ob radius c : create_contact fl ob radius = Done c -> Forall polygon fl -> Forall surface ob ->
  (forall m, isId m = true -> m = m1) -> (forall v, isZero v = true -> v = v0) -> forall k m,
  (forall s, In s fl \/ In s ob -> placed_well k s) -> fl <> [] -> ob <> [] -> exists j i f o A B b,
  nth_error fl j = Some f /\ nth_error ob i = Some o /\ closest k fl ob j i /\ frame k (over_turned f) A /\ frame k o B /\ (b = true <-> over k f o) /\
  let P := comp (sinv A) B in let p := tra P in let w := snd (logSO3 (rot P)) in
  let v := (vx p + m) :: (if b then [0; 0] else [vy p; vz p]) ++ (if Nat.eqb (length (snd o)) 1 then [0; 0] else [vy w; vz w]) in
  let v' := [(if b then vy p else 0) + 2 * INR j * rad c; (if b then vz p else 0) + 2 * INR i * rad c; vx w] in
  contact_value isId isZero (set_margin c m) k = Done v /\ complement_value isId isZero (set_margin c m) k = Done v' /\
  hold_fun_value isId isZero (set_margin c m) k = Done (v ++ v').
Proof. exact (contact_values isId isZero fl ob radius c). Qed.
Print Assumptions C74_value.

(** The frames are determined. *)
Theorem C74_frame k s A B : polygon s \/ single s -> frame k s A -> frame k s B -> A = B.
Proof. exact (frame_unique k s A B). Qed.
Print Assumptions C74_frame.

(** The value is zero exactly when the object lies, at the margin, on the inside of the closest floor. *)
Theorem C74_zero isId isZero fl ob radius c : create_contact fl ob radius = Done c -> Forall polygon fl -> Forall surface ob ->
  (forall m, isId m = true -> m = m1) -> (forall v, isZero v = true -> v = v0) -> forall k m,
  (forall s, In s fl \/ In s ob -> placed_well k s) -> fl <> [] -> ob <> [] -> exists j i f o,
  nth_error fl j = Some f /\ nth_error ob i = Some o /\ closest k fl ob j i /\
  (polygon o -> (contact_value isId isZero (set_margin c m) k = Done [0; 0; 0; 0; 0] <-> above_inside m k f o /\ opposite k f o)) /\
  (single o -> (contact_value isId isZero (set_margin c m) k = Done [0; 0; 0; 0; 0] <-> above_inside m k f o)).
Proof. exact (contact_zero isId isZero fl ob radius c). Qed.
Print Assumptions C74_zero.

(** The Jacobians are the derivatives of the values where one pair is closest and the foot of the object is not on a side. *)
Theorem C74_jacobian isId isZero fl ob radius c : create_contact fl ob radius = Done c -> Forall polygon fl -> Forall surface ob ->
  (forall m, isId m = true -> m = m1) -> (forall v, isZero v = true -> v = v0) -> forall K t d cols,
  (forall s, In s fl \/ In s ob -> joint_moves (fst s) K t d) -> forall j i f o, nth_error fl j = Some f -> nth_error ob i = Some o -> forall m,
  strictly_closest (K t) fl ob j i -> off_sides (K t) f o -> polygon o \/ single o ->
  fst f <> None \/ fst o <> None -> (forall n, fst f = Some n \/ fst o = Some n -> length (jjac (K t) n) = cols) ->
  exists J J' JH, length J = cols /\ length J' = cols /\ length JH = cols /\
  Forall (fun x => length x = 5%nat) J /\ Forall (fun x => length x = 3%nat) J' /\ Forall (fun x => length x = 8%nat) JH /\
  (forall tmp tmp', length tmp = cols -> length tmp' = cols -> Forall (fun x => length x = 6%nat) tmp -> Forall (fun x => length x = 6%nat) tmp' ->
    contact_jacobian isId isZero (set_margin c m) (K t) cols tmp = Done J /\ complement_jacobian isId isZero (set_margin c m) (K t) cols tmp = Done J' /\
    hold_jacobian isId isZero (set_margin c m) (K t) cols tmp tmp' = Done JH) /\
  (forall r, (r < 5)%nat -> (r < 3)%nat \/ single o \/ turn_fine (K t) f o -> deriv (fun s => row r (contact_value isId isZero (set_margin c m) (K s))) t (row_times J r d)) /\
  (forall r, (r < 3)%nat -> (r < 2)%nat \/ turn_fine (K t) f o -> deriv (fun s => row r (complement_value isId isZero (set_margin c m) (K s))) t (row_times J' r d)) /\
  (forall r, (r < 8)%nat -> turn_fine (K t) f o -> deriv (fun s => row r (hold_fun_value isId isZero (set_margin c m) (K s))) t (row_times JH r d)).
Proof. exact (contact_jacobians isId isZero fl ob radius c). Qed.
Print Assumptions C74_jacobian.

(** The forces of computeContactPoints: the foot of the object is in the floor, and the floor is less than the margin above. *)
Theorem C74_contact_points fl ob radius c : create_contact fl ob radius = Done c -> Forall polygon fl -> forall k m,
  (forall s, In s fl \/ In s ob -> placed_well k s) -> exists l, computeContactPoints c k m = Some l /\ forall F, In F l <->
  exists f o n, In f fl /\ In o ob /\ convex_polygon n (snd f) /\ F = Force (fst o) (snd o) (vopp (unit n)) (fst f) /\
    (exists h, hull (world k f) (vadd (mean (world k o)) (vscale h (turned (joint_at k (fst f)) n)))) /\
    vdot (turned (joint_at k (fst f)) (unit n)) (vsub (mean (world k f)) (mean (world k o))) < m.
Proof. exact (points_at fl ob radius c). Qed.
Print Assumptions C74_contact_points.

(** Refuted: an object at any height is in contact for any margin. *)
Theorem C74_points_refuted h m : 0 < h -> 0 < m -> exists c l F, create_contact [ground] [foot_sole] unit_radius = Done c /\
  computeContactPoints c (slide h 0) m = Some l /\ In F l /\ f_joint F = Some 1%nat /\ f_support F = None /\ apart (slide h 0) ground foot_sole h.
Proof. exact (points_wrong h m). Qed.
Print Assumptions C74_points_refuted.
(** Refuted: the column of an extra degree of freedom is what the temporary matrix held. *)
Theorem C74_extra_refuted isId isZero : (forall m, isId m = true -> m = m1) -> (forall v, isZero v = true -> v = v0) -> exists c tmp,
  create_contact [ground] [foot_sole] unit_radius = Done c /\ length tmp = 1%nat /\
  forall x, exists J, length J = 1%nat /\ contact_jacobian isId isZero c (slide 1 0) 1 (tmp ++ [x]) = Done (J ++ [[nth 0 x 0; 0; 0; nth 4 x 0; nth 5 x 0]]).
Proof. exact (extra_wrong isId isZero). Qed.
Print Assumptions C74_extra_refuted.
(** Refuted: a segment has a value and no Jacobian. *)
Theorem C74_line_refuted isId isZero : (forall m, isId m = true -> m = m1) -> (forall v, isZero v = true -> v = v0) -> exists c,
  create_contact [ground] [edge_sole] unit_radius = Done c /\ (exists v, contact_value isId isZero c (slide 1 0) = Done v) /\
  forall tmp, length tmp = 1%nat -> Forall (fun x => length x = 6%nat) tmp -> contact_jacobian isId isZero c (slide 1 0) 1 tmp = Throws.
Proof. exact (line_wrong isId isZero). Qed.
Print Assumptions C74_line_refuted.
(** Refuted: without joints there is a value; the Jacobian reads through a null pointer. *)
Theorem C74_null_refuted isId isZero : (forall m, isId m = true -> m = m1) -> (forall v, isZero v = true -> v = v0) -> exists c,
  create_contact [ground] [ground] unit_radius = Done c /\ (exists v, contact_value isId isZero c (slide 1 0) = Done v) /\
  forall tmp, length tmp = 1%nat -> contact_jacobian isId isZero c (slide 1 0) 1 tmp = Undefined.
Proof. exact (null_wrong isId isZero). Qed.
Print Assumptions C74_null_refuted.
(** Refuted: a floor of two points is accepted, but no value is defined, for it nor for any contact with it. *)
Theorem C74_thin_floor isId isZero fl ob radius c f : create_contact fl ob radius = Done c -> In f fl -> (length (snd f) < 3)%nat -> ob <> [] ->
  forall k, contact_value isId isZero c k = Undefined /\ complement_value isId isZero c k = Undefined.
Proof. exact (thin_floor isId isZero fl ob radius c f). Qed.
Print Assumptions C74_thin_floor.
Theorem C74_thin_floor_refuted isId isZero k : exists c, create_contact [edge_sole] [foot_sole] unit_radius = Done c /\ contact_value isId isZero c k = Undefined.
Proof. exact (thin_wrong isId isZero k). Qed.
Print Assumptions C74_thin_floor_refuted.

(** A sole turned over at height [h] above the ground, with margin [h]. *)
Example C74_case_zero isId isZero h : (forall m, isId m = true -> m = m1) -> (forall v, isZero v = true -> v = v0) -> exists c,
  create_contact [ground] [foot_sole] unit_radius = Done c /\ contact_value isId isZero (set_margin c h) (slide h 0) = Done [0; 0; 0; 0; 0].
Proof. exact (case_zero isId isZero h). Qed.
Example C74_case_jacobian h : strictly_closest (slide h 0) [ground] [foot_sole] 0 0 /\ off_sides (slide h 0) ground foot_sole /\ turn_fine (slide h 0) ground foot_sole /\
  (forall s, In s [ground] \/ In s [foot_sole] -> joint_moves (fst s) (slide h) 0 [1]) /\ polygon foot_sole /\ fst foot_sole <> None.
Proof. exact (case_jacobian h). Qed.
