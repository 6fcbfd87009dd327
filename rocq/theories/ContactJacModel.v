(** Value and Jacobian of the contact of convex shapes, of its complement and of both together;
    contact points.

    Source: /repo/src/convex-shape-contact.cc:58-68 (constructor), 88-111 (addObject, addFloor),
            131-166 (computeContactPoints), 168-190 (computeInternalValue), 192-223
            (impl_compute), 225-252 (computeInternalJacobian), 254-282 (impl_jacobian), 315-340
            (contactType), 405-437 (complement), 492-507 (hold).

    Built on ShapeModel (surfaces, distances), ContactModel (selection of the pair) and GTModel
    (relative transformation).  Forward kinematics gives the placements and the Jacobians of the
    joints.  A matrix is a list of columns; the content of the temporary matrix after its
    allocation is a parameter.  The joints have a positive index in the robot or are null. *)
From Coq Require Import Reals List Bool Arith.
From Verif Require Import ContactModel GTModel.
From Verif Require Import Geo Rigid ShapeModel.
Import ListNotations.
Local Open Scope R_scope.

(** an exception and undefined behaviour (null pointer, read out of bounds) are different outcomes *)
Inductive res (A : Type) := Done (a : A) | Throws | Undefined.
Arguments Done {A}. Arguments Throws {A}. Arguments Undefined {A}.
Definition rbind {A B} (x : res A) (f : A -> res B) : res B :=
  match x with Done a => f a | Throws => Throws | Undefined => Undefined end.
Definition defined {A} (x : option A) : res A := match x with Some a => Done a | None => Undefined end.
(** ConvexShape::init throws without points *)
Definition built {A} (x : option A) : res A := match x with Some a => Done a | None => Throws end.

(** a ConvexShape and its joint *)
Record surf := Surf { sj : option nat; ss : shape }.
Record contact := Contact { floors : list surf; objects : list surf; margin : R; rad : R }.

(** lines 88-111: the copies of ConvexShape call init again *)
Definition add_object (jp : option nat * list v3) : res surf :=
  rbind (built (create (snd jp))) (fun s => rbind (built (copy s)) (fun s => Done (Surf (fst jp) s))).
Definition add_floor (jp : option nat * list v3) : res surf :=
  rbind (built (create (snd jp))) (fun t => rbind (built (copy t)) (fun tt => rbind (built (reverse tt)) (fun tt =>
  rbind (built (copy tt)) (fun s => Done (Surf (fst jp) s))))).
Fixpoint all {A B} (f : A -> res B) (l : list A) : res (list B) :=
  match l with [] => Done [] | x :: l => rbind (f x) (fun y => rbind (all f l) (fun ys => Done (y :: ys))) end.
(** lines 58-68; computeRadius is in ContactModel *)
Definition create_contact (fl ob : list (option nat * list v3)) (radius : list surf -> R) : res contact :=
  rbind (all add_floor fl) (fun fs => rbind (all add_object ob) (fun os => Done (Contact fs os 0 (radius fs)))).
Definition set_margin (c : contact) (m : R) : contact := Contact (floors c) (objects c) m (rad c).

Inductive ctype := POINT_ON_PLANE | LINE_ON_PLANE | PLANE_ON_PLANE.
(** lines 315-340 *)
Definition contactType (object floor : shape) : res ctype :=
  match s_dim floor with
  | 1%nat => Throws | 2%nat => Throws
  | _ => match s_dim object with 1%nat => Done POINT_ON_PLANE | 2%nat => Done LINE_ON_PLANE | _ => Done PLANE_ON_PLANE end
  end.

Section C.
(** isIdentity() and isZero() of Eigen *)
Variables (isId : m3 -> bool) (isZero : v3 -> bool).
Variable c : contact.

Definition at_k (k : kins) (s : surf) : option se3 * shape := (option_map (place k) (sj s), ss s).
Definition nowhere : option se3 * shape := (None, Shape [] 0 v0 v0 [] [] [] sid).
(** the distances of all pairs are read by selectConvexShapes, lines 284-313 *)
Definition readable (k : kins) : bool :=
  forallb (fun f => forallb (fun o => match fst (pair_dist (at_k k f) (at_k k o)) with Val _ => true | _ => false end) (objects c)) (floors c).
Definition selected (k : kins) : res (nat * nat * bool) :=
  if readable k then
    let fs := map (at_k k) (floors c) in let os := map (at_k k) (objects c) in
    defined (select (floor_dp fs os nowhere) (floor_dn fs os nowhere) (length fs) (length os))
  else Undefined.
(** the two shapes selected ([floor] is a copy), their types *)
Definition pair (k : kins) : res (nat * nat * bool * surf * surf * ctype) :=
  rbind (selected k) (fun jib => let '(j, i, b) := jib in
  rbind (defined (nth_error (objects c) i)) (fun o => rbind (defined (nth_error (floors c) j)) (fun f =>
  rbind (built (copy (ss f))) (fun fs => let f := Surf (sj f) fs in
  rbind (contactType (ss o) (ss f)) (fun ty => Done (j, i, b, f, o, ty)))))).
(** relativeTransformationModel_, lines 52-54 and 181-186 *)
Definition o6 : opts := Opts true true true false.
Definition rtm (f o : surf) : gt :=
  GT (sj f) (sj o) (isId (rot (s_M (ss f)))) (isZero (tra (s_M (ss f)))) (isZero (tra (s_M (ss o))))
     (s_M (ss f)) (s_M (ss o)) true true 3 (repeat true 6).

(** lines 168-190; [raw] is the vector of six numbers *)
Definition internal_value (k : kins) : res (nat * nat * bool * ctype * list R) :=
  rbind (pair k) (fun p => let '(j, i, b, f, o, ty) := p in Done (j, i, b, ty, raw (fun _ => []) o6 (rtm f o) k)).
Definition at_ (v : list R) (i : nat) : R := nth i v 0.
(** lines 192-223 *)
Definition contact_value (k : kins) : res (list R) :=
  rbind (internal_value k) (fun p => let '(j, i, b, ty, v) := p in
  Done ((at_ v 0 + margin c) :: (if b then [0; 0] else [at_ v 1; at_ v 2]) ++
        match ty with POINT_ON_PLANE => [0; 0] | _ => [at_ v 4; at_ v 5] end)).
(** lines 405-423 *)
Definition complement_value (k : kins) : res (list R) :=
  rbind (internal_value k) (fun p => let '(j, i, b, ty, v) := p in
  Done [(if b then at_ v 1 else 0) + INR (2 * j) * rad c; (if b then at_ v 2 else 0) + INR (2 * i) * rad c; at_ v 3]).
(** lines 492-500 *)
Definition hold_fun_value (k : kins) : res (list R) :=
  rbind (contact_value k) (fun v => rbind (complement_value k) (fun w => Done (v ++ w))).

(** lines 225-252: [cols] is the number of degrees of freedom without the extra ones, the other
    columns of the matrix are not written (helper.hh:239-250, leftCols); the cache of helper.hh:126
    is not used *)
Definition internal_jacobian (k : kins) (cols : nat) (tmp : list (list R)) : res (bool * ctype * list (list R)) :=
  rbind (pair k) (fun p => let '(j, i, b, f, o, ty) := p in
  rbind (defined (jacobian o6 (rtm f o) k cols (repeat 0 6) (firstn cols tmp))) (fun J => Done (b, ty, J ++ skipn cols tmp))).
(** lines 254-282 *)
Definition contact_jacobian (k : kins) (cols : nat) (tmp : list (list R)) : res (list (list R)) :=
  rbind (internal_jacobian k cols tmp) (fun p => let '(b, ty, J) := p in
  let top x := at_ x 0 :: (if b : bool then [0; 0] else [at_ x 1; at_ x 2]) in
  match ty with
  | POINT_ON_PLANE => Done (map (fun x => top x ++ [0; 0]) J)
  | LINE_ON_PLANE => Throws
  | PLANE_ON_PLANE => Done (map (fun x => top x ++ [at_ x 4; at_ x 5]) J)
  end).
(** lines 425-437 *)
Definition complement_jacobian (k : kins) (cols : nat) (tmp : list (list R)) : res (list (list R)) :=
  rbind (internal_jacobian k cols tmp) (fun p => let '(b, ty, J) := p in
  Done (map (fun x => (if b : bool then [at_ x 1; at_ x 2] else [0; 0]) ++ [at_ x 3]) J)).
(** lines 502-507: topRows and bottomRows *)
Definition stack (A B : list (list R)) : list (list R) := map (fun p => fst p ++ snd p) (combine A B).
Definition hold_jacobian (k : kins) (cols : nat) (tmp tmp' : list (list R)) : res (list (list R)) :=
  rbind (contact_jacobian k cols tmp) (fun A => rbind (complement_jacobian k cols tmp') (fun B => Done (stack A B))).

(** ForceData; lines 131-166, object by object *)
Record force := Force { f_joint : option nat; f_points : list v3; f_normal : v3; f_support : option nat }.
Definition inside_of (k : kins) (f o : surf) : option bool :=
  let fd := update (fst (at_k k f)) (ss f) in let od := update (fst (at_k k o)) (ss o) in
  isInside fd (fst (at_k k f)) (ss f) (intersection fd (d_center od) (d_normal fd)).
Definition force_of (k : kins) (normalMargin : R) (o f : surf) : option (list force) :=
  match inside_of k f o with
  | None => None
  | Some true => if Rlt_dec (snd (pair_dist (at_k k f) (at_k k o))) normalMargin
                 then Some [Force (sj o) (s_pts (ss o)) (s_N (ss f)) (sj f)] else Some []
  | Some false => Some []
  end.
Fixpoint gather {A B} (f : A -> option (list B)) (l : list A) : option (list B) :=
  match l with
  | [] => Some []
  | x :: l => match f x, gather f l with Some a, Some b => Some (a ++ b) | _, _ => None end
  end.
Definition computeContactPoints (k : kins) (normalMargin : R) : option (list force) :=
  gather (fun o => gather (force_of k normalMargin o) (floors c)) (objects c).
End C.
