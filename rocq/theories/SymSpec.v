(** What symbolic expressions mean, independently of their evaluation. *)
From Coq Require Import Reals List Bool.
From Verif Require Import Geo SymModel.
Import ListNotations.
Local Open Scope R_scope.

(** The vector denoted by an expression for a given state of the robot. *)
Fixpoint meaning (q : robot) (e : expr) : v3 :=
  match e with
  | Cross _ l r => vcross (meaning q l) (meaning q r)
  | Dot _ l r => V3 (vdot (meaning q l) (meaning q r)) 0 0
  | Diff _ l r => vsub (meaning q l) (meaning q r)
  | Sum _ l r => vadd (meaning q l) (meaning q r)
  | SMul _ s r => vscale s (meaning q r)
  | Rot _ j tr r => mulv (if tr then mtr (jR q j) else jR q j) (meaning q r)
  | Pij _ (Some j) l => vadd (mulv (jR q j) l) (jp q j)
  | Vij _ (Some j) v => mulv (jR q j) v
  | Pij _ None p | Vij _ None p | Pt _ p => p
  | Com _ => com q
  end.

(** [e] is an object of the expression [r]. *)
Inductive sub (e : expr) : expr -> Prop :=
| sub_refl : sub e e
| sub_cross_l : forall a l r, sub e l -> sub e (Cross a l r)
| sub_cross_r : forall a l r, sub e r -> sub e (Cross a l r)
| sub_dot_l : forall a l r, sub e l -> sub e (Dot a l r)
| sub_dot_r : forall a l r, sub e r -> sub e (Dot a l r)
| sub_diff_l : forall a l r, sub e l -> sub e (Diff a l r)
| sub_diff_r : forall a l r, sub e r -> sub e (Diff a l r)
| sub_sum_l : forall a l r, sub e l -> sub e (Sum a l r)
| sub_sum_r : forall a l r, sub e r -> sub e (Sum a l r)
| sub_smul : forall a s r, sub e r -> sub e (SMul a s r)
| sub_rot : forall a j tr r, sub e r -> sub e (Rot a j tr r).

(** The objects of a list of expressions. *)
Definition among (roots : list expr) (e : expr) : Prop := exists r, In r roots /\ sub e r.

(** Distinct objects have distinct addresses (a shared object is the same
    expression everywhere). *)
Definition consistent (roots : list expr) : Prop :=
  forall e f, among roots e -> among roots f -> addr e = addr f -> e = f.

(** Expressions whose vector product matrix is computed correctly: not the center
    of mass, nor a point attached to a joint elsewhere than at its origin. *)
Definition crossable (e : expr) : Prop :=
  match e with
  | Com _ => False
  | Pij _ (Some _) l => l = v0
  | _ => True
  end.

(** All operands whose vector product matrix is used by an expression of the list
    are crossable. *)
Definition safe (roots : list expr) : Prop :=
  forall e, among roots e ->
    match e with
    | Cross _ l r => crossable l /\ crossable r
    | Rot _ _ _ r => crossable r
    | _ => True
    end.

(** No product by a rotation matrix which is not transposed. *)
Definition transposed (roots : list expr) : Prop :=
  forall e, among roots e -> match e with Rot _ _ tr _ => tr = true | _ => True end.

(** Operations on objects of the list, with or without motion of the robot. *)
Definition uses (roots : list expr) (o : op) : Prop :=
  match o with
  | Move _ => True
  | Invalidate e | Value e | Jacobian e | CrossValue e => among roots e
  end.
Definition still (o : op) : Prop := match o with Move _ => False | _ => True end.

(** The memory after construction of the expressions; [g] is its content before. *)
Definition constructed (roots : list expr) (g : store) : store :=
  fold_left (fun st e => construct_all e st) roots g.

(** A history: anything, then the robot moves to [q], then operations without
    motion among which the invalidation of [r]. *)
Definition history (roots : list expr) (q : robot) (r : expr) (ops : list op) : Prop :=
  exists before between after,
    ops = before ++ Move q :: between ++ Invalidate r :: after /\
    Forall (uses roots) ops /\ Forall still (between ++ after).

(** The robot moves along [Q]: at time 0 its joint placements are rigid and their
    velocities, as well as that of the center of mass, are the Jacobian columns of
    the robot (in the frame of the joint for the joints). *)
Definition motion (Q : R -> robot) : Prop :=
  (forall j, rotation (jR (Q 0) j)) /\
  (forall j, mderiv (fun t => jR (Q t) j) 0 (mul (jR (Q 0) j) (cross_matrix (jw (Q 0) j)))) /\
  (forall j, vderiv (fun t => jp (Q t) j) 0 (mulv (jR (Q 0) j) (jv (Q 0) j))) /\
  vderiv (fun t => com (Q t)) 0 (comJ (Q 0)).
