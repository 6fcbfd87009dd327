(** Model of the comparison of functions.

    Source: /repo/src/differentiable-function.cc lines 214-224 (operator==);
    isEqual of /repo/include/hpp/constraints/differentiable-function.hh lines 223-230,
    affine-function.hh lines 65-70, 111-120, 181-189, generic-transformation.hh lines
    349-357, distance-between-points-in-bodies.hh lines 111-123,
    configuration-constraint.hh lines 84-94, function/of-parameter-subset.hh lines 90-100,
    active-set-differentiable-function.hh lines 85-94, manipulability.hh lines 67-79,
    /repo/src/convex-shape-contact.cc lines 70-80; /repo/src/extracted-function.hh (no
    isEqual of its own).

    Pointers (robot, joints, functions) and names are numbers; numeric members are lists
    of scalars compared with [veq]; a convex shape is the list of its data.  Classes
    RelativeCom, ComBetweenFeet, StaticStability, QPStaticStability, SymbolicFunction,
    DistanceBetweenBodies and explicit_::ImplicitFunction compare their members field by
    field, as DistanceBetweenPointsInBodies does, and are not listed. *)
From Coq Require Import ZArith List Bool.
Import ListNotations.

Section Eq.
Context {V : Type}.
Variable veq : V -> V -> bool.

(** members compared by DifferentiableFunction::isEqual *)
Record base := mkbase { b_name : nat; b_in : Z; b_ind : Z; b_space : nat }.

(** dynamic type of the function with its own members *)
Inductive kind : Type :=
  | KExtracted (reversed : bool) (t1 : V) (original : nat)
  | KIdentity
  | KAffine (J : list (list V)) (b : list V)
  | KConstant (c : list V)
  | KTransform (cls robot joint1 joint2 : nat) (F1 F2 : list V) (mask : list bool)   (* cls: template argument *)
  | KContact (robot : nat) (floors objects : list (list V))
  | KPoints (robot joint1 joint2 : nat) (p1 p2 : list V)
  | KConfig (robot : nat) (goal weights : list V)
  | KSubset (g : nat) (sa sd : Z * Z)
  | KActiveSet (f : nat) (intervals : list (Z * Z))
  | KManip (f robot : nat) (cols : list (Z * Z)) (J JJT : list (list V)).
Record fun_ := mkfun { fb : base; fk : kind }.

Fixpoint leq {B} (eq : B -> B -> bool) (a b : list B) : bool :=
  match a, b with
  | [], [] => true
  | x :: a', y :: b' => eq x y && leq eq a' b'
  | _, _ => false
  end.
Definition vleq := leq veq.
Definition mleq := leq vleq.
Definition segeq (a b : Z * Z) : bool := Z.eqb (fst a) (fst b) && Z.eqb (snd a) (snd b).

(** differentiable-function.hh:223-230 *)
Definition base_eq (a b : base) : bool :=
  Nat.eqb (b_name a) (b_name b) && Z.eqb (b_in a) (b_in b) && Z.eqb (b_ind a) (b_ind b) && Nat.eqb (b_space a) (b_space b).

(** result of a call: a boolean, std::bad_cast, out of bounds access *)
Inductive res := B (b : bool) | BadCast | Undef.

(** convex-shape-contact.cc:76-78: the loop runs over the object shapes and compares the
    floor shapes *)
Fixpoint floors_eq (n : nat) (a b : list (list V)) : res :=
  match n with
  | O => B true
  | S n' => match a, b with
            | x :: a', y :: b' => if vleq x y then floors_eq n' a' b' else B false
            | _, _ => Undef
            end
  end.

(** f.isEqual(g): dynamic_cast, then base members, then own members *)
Definition is_equal (f g : fun_) : res :=
  let be := base_eq (fb f) (fb g) in
  match fk f, fk g with
  | KExtracted _ _ _, _ => B be                       (* inherited: no cast *)
  | KIdentity, KIdentity => B be
  | KAffine J b, KAffine J' b' => B (be && mleq J J' && vleq b b')
  | KConstant c, KConstant c' => B (be && negb (vleq c c'))
  | KTransform cl r _ _ _ _ m, KTransform cl' r' _ _ _ _ m' =>
      if Nat.eqb cl cl' then B (be && Nat.eqb r r' && leq eqb m m') else BadCast
  | KContact r fl ob, KContact r' fl' ob' =>
      if be && Nat.eqb r r' && Nat.eqb (length ob) (length ob') then floors_eq (length ob) fl fl' else B false
  | KPoints r j1 j2 p1 p2, KPoints r' j1' j2' p1' p2' =>
      B (be && Nat.eqb r r' && Nat.eqb j1 j1' && Nat.eqb j2 j2' && vleq p1 p1' && vleq p2 p2')
  | KConfig r q w, KConfig r' q' w' => B (be && Nat.eqb r r' && vleq q q' && vleq w w')
  | KSubset h sa sd, KSubset h' sa' sd' => B (be && Nat.eqb h h' && segeq sa sa' && segeq sd sd')
  | KActiveSet h l, KActiveSet h' l' => B (be && Nat.eqb h h' && leq segeq l l')
  | KManip h r c J JJ, KManip h' r' c' J' JJ' => B (be && Nat.eqb h h' && Nat.eqb r r' && leq segeq c c' && mleq J J' && mleq JJ JJ')
  | _, _ => BadCast
  end.

(** operator==, differentiable-function.cc:214-221 *)
Definition fun_eq (f g : fun_) : res :=
  match is_equal f g with
  | B true => match is_equal g f with BadCast => B false | r => r end
  | B false | BadCast => B false
  | Undef => Undef
  end.
End Eq.
Arguments kind : clear implicits.
Arguments fun_ : clear implicits.
