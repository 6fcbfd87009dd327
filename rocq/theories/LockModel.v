(** Model of the constructors of hpp::constraints::LockedJoint.

    Source: /repo/src/locked-joint.cc, /repo/src/explicit.cc:143-159,
            /repo/src/explicit/implicit-function.cc:164-196 (assertions).

    A robot is the list of (configSize, numberDof) of its joints in the order of
    their ranks, followed by the extra configuration variables.  Scalars are an
    abstract type V; [integ k v r] is the sum v + r of an element of the
    configuration space of joint k and a tangent vector (Explicit::outputValue,
    explicit.cc:106-111); the vector spaces R^n of the two other constructors use [vadd]. *)
From Coq Require Import ZArith List Bool.
From Verif Require Import SegModel SegSpec EcsModel.
Import ListNotations.
Open Scope Z_scope.

Definition layout := list (Z * Z).
Fixpoint total (f : Z * Z -> Z) (l : layout) : Z := match l with [] => 0 | x :: t => f x + total f t end.
(** hpp-pinocchio Joint::rankInConfiguration, configSize, rankInVelocity, numberDof *)
Definition rank_q (l : layout) (k : nat) : Z := total fst (firstn k l).
Definition rank_v (l : layout) (k : nat) : Z := total snd (firstn k l).
Definition size_q (l : layout) (k : nat) : Z := fst (nth k l (0, 0)).
Definition size_v (l : layout) (k : nat) : Z := snd (nth k l (0, 0)).
(** Device::configSize, numberDof with [e] extra variables *)
Definition dev_q (l : layout) (e : Z) : Z := total fst l + e.
Definition dev_v (l : layout) (e : Z) : Z := total snd l + e.

Section Lock.
Context {V : Type}.
Variable zero : V.
Variable integ : nat -> list V -> list V -> list V.
Variable vadd : V -> V -> V.

(** What a constructor builds: the explicit constraint, the mask, and whether the
    assertions of the constructors hold (they are only evaluated in debug mode). *)
Record locked := mklocked { lk_con : con V (list V); lk_mask : list bool; lk_asserts : bool }.

(** explicit.cc:143-159, parameters in the order of the declaration: input and output
    configuration, then input and output velocity.  The function is the constant
    function [value] without argument, [nvo] the dimension of its output space;
    implicit-function.cc:190-194 check the cardinals of the outputs. *)
Definition explicit_new (sum : list V -> list V -> list V) (value : list V) (nvo : Z)
    (inputConf outputConf inputVelocity outputVelocity : list (Z * Z)) (comp : list cmp) (mask : list bool) : locked :=
  mklocked
    (mkcon inputConf outputConf inputVelocity outputVelocity comp (fun rhs _ => sum value rhs) (repeat zero (Z.to_nat nvo)))
    mask
    ((cardinal outputConf =? Z.of_nat (length value)) && (cardinal outputVelocity =? nvo)).

(** locked-joint.cc:104-123 *)
Definition lock_whole (l : layout) (k : nat) (value : list V) : locked :=
  explicit_new (integ k) value (size_v l k)
    []
    [(rank_q l k, size_q l k)]
    []
    [(rank_v l k, size_v l k)]
    (repeat Equality (Z.to_nat (size_v l k)))
    (repeat true (Z.to_nat (size_v l k))).

Definition vsum (a b : list V) : list V := map (fun p => vadd (fst p) (snd p)) (combine a b).

(** locked-joint.cc:125-147 *)
Definition lock_partial (l : layout) (k : nat) (index : Z) (value : list V) : locked :=
  explicit_new vsum value (size_q l k - index)
    []
    []
    [(rank_q l k, size_q l k - index)]
    [(rank_v l k, size_v l k - index)]
    (repeat Equality (Z.to_nat (size_v l k - index)))
    (repeat true (Z.to_nat (size_v l k))).

(** locked-joint.cc:149-173 *)
Definition lock_extra (l : layout) (e index : Z) (value : list V) : locked :=
  let n := Z.of_nat (length value) in
  explicit_new vsum value n
    []
    []
    [(dev_q l e - e + index, n)]
    [(dev_v l e - e + index, n)]
    (repeat Equality (length value))
    (repeat true (length value)).

(** locked-joint.cc:87-93, rankInConfiguration, rankInVelocity; None = element 0 of an
    empty vector *)
Definition rank_in_configuration (k : locked) : option Z := option_map fst (hd_error (c_out (lk_con k))).
Definition rank_in_velocity (k : locked) : option Z := option_map fst (hd_error (c_outv (lk_con k))).

(** additions to a set of explicit constraints, one after the other *)
Fixpoint adds (iadd : Z -> Z -> Z) (fuel : nat) (st : ecs V (list V)) (cs : list (con V (list V))) : ecs V (list V) * list outcome :=
  match cs with
  | [] => (st, [])
  | c :: t => let '(st', r) := add iadd fuel st c in let '(st'', rs) := adds iadd fuel st' t in (st'', r :: rs)
  end.
End Lock.
Arguments locked : clear implicits.
