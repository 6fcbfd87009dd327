(** Steps of the solver by substitution: integration of a velocity.

    Source: /repo/src/solver/hierarchical-iterative.cc:712-719 (integrate),
            /repo/include/hpp/constraints/solver/by-substitution.hh:281-286 (integrate).

    [plus q v]: the sum of a configuration and a velocity in the configuration space
    (pinocchio).  The saturation object is described by its calls of clamp, see
    SatModel.v. *)
From Coq Require Import ZArith List Bool.
From Verif Require Import ViewModel EcsModel SatModel.
Import ListNotations.
Open Scope Z_scope.

Section Int.
Context {V Rh D : Type}.
Variable leb : V -> V -> bool.
Variable plus : (Z -> V) -> D -> Z -> V.

(** hierarchical-iterative.cc:712-719: result = from; M += velocity;
    saturate (result, result, saturation_) *)
Definition integrate (lb ub : Z -> V) (pairs : list (Z * Z)) (from : Z -> V) (velocity : D) (saturation : Z -> Z) : sst V :=
  sat_list_in_place leb lb ub pairs (mksst (plus from velocity) saturation false).

(** by-substitution.hh:281-286 *)
Definition bintegrate (lb ub : Z -> V) (pairs : list (Z * Z)) (e : ecs V Rh) (from : Z -> V) (velocity : D) (saturation : Z -> Z) : option (sst V) :=
  let r := integrate lb ub pairs from velocity saturation in
  match solve e (qs r) with
  | Some q => Some (mksst q (fl r) (ret r))
  | None => None
  end.
End Int.
