(** What a function given by an expression computes. *)
From Coq Require Import Reals List Bool ZArith.
From Verif Require Import Geo Rigid ViewModel VisSpec SfModel.
Import ListNotations.
Local Open Scope R_scope.

(** positions selected by a mask, in order *)
Definition selected (mask : list bool) : list nat := filter (fun i => nth i mask false) (seq 0 (length mask)).
(** [l'] holds the selected values first, then what [l] held *)
Definition selects (mask : list bool) (v l l' : list R) : Prop :=
  length l' = length l /\
  (forall k i, nth_error (selected mask) k = Some i -> nth_error l' k = nth_error v i) /\
  (forall k, (length (selected mask) <= k)%nat -> nth_error l' k = nth_error l k).
(** value and Jacobian of an expression *)
Definition expr_value (e : expression) (st : state) : list R :=
  match e with
  | JointFrame => let M := s_M st in let r := snd (LogModel.logSO3 (rot M)) in [vx (tra M); vy (tra M); vz (tra M); vx r; vy r; vz r]
  | FunctionExp f _ => f (s_arg st)
  end.
(** velocities of the degrees of freedom as a list, the first ones those of the joints *)
Definition velocity (J : mat R) (dq : list R) : list R := firstn (Z.to_nat (nc J)) dq.
