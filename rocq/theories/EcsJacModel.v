(** Model of the Jacobian of an ExplicitConstraintSet.

    Source: /repo/src/explicit-constraint-set.cc lines 264-291.

    Scalars: an abstract type K with 0, 1, + and *.  The Jacobian of the output of
    each constraint (Explicit::jacobianOutputValue, lines 271-277) is given: a list
    with one matrix per constraint of the set. *)
From Coq Require Import ZArith List Bool.
From Verif Require Import SegModel ViewModel EcsModel.
Import ListNotations.
Open Scope Z_scope.

Section Jac.
Context {V Rh K : Type}.
Variables (zero one : K) (kadd kmul : K -> K -> K).

(** Matrix product; None when the inner sizes differ (Eigen assertion). *)
Fixpoint ksum (n : nat) (f : Z -> K) : K :=
  match n with O => zero | S p => kadd (ksum p f) (f (Z.of_nat p)) end.
Definition mprod (A B : mat K) : option (mat K) :=
  if nc A =? nr B
  then Some (mkmat (nr A) (nc B) (fun i j => ksum (Z.to_nat (nc A)) (fun k => kmul (at_ A i k) (at_ B k j))))
  else None.

(** Lines 266-268: zero, then the identity through the view of the rows and columns
    that are not outputs (MatrixBase::setIdentity assigns Identity(rows, cols) to the
    view). *)
Definition jac_init (st : ecs V Rh) : option (mat K) :=
  let c := cardinal (notOutDers st) in
  write_view (mkmat (nv st) (nv st) (fun _ _ => zero)) (notOutDers st) (notOutDers st)
    (mkmat c c (fun i j => if i =? j then one else zero)).

(** Lines 283-291, computeJacobian. *)
Definition jac_one (st : ecs V Rh) (Fs : list (mat K)) (J : mat K) (k : nat) : option (mat K) :=
  match nth_error (data st) k, nth_error Fs k with
  | Some c, Some F =>
      match read_view J (c_inv c) (inDers st)
              (mkmat (cardinal (c_inv c)) (cardinal (inDers st)) (fun _ _ => zero)) with
      | None => None
      | Some Jin => match mprod F Jin with
                    | None => None
                    | Some M => if nr M =? cardinal (c_outv c) then write_view J (c_outv c) (inDers st) M else None
                    end
      end
  | _, _ => None
  end.
(** Lines 278-280. *)
Fixpoint jac_loop (st : ecs V Rh) (Fs : list (mat K)) (J : mat K) (l : list nat) : option (mat K) :=
  match l with
  | [] => Some J
  | k :: t => match jac_one st Fs J k with Some J' => jac_loop st Fs J' t | None => None end
  end.
Definition jacobian (st : ecs V Rh) (Fs : list (mat K)) : option (mat K) :=
  match jac_init st with Some J => jac_loop st Fs J (order st) | None => None end.
End Jac.
