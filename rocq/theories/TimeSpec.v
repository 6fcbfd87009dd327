(** Specification vocabulary for right hand sides that vary with time. *)
From Coq Require Import ZArith List Bool Reals.
From Verif Require Import EcsModel EcsRhsModel EcsRhsSpec ImplModel HierModel HierSpec BySubModel BySubSpec FdModel TimeModel.
Import ListNotations.

Section Spec.
Context {F V : Type}.

(** the k-th constraint, c, varies with time: it has a right hand side function and at
    least a row of type Equality *)
Definition varies (gs : list (option (V -> list V))) (k : nat) (c : ic F V) (g : V -> list V) : Prop :=
  nth_error gs k = Some (Some g) /\ In Equality (m_cmp (ic_i c)).
(** no two constraints have the same function *)
Definition distinct_functions (feq : F -> F -> bool) (l : list (bc F V * how)) : Prop :=
  forall i j a b, i <> j -> nth_error l i = Some a -> nth_error l j = Some b -> feq (bc_f (fst a)) (bc_f (fst b)) = false.
(** right hand side stored for the value x: all of it for a constraint treated
    numerically, without the components along rows that are not of type Equality for a
    constraint treated explicitly *)
Definition stored (zero : V) (a : bc F V * how) (x : list V) : list V :=
  match snd a with Numerically _ => x | Explicitly => proj zero (ic_s (bc_c (fst a))) x end.

(** last function given by calls accepted, last evaluation in a sequence of calls *)
Definition all_equality (l : list cmp) : Prop := forall t, In t l -> t = Equality.
Definition no_type_change (l : list (top V)) : Prop := forall comp, ~ In (SetType comp) l.
End Spec.

(** a right hand side function with real values, on n coordinates *)
Definition on_coords (n : nat) (f : rfun) (t : R) : list R := map (r_val f t) (seq 0 n).
