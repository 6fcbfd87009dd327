(** What saturation must do to a value, for any order. *)
From Coq Require Import ZArith.
Section S.
Context {V : Type}.
Variable leb : V -> V -> bool.
(** w is the value that v is brought to *)
Definition brought (lb ub v w : V) : Prop :=
  (leb v lb = true -> w = lb) /\ (leb v lb = false -> leb ub v = true -> w = ub) /\ (leb v lb = false -> leb ub v = false -> w = v).
(** flag: -1 lower bound reached, 1 upper bound reached *)
Definition flagged (lb ub v : V) (f : Z) : Prop :=
  (leb v lb = true -> f = (-1)%Z) /\ (leb v lb = false -> leb ub v = true -> f = 1%Z) /\ (leb v lb = false -> leb ub v = false -> f = 0%Z).
Definition outside (lb ub v : V) : Prop := leb v lb = true \/ leb ub v = true.
Definition within (lb ub v : V) : Prop := leb lb v = true /\ leb v ub = true.
(** no NaN *)
Definition total : Prop := forall x y, leb x y = true \/ leb y x = true.
End S.
