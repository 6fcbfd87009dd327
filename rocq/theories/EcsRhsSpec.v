(** What the right hand sides of a set of explicit constraints must be. *)
From Coq Require Import ZArith List Floats.SpecFloat.
From Verif Require Import SegSpec EcsModel EcsSpec EcsRhsModel NanModel.
Import ListNotations.

Section Spec.
Context {V : Type}.
Variable zero : V.
Notation imp := (imp V).

(** keep the components compared with a parameter (Equality), zero the others *)
Definition keep_eq (t : list cmp) (v : list V) : list V :=
  map (fun p => match fst p with Equality => snd p | _ => zero end) (combine t v).
Definition proj (c : imp) (x : list V) : list V := s_exp c (keep_eq (s_cmp c) (s_log c x)).

(** [mem c x]: x represents an element of the output space of c (e.g. unit
    quaternion); [okq q]: q is a valid configuration *)
Variable mem : imp -> list V -> Prop.
Variable okq : (Z -> V) -> Prop.

(** sizes, and the law of exp and log used by the projection: log inverts exp on
    projected logarithms; the neutral element is projected on itself *)
Definition wf_imp (c : imp) : Prop :=
  length (s_cmp c) = s_nv c /\
  (forall x, mem c x -> length x = s_nq c) /\
  (forall x, mem c x -> length (s_log c x) = s_nv c) /\
  (forall w, length w = s_nv c -> mem c (s_exp c w)) /\
  (forall q, okq q -> mem c (s_fun c q)) /\
  (forall x, mem c x -> s_log c (proj c x) = keep_eq (s_cmp c) (s_log c x)) /\
  mem c (s_neutral c) /\ proj c (s_neutral c) = s_neutral c.

(** the vector of all right hand sides cut in pieces *)
Fixpoint pieces (cs : list imp) (v : list V) : list (list V) :=
  match cs with [] => [] | c :: t => firstn (s_nq c) v :: pieces t (skipn (s_nq c) v) end.
Definition total_size (cs : list imp) : nat := list_sum (map s_nq cs).
(** each piece projected on the space of its constraint *)
Definition projs (cs : list imp) (l : list (list V)) : list (list V) :=
  map (fun p => proj (fst p) (snd p)) (combine cs l).
(** a vector of right hand sides of the right size, each piece in its space *)
Definition rhs_vector (cs : list imp) (v : list V) : Prop :=
  length v = total_size cs /\ Forall2 mem cs (pieces cs v).

(** right hand sides reached through the interface *)
Inductive rhs_reach (cs : list imp) : list (list V) -> Prop :=
| rr_init : rhs_reach cs (map s_neutral cs)
| rr_set rl i c x rl' : rhs_reach cs rl -> nth_error cs i = Some c -> mem c x ->
    set_rhs zero cs rl i x = Some rl' -> rhs_reach cs rl'
| rr_all v rl' : rhs_vector cs v -> set_all zero cs v = Some rl' -> rhs_reach cs rl'
| rr_input rl i q rl' : rhs_reach cs rl -> okq q -> from_input zero cs rl i q = Some rl' -> rhs_reach cs rl'.

(** The explicit and implicit formulations of a constraint agree: the output has
    the value computed from the input and the right hand side iff the implicit
    function takes the right hand side as value. *)
Definition formulations_agree (e : con V (list V)) (c : imp) : Prop :=
  forall q r, okq q -> mem c r -> (satisfies q e r <-> s_fun c q = r).
(** the space has a difference vanishing on equal elements *)
Definition minus_refl (c : imp) : Prop :=
  forall x, mem c x -> s_minus c x x = repeat zero (s_nv c).
(** all residuals vanish *)
Definition no_residual (cs : list imp) (rl : list (list V)) (q : Z -> V) : Prop :=
  Forall2 (fun c r => s_minus c (s_fun c q) r = repeat zero (s_nv c)) cs rl.
End Spec.
