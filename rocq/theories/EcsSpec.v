(** Specification vocabulary for sets of explicit constraints, stated on the list
    of accepted constraints only. *)
From Coq Require Import ZArith List.
From Verif Require Import SegSpec EcsModel.
Import ListNotations.
Open Scope Z_scope.

Section Spec.
Context {V Rh : Type}.
Notation con := (con V Rh).

(** variable i is computed by a constraint of the list *)
Definition output (l : list con) (i : Z) : Prop := exists c, In c l /\ covers (c_out c) i.
Definition outputv (l : list con) (i : Z) : Prop := exists c, In c l /\ covers (c_outv c) i.
(** variable i is read by a constraint of the list *)
Definition input (l : list con) (i : Z) : Prop := exists c, In c l /\ covers (c_in c) i.
Definition inputv (l : list con) (i : Z) : Prop := exists c, In c l /\ covers (c_inv c) i.

(** variable i is needed to compute the inputs of c: directly, or because it is an
    input of a constraint of the list computing a needed variable *)
Inductive needs (l : list con) (c : con) : Z -> Prop :=
| needs_direct i : covers (c_in c) i -> needs l c i
| needs_trans i j d : needs l c j -> In d l -> covers (c_out d) j -> covers (c_in d) i -> needs l c i.
(** the same with velocity variables *)
Inductive needsv (l : list con) (c : con) : Z -> Prop :=
| needsv_direct i : covers (c_inv c) i -> needsv l c i
| needsv_trans i j d : needsv l c j -> In d l -> covers (c_outv d) j -> covers (c_inv d) i -> needsv l c i.

Definition meet (a b : list (Z * Z)) : Prop := exists i, covers a i /\ covers b i.

(** What the constructor of an explicit constraint must have been given: contiguous
    outputs, all intervals inside the configuration/velocity, inputs listed in
    increasing order. *)
Definition inside_ (n : Z) (l : list (Z * Z)) : Prop :=
  forall s, In s l -> 0 <= fst s /\ 0 <= snd s /\ fst s + snd s <= n.
Definition wf_con (n m : Z) (c : con) : Prop :=
  (exists o, c_out c = [o]) /\ (exists o, c_outv c = [o]) /\
  inside_ n (c_in c) /\ inside_ n (c_out c) /\ inside_ m (c_inv c) /\ inside_ m (c_outv c) /\
  lex_sorted (c_in c) /\ lex_sorted (c_inv c).

(** Configuration and velocity intervals describe the same joints: a constraint
    reads the velocity of another's output iff it reads its configuration, and
    outputs overlapping in velocity overlap in configuration. *)
Definition consistent (c d : con) : Prop :=
  (meet (c_inv c) (c_outv d) <-> meet (c_in c) (c_out d)) /\
  (meet (c_outv c) (c_outv d) -> meet (c_out c) (c_out d)).
(** A family of well formed, mutually consistent constraints. *)
Definition family (n m : Z) (P : con -> Prop) : Prop :=
  0 <= n /\ 0 <= m /\ (forall c, P c -> wf_con n m c) /\ (forall c d, P c -> P d -> consistent c d).

Definition accepts (c : con) : Prop :=
  forall t, In t (c_cmp c) -> t = Equality \/ t = EqualToZero.

(** the condition under which c can join the constraints of l *)
Definition acceptable (l : list con) (c : con) : Prop :=
  accepts c /\ (forall i, covers (c_out c) i -> ~ output l i) /\
  (forall i, covers (c_out c) i -> ~ needs l c i).

(** States reached by successful additions of members of the family; refused
    additions leave the state as it is. *)
Inductive reach (iadd : Z -> Z -> Z) (P : con -> Prop) (n m : Z) : ecs V Rh -> Prop :=
| reach_init : reach iadd P n m (init n m)
| reach_add st c fuel st' r : reach iadd P n m st -> P c ->
    add iadd fuel st c = (st', r) -> reach iadd P n m st'.
End Spec.

Section SolveSpec.
Context {V Rh : Type}.
Notation con := (con V Rh).
(** configuration q satisfies the explicit constraint c with right hand side r *)
Definition satisfies (q : Z -> V) (c : con) (r : Rh) : Prop :=
  map q (indices (c_out c)) = c_val c r (map q (indices (c_in c))).
Definition satisfies_all (q : Z -> V) (l : list (con * Rh)) : Prop :=
  forall c r, In (c, r) l -> satisfies q c r.
(** the value of the output has the size of the output *)
Definition sized (c : con) : Prop :=
  forall r x, length x = length (indices (c_in c)) -> length (c_val c r x) = length (indices (c_out c)).
(** q' is a configuration solving the constraints of l and agreeing with q on the
    variables that are not outputs *)
Definition solution (l : list (con * Rh)) (q q' : Z -> V) : Prop :=
  satisfies_all q' l /\ forall i, ~ output (map fst l) i -> q' i = q i.
End SolveSpec.
