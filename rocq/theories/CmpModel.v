(** Model of the expressions that build vectors of comparison types.

    Source: /repo/include/hpp/constraints/comparison-types.hh lines 42-131 and 150-156.

    An expression a << b << ... << z is a first operand followed by comparison types or
    repetitions.  The overload taken depends on the value category of the left operand:
    a variable that is not const is modified and returned (lines 87-97), any other vector
    is copied (lines 99-116).  The variables of type ComparisonTypes_t are those of the
    store.  None = exception: a repetition is built from an int cast to size_t, a negative
    number asks for more elements than a vector may have. *)
From Coq Require Import ZArith List Bool.
From Verif Require Import EcsModel.
Import ListNotations.

Section Cmp.
(** lines 42-52, ReplicateCompType *)
Record rep := mkrep { r_type : cmp; r_n : Z }.
(** lines 55-61, operator*(int, ComparisonType); sizes are 64 bits *)
Definition replicate (n : Z) (c : cmp) : rep := mkrep c (n mod 2 ^ 64).
(** largest size of a vector of 4 byte elements *)
Definition max_size : Z := 2 ^ 61 - 1.

(** operands on the right of << *)
Inductive item := One (c : cmp) | Many (n : Z) (c : cmp).
(** the first operand: item, variable, const variable or temporary vector *)
Inductive head := Item (i : item) | Var (x : nat) | Const (v : list cmp).

(** loop on push_back, lines 46-48, 95, 114: the vector grows until it is too long *)
Definition push_many (v : list cmp) (n : Z) (c : cmp) : option (list cmp) :=
  let r := replicate n c in
  if (Z.of_nat (length v) + r_n r <=? max_size)%Z then Some (v ++ repeat (r_type r) (Z.to_nat (r_n r))) else None.
Definition push (v : list cmp) (i : item) : option (list cmp) :=
  match i with One c => Some (v ++ [c]) | Many n c => push_many v n c end.

Definition store := nat -> list cmp.
Definition upd (s : store) (x : nat) (v : list cmp) : store := fun y => if Nat.eqb y x then v else s y.
(** value of an expression: a temporary, or a reference to a variable *)
Inductive vec := Temp (v : list cmp) | Ref (x : nat).
Definition content (s : store) (r : vec) : list cmp := match r with Temp v => v | Ref x => s x end.

(** one application of << to a vector on the left *)
Definition shift (s : store) (l : vec) (i : item) : option (store * vec) :=
  match push (content s l) i with
  | None => None
  | Some v => match l with Ref x => Some (upd s x v, Ref x) | Temp _ => Some (s, Temp v) end
  end.
(** lines 63-85 and 150-156: two operands none of which is a vector *)
Definition first_shift (a b : item) : option (list cmp) :=
  match push [] a with Some v => push v b | None => None end.

Fixpoint shifts (s : store) (l : vec) (is : list item) : option (store * vec) :=
  match is with
  | [] => Some (s, l)
  | i :: t => match shift s l i with Some (s', l') => shifts s' l' t | None => None end
  end.
(** the whole expression; a first operand alone is cast to a vector (line 51), which for a
    comparison type is not possible: None *)
Definition eval (s : store) (h : head) (is : list item) : option (store * vec) :=
  match h with
  | Var x => shifts s (Ref x) is
  | Const v => shifts s (Temp v) is
  | Item a =>
      match is with
      | [] => match a with One _ => None | Many n c => match push_many [] n c with Some v => Some (s, Temp v) | None => None end end
      | b :: t => match first_shift a b with Some v => shifts s (Temp v) t | None => None end
      end
  end.

(** lines 118-125, operator== *)
Definition eq_rep (v : list cmp) (r : rep) : bool :=
  if negb (Z.of_nat (length v) =? r_n r)%Z then false else forallb (fun c => cmp_eqb c (r_type r)) v.
End Cmp.
