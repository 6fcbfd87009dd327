(** Specification vocabulary for index intervals, independent of SegModel's
    functions: membership, enumeration, sortedness. *)
From Coq Require Import ZArith List.
Import ListNotations.
Open Scope Z_scope.

(** index i belongs to interval s = (first, length) *)
Definition in_seg (s : Z * Z) (i : Z) : Prop := fst s <= i < fst s + snd s.
(** index i belongs to some interval of the list *)
Definition covers (l : list (Z * Z)) (i : Z) : Prop := exists s, In s l /\ in_seg s i.
(** lengths are non-negative / positive *)
Definition nonneg (l : list (Z * Z)) : Prop := forall s, In s l -> 0 <= snd s.
Definition positive (l : list (Z * Z)) : Prop := forall s, In s l -> 0 < snd s.

(** consecutive integers from a *)
Fixpoint zseq (a : Z) (n : nat) : list Z :=
  match n with O => [] | S m => a :: zseq (a + 1) m end.
(** the indices of an interval list, in order *)
Definition seg_indices (s : Z * Z) : list Z := zseq (fst s) (Z.to_nat (snd s)).
Definition indices (l : list (Z * Z)) : list Z := flat_map seg_indices l.

(** s strictly before t with at least one index missing in between *)
Definition separated (s t : Z * Z) : Prop := fst s + snd s < fst t.
(** s ends before or where t starts *)
Definition before (s t : Z * Z) : Prop := fst s + snd s <= fst t.
Fixpoint chain (R : Z * Z -> Z * Z -> Prop) (l : list (Z * Z)) : Prop :=
  match l with
  | [] => True
  | s :: t => (forall u, In u t -> R s u) /\ chain R t
  end.
(** sorted separated intervals: the canonical form of a set of indices when
    lengths are positive *)
Definition sorted_separated (l : list (Z * Z)) : Prop := chain separated l.
Definition sorted_disjoint (l : list (Z * Z)) : Prop := chain before l.
(** sorted for the lexicographic order *)
Definition lex_le (s t : Z * Z) : Prop := fst s < fst t \/ (fst s = fst t /\ snd s <= snd t).
Definition lex_sorted (l : list (Z * Z)) : Prop := chain lex_le l.
