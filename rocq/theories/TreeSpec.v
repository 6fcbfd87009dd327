(** Ancestors in a kinematic tree. *)
From Coq Require Import ZArith List.
Import ListNotations.

(** [a] is joint [i] or one of its ancestors *)
Inductive anc (par : nat -> nat) : nat -> nat -> Prop :=
| anc_self i : anc par i i
| anc_up i a : (0 < i)%nat -> anc par (par i) a -> anc par i a.
(** joint indices: each joint comes after its parent *)
Definition tree (par : nat -> nat) : Prop := forall i, (0 < i)%nat -> (par i < i)%nat.
(** no variable belongs to two joints *)
Definition disjoint (seg : nat -> Z * Z) : Prop :=
  forall i j v, (fst (seg i) <= v < fst (seg i) + snd (seg i))%Z -> (fst (seg j) <= v < fst (seg j) + snd (seg j))%Z -> i = j.
Definition of_joint (seg : nat -> Z * Z) (a : nat) (v : Z) : Prop := (fst (seg a) <= v < fst (seg a) + snd (seg a))%Z.
(** v is a variable of a joint on the path between joints i and j: an ancestor of exactly
    one of them *)
Definition on_path (par : nat -> nat) (seg : nat -> Z * Z) (i j : nat) (v : Z) : Prop :=
  exists a, (0 < a)%nat /\ of_joint seg a v /\ (anc par i a /\ ~ anc par j a \/ ~ anc par i a /\ anc par j a).
