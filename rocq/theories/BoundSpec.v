(** Rows of two vectors. *)
From Coq Require Import Reals List.
Local Open Scope R_scope.

Definition row (u v : list R) (i : nat) (a b : R) : Prop := nth_error u i = Some a /\ nth_error v i = Some b.
