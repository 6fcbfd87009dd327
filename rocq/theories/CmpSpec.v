(** What an expression of comparison types denotes. *)
From Coq Require Import ZArith List.
From Verif Require Import EcsModel CmpModel.
Import ListNotations.

Definition item_list (i : item) : list cmp := match i with One c => [c] | Many n c => repeat c (Z.to_nat n) end.
Definition denoted (is : list item) : list cmp := flat_map item_list is.
Definition head_list (s : store) (h : head) : list cmp := match h with Item i => item_list i | Var x => s x | Const v => v end.
(** repetitions: an int, not negative *)
Definition count_ok (i : item) : Prop := match i with One _ => True | Many n _ => (0 <= n < 2 ^ 31)%Z end.
Definition negative (i : item) : Prop := match i with One _ => False | Many n _ => (- 2 ^ 31 <= n < 0)%Z end.
Definition head_ok (h : head) (is : list item) : Prop :=
  match h with Item (One _) => is <> [] | Item (Many n c) => count_ok (Many n c) | _ => True end.
