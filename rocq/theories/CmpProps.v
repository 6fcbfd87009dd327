(** Property C91: expressions that build vectors of comparison types. *)
From Coq Require Import ZArith List.
From Verif Require Import EcsModel CmpModel CmpSpec CmpProofs.
Import ListNotations.
Local Open Scope Z_scope.

(** the operands one after the other; only a variable on the left is modified *)
Theorem C91_value : forall s h is, head_ok h is -> Forall count_ok is -> Z.of_nat (length (head_list s h ++ denoted is)) <= max_size ->
  exists s' r, eval s h is = Some (s', r) /\ content s' r = head_list s h ++ denoted is /\
  (forall x, h <> Var x -> s' x = s x) /\ (forall x, h = Var x -> r = Ref x /\ s' x = s x ++ denoted is).
Proof. exact eval_spec. Qed.
Print Assumptions C91_value.

(** a negative number of repetitions always throws *)
Theorem C91_negative : forall s h is i, (h = Item i \/ In i is) -> negative i -> eval s h is = None.
Proof. exact eval_negative. Qed.
Print Assumptions C91_negative.

Theorem C91_equal : forall v n c, 0 <= n < 2 ^ 31 -> (eq_rep v (replicate n c) = true <-> v = repeat c (Z.to_nat n)).
Proof. exact eq_rep_spec. Qed.
Print Assumptions C91_equal.

(** w = v << Superior changes v; it does not when v is const *)
Theorem C91_variable_kept_refuted : exists s s' r, eval s (Var 0) [One Superior] = Some (s', r) /\ s 0%nat = [Equality] /\ content s' r = [Equality; Superior] /\ s' 0%nat = [Equality; Superior] /\
  eval s (Const [Equality]) [One Superior] = Some (s, Temp [Equality; Superior]).
Proof. exact variable_changes. Qed.
Print Assumptions C91_variable_kept_refuted.

(** src/explicit/convex-shape-contact.cc:189 and 210 *)
Example C91_case : forall s,
  eval s (Item (Many 5 EqualToZero)) [Many 3 Equality] =
    Some (s, Temp [EqualToZero; EqualToZero; EqualToZero; EqualToZero; EqualToZero; Equality; Equality; Equality]) /\
  eval s (Item (One EqualToZero)) [Many 3 Equality; Many 2 EqualToZero] =
    Some (s, Temp [EqualToZero; Equality; Equality; Equality; EqualToZero; EqualToZero]) /\
  head_ok (Item (One EqualToZero)) [Many 3 Equality; Many 2 EqualToZero] /\ Forall count_ok [Many 3 Equality; Many 2 EqualToZero] /\
  eval s (Item (Many (-1) Equality)) [] = None /\ eq_rep [Equality; Equality] (replicate 2 Equality) = true.
Proof. intros s. split; [reflexivity|]. split; [reflexivity|]. split; [discriminate|]. split; [repeat constructor; discriminate|]. split; reflexivity. Qed.
