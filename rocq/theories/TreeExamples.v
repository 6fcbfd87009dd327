(** A robot with a free-flyer root (joint 1), two arms of two joints (2-4 and 3-5) and an
    object (joint 6) attached to the universe. *)
From Coq Require Import ZArith List Bool Arith Lia ZifyBool.
From Verif Require Import SegModel SegSpec TreeModel TreeSpec.
Import ListNotations.
Open Scope Z_scope.

Definition tpar (i : nat) : nat := nth i [0; 0; 1; 1; 2; 3; 0]%nat 0%nat.
Definition tseg (i : nat) : Z * Z := nth i [(0, 0); (0, 7); (7, 1); (9, 1); (8, 1); (10, 1); (11, 7)] (0, 0).
Lemma tpar_tree : tree tpar.
Proof. intros i H. unfold tpar. do 7 (destruct i as [|i]; [cbn; lia|]). cbn. destruct i; cbn; lia. Qed.
Lemma tseg_disjoint : disjoint tseg.
Proof.
  intros i j v. unfold tseg. do 7 (destruct i as [|i]; [do 7 (destruct j as [|j]; [cbn; lia|]); cbn; destruct j; cbn; lia|]).
  cbn. destruct i; cbn; lia.
Qed.
Definition flags (o : option (Z -> bool)) : list (Z * Z) := match o with Some f => to_intervals 18 f | None => [] end.
(** joint transforms: translations along a line *)
Definition tjm (i : nat) (q : Z -> Z) : Z := fold_right Z.add 0 (map q (indices [tseg i])).
Fixpoint tpose (n i : nat) (q : Z -> Z) : Z :=
  match n with O => 0 | S n => if Nat.eqb i 0 then 0 else tpose n (tpar i) q + tjm i q end.
