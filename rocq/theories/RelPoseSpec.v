(** What it means to constrain the relative pose of two joints. *)
From Coq Require Import ZArith Reals List Bool String Arith.
From Verif Require Import Geo GeoLemmas Rigid GTModel GTSpec SegModel EcsModel RelPoseModel.
Import ListNotations.
Local Open Scope nat_scope.

(** pose of a joint seen from another one *)
Definition seen (p : option nat * option nat) (k : kins) : se3 := comp (sinv (joint_place (fst p) k)) (joint_place (snd p) k).
(** placements are rotations and translations, the universe does not move *)
Definition proper (k : kins) : Prop := place k 0 = sid /\ forall i, rotation (rot (place k i)).
(** [p] is made of [a] and [b], the smallest index first *)
Definition pair_of (p : option nat * option nat) (a b : option nat) : Prop :=
  (p = (a, b) \/ p = (b, a)) /\
  match fst p, snd p with Some i, Some j => i <= j | Some i, None => i = O | None, _ => True end.
(** forward kinematics: each joint is placed on its parent by a transformation that only depends
    on its own configuration variables *)
Definition vars (q : Z -> R) (r n : Z) : list R := map (fun i => q (r + Z.of_nat i)%Z) (seq 0 (Z.to_nat n)).
Definition own (q : Z -> R) (j : joint) : list R := vars q (j_rank j) (j_size j).
Definition moved (rb : robot) (mot : nat -> list R -> se3) (q : Z -> R) (k : kins) : Prop :=
  forall i j, nth_error rb i = Some j -> place k (S i) = comp (joint_place (j_parent j) k) (mot (S i) (own q j)).
(** joints are numbered after their parents, follow each other in the configuration, have
    distinct names *)
Fixpoint follow (r : Z) (l : list joint) : Prop :=
  match l with [] => True | j :: t => j_rank j = r /\ (0 < j_size j)%Z /\ follow (r + j_size j) t end.
Definition good_robot (rb : robot) : Prop :=
  (forall i j, nth_error rb i = Some j -> jindex (j_parent j) <= i) /\ follow 0 rb /\ NoDup (map j_name rb).
(** the active rows of two values are the same; values with an orientation in SO(3) are compared
    as a whole *)
Definition same_rows {A} (o : opts) (mask : list bool) (v w : list A) : Prop :=
  if so3 o then v = w else select mask v = select mask w.
(** satisfaction of a row with value [x] and right hand side [r] *)
Definition row_holds (t : cmp) (r x : R) : Prop :=
  match t with Equality => x = r | EqualToZero => x = 0%R | Superior => (0 <= x)%R | Inferior => (x <= 0)%R end.
