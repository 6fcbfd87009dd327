(** What saving and loading must do. *)
From Coq Require Import Reals List Bool Arith ZArith.
From Verif Require Import GTModel GTSpec SerModel.
Import ListNotations.

(** an object [x] that is saved and loaded comes back as [y]; what follows it in the archive is
    still there *)
Definition comes_back {A} (w : A -> list tok) (r : reader A) (x y : A) : Prop :=
  forall rest, r (w x ++ rest) = Some (y, rest).
(** DifferentiableFunction: the vectors of active parameters have the sizes of the input *)
Definition sizes_ok (d : dfun) : Prop := length (d_act d) = d_in d /\ length (d_actv d) = d_inv d.
(** transformation functions: number of rows of the value *)
Definition out_size (o : opts) (mask : list bool) : nat := (count mask + if so3 o then 1 else 0)%nat.
