(** What it means for the center of mass to be between the feet. *)
From Coq Require Import Reals List Bool.
From Verif Require Import Geo SymModel SymSpec SymCases.
Import ListNotations.
Local Open Scope R_scope.

(** a point attached to a joint, in the world *)
Definition at_joint (q : robot) (j : nat) (p : v3) : v3 := vadd (mulv (jR q j) p) (jp q j).
(** last axis of a joint *)
Definition axis (q : robot) (j : nat) : v3 := mulv (jR q j) (V3 0 0 1).
(** [c] is on a line of direction [z] through the segment from [l] to [r] *)
Definition on_strip (z l r c : v3) : Prop :=
  exists s h, 0 <= s <= 1 /\ c = vadd (vadd l (vscale s (vsub r l))) (vscale h z).

(** the four rows: height, then position with respect to the feet *)
Definition feet_rows (jl jr jref : nat) (pl pr pref : v3) (q : robot) : list R :=
  let l := at_joint q jl pl in let r := at_joint q jr pr in
  [vz (com q) - vz pref; vdot (axis q jref) (vcross (vsub (com q) (vscale (1/2) (vadd r l))) (vsub r l));
   vdot (vsub (com q) l) (vsub r l); vdot (vsub (com q) r) (vsub r l)].
(** elements of a list where the mask is true *)
Definition kept {A} (mask : list bool) (l : list A) : list A := map snd (filter (fun p => fst p) (combine mask l)).
(** state of the expressions of a function after construction and any use *)
Definition called (jl jr jref : nat) (pl pr : v3) (s : robot * store) : Prop :=
  exists before q0 g, Forall (uses (cbf_roots jl jr jref pl pr)) before /\ s = run before (q0, constructed (cbf_roots jl jr jref pl pr) g).
