(** Specification vocabulary for the stacked accessors. *)
From Coq Require Import ZArith List Floats.SpecFloat.
From Verif Require Import EcsModel EcsRhsModel NanModel ImplModel HierModel HierSpec BySubModel BySubSpec.
Import ListNotations.

Section Spec.
Context {F V : Type}.
Variable feq : F -> F -> bool.
Variable zero : V.
Variables (add sub : V -> V -> V) (neg : V -> V) (ltb : V -> V -> bool).
(** e is the error of the numerical constraint c, with the right hand side the solver
    returns for it *)
Definition own_error (thr : V) (q : Z -> V) (s : hs F V) (c : ic F V) (e : list V) : Prop :=
  exists r, get_rhs_of feq s (ic_f c) (s_nq (ic_s c)) = Some (Some r) /\
    e = con_error zero add sub neg ltb thr c q r.
(** e is the error of one of the explicit constraints l, with its right hand side *)
Definition explicit_error (q : Z -> V) (s : bs F V) (l : list (bc F V)) (c : bc F V) (e : list V) : Prop :=
  exists i r, nth_error l i = Some c /\ nth_error (rhsl (bs_e s)) i = Some r /\
    e = s_minus (ic_s (bc_c c)) (s_fun (ic_s (bc_c c)) q) r.
(** number of rows of the errors of explicit constraints *)
Definition error_rows (l : list (bc F V)) : nat := list_sum (map (fun c => s_nv (ic_s (bc_c c))) l).
End Spec.
(** the comparison x < t, NaN being accepted *)
Definition below (x t : spec_float) : Prop := isnan x = true \/ flt x t = true.
Definition zsum (l : list Z) : Z := fold_right Z.add 0%Z l.
