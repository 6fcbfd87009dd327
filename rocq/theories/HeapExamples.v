From Coq Require Import List Bool Arith.
From Verif Require Import HeapModel HeapSpec.
Import ListNotations.

(** functions, comparison types, right hand side functions and intervals are numbers *)
Definition hx_ext (r i : nat) : nat := 10 * r + i.
Notation hrun := (@run nat nat nat nat Nat.eqb hx_ext start).
Definition hx_c1 : cell nat nat nat := mkcell 1 2 2 0 (Some 5).
Definition hx_c2 : cell nat nat nat := mkcell 2 4 3 0 None.
Definition hx_c3 : cell nat nat nat := mkcell 3 1 1 0 (Some 6).
(** a solver with constraints at two levels and an explicit constraint, its copy *)
Definition hx_p0 : list (op nat nat nat nat) :=
  [NewConstraint hx_c1; NewConstraint hx_c2; NewConstraint hx_c3; NewSolver; Add 0 0 0; AddExplicit 0 2; Copy 0].
(** the original gets a constraint, then the copy *)
Definition hx_p1 : list (op nat nat nat nat) := hx_p0 ++ [Add 0 1 0].
Definition hx_p2 : list (op nat nat nat nat) := hx_p1 ++ [NewConstraint (mkcell 4 1 1 0 None); Add 1 5 0].
Definition get (p : list (op nat nat nat nat)) : state nat nat nat := match hrun p with Some st => st | None => start end.
Definition hx_s (p : list (op nat nat nat nat)) (i : nat) : slv nat := nth i (snd (get p)) (mkslv [] [] [] []).
Definition hx_p3 : list (op nat nat nat nat) :=
  [NewConstraint hx_c1; NewConstraint hx_c2; NewConstraint hx_c3; NewSolver; Add 0 0 0; Add 0 1 1; AddExplicit 0 2].
