(** Model of BySubstitution::isConstraintSatisfied.

    Source: /repo/src/solver/by-substitution.cc lines 373-382,
            /repo/src/solver/hierarchical-iterative.cc lines 529-562,
            /repo/src/explicit-constraint-set.cc lines 98-119. *)
From Coq Require Import ZArith List Bool Floats.SpecFloat.
From Verif Require Import EcsModel EcsRhsModel NanModel ImplModel HierModel BySubModel.
Import ListNotations.

Section OneCon.
Context {F V : Type}.
Variable feq : F -> F -> bool.
Variable zero : V.
Variable sqn : list V -> spec_float.

(** explicit-constraint-set.cc:104-105: same function or equal function *)
Definition same_function (s : bs F V) (c : bc F V) (i : nat) : bool :=
  match nth_error (bs_ex s) i with Some d => feq (bc_f d) (bc_f c) | None => false end.

(** by-substitution.cc:373-382: (result, constraintFound, error).  The vector error has the
    size asserted at hierarchical-iterative.cc:533, that of the function given, and that
    asserted at explicit-constraint-set.cc:108, that of the function found; it is left as
    it is when the constraint is not found.  [sqthr]: squaredErrorThreshold_, [d]:
    threshold of the explicit set.  None = failed assertion. *)
Definition bcon_sat (s : bs F V) (c : bc F V) (sqthr d : spec_float) (q : Z -> V) (error : list V) : option (bool * bool * list V) :=
  if Nat.eqb (length error) (s_nv (ic_s (bc_c c))) then
  match hcon_sat feq zero sqn (bs_h s) (bc_c c) sqthr q with
  | None => None
  | Some (b, true, e) => Some (b, true, e)
  | Some (_, false, _) =>
      match con_satisfied sqn (same_function s c) (bs_imps s) (rhsl (bs_e s)) q d with
      | (b, found, Some e) => if Nat.eqb (length e) (length error) then Some (b, found, e) else None
      | (b, found, None) => Some (b, found, error)
      end
  end
  else None.
End OneCon.
