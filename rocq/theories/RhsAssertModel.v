(** Model of the assertions on the values of right hand sides given to a set of explicit
    constraints.

    Source: /repo/src/explicit-constraint-set.cc lines 352-371 and 400-414.

    EcsRhsModel.v models the same functions without these assertions.  None = failed
    assertion or sizes that do not match. *)
From Coq Require Import ZArith List Bool.
From Verif Require Import EcsModel EcsRhsModel.
Import ListNotations.

Section Assert.
Context {V : Type}.
Variable zero : V.
(** [is0 x]: x == 0; [small x]: x * x < errorThreshold_ * errorThreshold_ *)
Variables is0 small : V -> bool.

(** ct[i] == Equality || ok (v[i]) for each row *)
Definition rows_ok (ok : V -> bool) (ct : list cmp) (v : list V) : bool :=
  forallb (fun p => match fst p with Equality => true | _ => ok (snd p) end) (combine ct v).
(** lines 400-414: the assertion reads the logarithm of the vector given *)
Definition set_rhs_chk (cs : list (imp V)) (rl : list (list V)) (i : nat) (x : list V) : option (list (list V)) :=
  match nth_error cs i, set_rhs zero cs rl i x with
  | Some c, Some r => if rows_ok small (s_cmp c) (s_log c x) then Some r else None
  | _, _ => None
  end.
(** lines 352-371: the assertion reads the vector of which only the equality rows were
    written *)
Fixpoint set_all_chk (cs : list (imp V)) (v : list V) : option (list (list V)) :=
  match cs with
  | [] => match v with [] => Some [] | _ => None end
  | c :: t =>
      if Nat.leb (s_nq c) (length v)
      then match mask zero c (s_log c (firstn (s_nq c) v)) with
           | Some w => if rows_ok is0 (s_cmp c) w
                       then match set_all_chk t (skipn (s_nq c) v) with Some r => Some (s_exp c w :: r) | None => None end
                       else None
           | None => None
           end
      else None
  end.
End Assert.
