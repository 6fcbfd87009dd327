(** Model of the right hand sides of an ExplicitConstraintSet and of its
    satisfaction test.

    Source: /repo/src/explicit-constraint-set.cc lines 67-110 (isSatisfied),
    128-142 (Data), 316-440 (right hand sides).

    The Lie group output space of the implicit formulation of a constraint is given
    by its sizes, exponential, logarithm and difference on coordinate vectors
    (lists of scalars); these are parameters, their laws are hypotheses of the
    theorems.  Debug assertions on sizes are modelled by None. *)
From Coq Require Import ZArith List Bool Floats.SpecFloat.
From Verif Require Import SegModel ViewModel EcsModel NanModel.
Import ListNotations.
Open Scope Z_scope.

Section Rhs.
Context {V : Type}.
Variable zero : V.

(** What the set reads of the implicit formulation of one constraint:
    outputSpace() (nq, nv, neutral, exp, log, difference), function().value and
    comparisonType(). *)
Record imp := mkimp {
  s_nq : nat; s_nv : nat; s_neutral : list V;
  s_log : list V -> list V; s_exp : list V -> list V;
  s_minus : list V -> list V -> list V;
  s_fun : (Z -> V) -> list V;
  s_cmp : list cmp }.

(** lines 136-141: equalityIndices = rows with comparison type Equality, then
    updateRows<true, true, true>. *)
Fixpoint eq_rows (i : Z) (l : list cmp) : list (Z * Z) :=
  match l with
  | [] => []
  | Equality :: t => (i, 1) :: eq_rows (i + 1) t
  | _ :: t => eq_rows (i + 1) t
  end.
Definition eq_idx (c : imp) : list (Z * Z) := normalise (eq_rows 0 (s_cmp c)).

Definition to_fun (l : list V) : Z -> V := fun i => if i <? 0 then zero else nth (Z.to_nat i) l zero.
Definition to_list (n : nat) (f : Z -> V) : list V := map (fun k => f (Z.of_nat k)) (seq 0 n).

(** lines 348-350, 365-366, 405-407: zero vector of size nv, equality rows copied *)
Definition mask (c : imp) (v : list V) : option (list V) :=
  match vwrite (fun _ => zero) (eq_idx c) (vread (to_fun v) (eq_idx c)) with
  | Some w => Some (to_list (s_nv c) w)
  | None => None
  end.
(** projection: exp (mask (log x)) *)
Definition project (c : imp) (x : list V) : option (list V) :=
  if Nat.eqb (length x) (s_nq c)
  then match mask c (s_log c x) with Some v => Some (s_exp c v) | None => None end
  else None.

Fixpoint set_nth {A} (l : list A) (i : nat) (x : A) : list A :=
  match l, i with
  | [], _ => []
  | _ :: t, O => x :: t
  | y :: t, S k => y :: set_nth t k x
  end.

(** lines 400-414: rightHandSide(i, rhs). *)
Definition set_rhs (cs : list imp) (rl : list (list V)) (i : nat) (x : list V) : option (list (list V)) :=
  match nth_error cs i with
  | None => None
  | Some c => match project c x with Some y => Some (set_nth rl i y) | None => None end
  end.
(** lines 373-384 and 386-398: the constraint is the first one satisfying [same]
    (same pointer, equal constraints or equal functions). *)
Fixpoint find_idx (same : nat -> bool) (n i : nat) : option nat :=
  match n with
  | O => None
  | S m => if same i then Some i else find_idx same m (S i)
  end.
Definition set_rhs_con (same : nat -> bool) (cs : list imp) (rl : list (list V)) (x : list V) : option (list (list V) * bool) :=
  match find_idx same (length cs) 0 with
  | None => Some (rl, false)
  | Some i => match set_rhs cs rl i x with Some r => Some (r, true) | None => None end
  end.
Definition get_rhs_con (same : nat -> bool) (cs : list imp) (rl : list (list V)) : option (list V) :=
  match find_idx same (length cs) 0 with
  | None => None
  | Some i => nth_error rl i
  end.

(** lines 352-371: rightHandSide(rhs) for all constraints; the vector must have
    exactly the sum of the sizes. *)
Fixpoint set_all (cs : list imp) (v : list V) : option (list (list V)) :=
  match cs with
  | [] => match v with [] => Some [] | _ => None end
  | c :: t =>
      if Nat.leb (s_nq c) (length v)
      then match project c (firstn (s_nq c) v), set_all t (skipn (s_nq c) v) with
           | Some x, Some r => Some (x :: r)
           | _, _ => None
           end
      else None
  end.
(** lines 416-429: rightHandSide(). *)
Definition get_all (rl : list (list V)) : list V := concat rl.
(** lines 431-436 *)
Definition rhs_size (cs : list imp) : nat := fold_right (fun c n => (s_nq c + n)%nat) O cs.

(** lines 337-351: rightHandSideFromInput(i, arg); 316-322: for all. *)
Definition from_input (cs : list imp) (rl : list (list V)) (i : nat) (arg : Z -> V) : option (list (list V)) :=
  match nth_error cs i with
  | None => None
  | Some c => match project c (s_fun c arg) with Some y => Some (set_nth rl i y) | None => None end
  end.
Fixpoint from_input_loop (cs : list imp) (arg : Z -> V) (l : list nat) (rl : list (list V)) : option (list (list V)) :=
  match l with
  | [] => Some rl
  | i :: t => match from_input cs rl i arg with Some r => from_input_loop cs arg t r | None => None end
  end.
Definition from_input_all (cs : list imp) (rl : list (list V)) (arg : Z -> V) : option (list (list V)) :=
  from_input_loop cs arg (seq 0 (length cs)) rl.

(** Initial right hand sides (line 130). *)
Definition neutral_all (cs : list imp) : list (list V) := map s_neutral cs.

Section Sat.
(** squared norm of an error segment, as computed in floating point *)
Variable sqn : list V -> spec_float.
(** line 70: the value -1 stands for the threshold of the set *)
Definition minus_one : spec_float := binary_normalize 53 1024 (-1) 0 true.
Definition eff_thr (default thr : spec_float) : spec_float := if SFeqb thr minus_one then default else thr.
(** lines 67-88, isSatisfied(arg, error, threshold). *)
Fixpoint errors (cs : list imp) (rl : list (list V)) (arg : Z -> V) : list (list V) :=
  match cs, rl with
  | c :: t, r :: u => s_minus c (s_fun c arg) r :: errors t u arg
  | _, _ => []
  end.
Definition is_satisfied (cs : list imp) (rl : list (list V)) (arg : Z -> V) (default thr : spec_float) : bool * list V :=
  let t := eff_thr default thr in let es := errors cs rl arg in
  (flt (fold_left (fun s e => fmax s (sqn e)) es fzero) (fmul t t), concat es).
(** lines 98-119, isConstraintSatisfied: (result, found, error) *)
Definition con_satisfied (same : nat -> bool) (cs : list imp) (rl : list (list V)) (arg : Z -> V) (thr : spec_float)
  : bool * bool * option (list V) :=
  match find_idx same (length cs) 0 with
  | None => (false, false, None)
  | Some i =>
      match nth_error cs i, nth_error rl i with
      | Some c, Some r => let e := s_minus c (s_fun c arg) r in (flt (sqn e) (fmul thr thr), true, Some e)
      | _, _ => (false, false, None)
      end
  end.
End Sat.
End Rhs.
Arguments imp : clear implicits.
