(** Model of class hpp::constraints::solver::HierarchicalIterative: storage of
    constraints by priority, right hand sides, error and satisfaction.

    Source: /repo/src/solver/hierarchical-iterative.cc,
            /repo/include/hpp/constraints/solver/hierarchical-iterative.hh.

    Functions are identified by a type F with the boolean [feq] of
    DifferentiableFunction::operator==.  The std::map members iq_, iv_, priority_
    are association lists in insertion order: they are only accessed by find_if with
    [feq] and by insertion of a new function (the order of a std::map of pointers is
    unspecified; it matters only if several keys match).
    The output space of a level is the product of the output spaces of its
    constraints: its operations are modelled as the operations of the factors on the
    consecutive pieces of the vectors. *)
From Coq Require Import ZArith List Bool Floats.SpecFloat.
From Verif Require Import SegModel ViewModel EcsModel EcsRhsModel NanModel ImplModel.
Import ListNotations.

Section Hier.
Context {F V : Type}.
Variable feq : F -> F -> bool.
Variable zero : V.

(** A constraint: its members (class Implicit), what is used of its function and
    output space, and the active derivative parameters of its function. *)
Record ic := mkic { ic_i : impl F; ic_s : imp V; ic_adp : list bool }.
Definition ic_f (c : ic) : F := m_fun (ic_i c).

(** One level: stacks_[i] (constraints and set members) and datas_[i] (sizes of the
    output space, comparison, inequalityIndices, equalityIndices, rightHandSide).
    hierarchical-iterative.hh:562-591 (struct Data). *)
Record lvl := mklvl {
  l_cons : list ic;
  l_nq : nat; l_nv : nat;
  l_cmp : list cmp; l_ineq : list nat; l_eq : list (Z * Z);
  l_rhs : list V }.
Definition empty_lvl : lvl := mklvl [] 0 0 [] [] [] [].

Record hs := mkhs {
  lvls : list lvl;
  prio : list (F * nat); iqm : list (F * nat); ivm : list (F * nat);
  hcons : list ic;
  last_optional : bool }.
Definition hs_init : hs := mkhs [] [] [] [] [] false.

Definition find_f {A} (f : F) (m : list (F * A)) : option A :=
  match find (fun p => feq (fst p) f) m with Some p => Some (snd p) | None => None end.

(** hierarchical-iterative.cc:364-407, update: what it does to the members above:
    every right hand side becomes the neutral element of the output space. *)
Definition neutral_rhs (cs : list ic) : list V := concat (map (fun c => s_neutral (ic_s c)) cs).
Definition upd_lvl (l : lvl) : lvl :=
  mklvl (l_cons l) (l_nq l) (l_nv l) (l_cmp l) (l_ineq l) (l_eq l) (neutral_rhs (l_cons l)).
Definition update (s : hs) : hs :=
  mkhs (map upd_lvl (lvls s)) (prio s) (iqm s) (ivm s) (hcons s) (last_optional s).

(** lines 290-298: push the comparison types of the new constraint *)
Fixpoint push_cmp (comp : list cmp) (cmps : list cmp) (ineq : list nat) (eqi : list (Z * Z))
  : list cmp * list nat * list (Z * Z) :=
  match comp with
  | [] => (cmps, ineq, eqi)
  | t :: r =>
      let n := length cmps in
      match t with
      | Superior | Inferior => push_cmp r (cmps ++ [t]) (ineq ++ [n]) eqi
      | Equality => push_cmp r (cmps ++ [t]) ineq (eqi ++ [(Z.of_nat n, 1%Z)])
      | EqualToZero => push_cmp r (cmps ++ [t]) ineq eqi
      end
  end.
Definition push_con (l : lvl) (c : ic) : lvl :=
  let '(cm, iq, eq) := push_cmp (m_cmp (ic_i c)) (l_cmp l) (l_ineq l) (l_eq l) in
  mklvl (l_cons l ++ [c]) (l_nq l + s_nq (ic_s c)) (l_nv l + s_nv (ic_s c)) cm iq (normalise eq) (l_rhs l).

(** lines 276-280: resize of stacks_ and datas_ *)
Definition resize (ls : list lvl) (n : nat) : list lvl := ls ++ repeat empty_lvl (n - length ls).

(** lines 263-303, add: None = std::logic_error *)
Definition hadd (s : hs) (c : ic) (p : nat) : option hs :=
  let f := ic_f c in
  if existsb (fun x => feq (fst x) f) (prio s) then None
  else
    let ls := resize (lvls s) (p + 1) in
    match nth_error ls p with
    | None => None
    | Some l =>
        Some (update (mkhs (set_nth ls p (push_con l c))
               (prio s ++ [(f, p)]) (iqm s ++ [(f, l_nq l)]) (ivm s ++ [(f, l_nv l)])
               (hcons s ++ [c]) (last_optional s)))
    end.

(** lines 255-261, contains *)
Definition contains (s : hs) (c : ic) : bool := existsb (fun d => is_equal feq (ic_i d) (ic_i c)) (hcons s).

(** segment(i, n) of a vector: None = out of bounds *)
Definition segment {A} (v : list A) (i n : nat) : option (list A) :=
  if Nat.leb (i + n) (length v) then Some (firstn n (skipn i v)) else None.
Definition set_segment {A} (v : list A) (i : nat) (x : list A) : option (list A) :=
  if Nat.leb (i + length x) (length v) then Some (firstn i v ++ x ++ skipn (i + length x) v) else None.

Definition upd_rhs (s : hs) (p : nat) (r : list V) : option hs :=
  match nth_error (lvls s) p with
  | None => None
  | Some l => Some (mkhs (set_nth (lvls s) p (mklvl (l_cons l) (l_nq l) (l_nv l) (l_cmp l) (l_ineq l) (l_eq l) r))
                 (prio s) (iqm s) (ivm s) (hcons s) (last_optional s))
  end.

(** lines 471-502, rightHandSide(constraint, rhs): f and nq come from the argument.
    None = undefined; Some (s, false) = constraint unknown. *)
Definition set_rhs_of (s : hs) (f : F) (x : list V) : option (hs * bool) :=
  match find_f f (iqm s), find_f f (prio s) with
  | Some iq, Some p =>
      match nth_error (lvls s) p with
      | None => None
      | Some l => match set_segment (l_rhs l) iq x with
                  | None => None
                  | Some r => match upd_rhs s p r with Some s' => Some (s', true) | None => None end
                  end
      end
  | _, _ => Some (s, false)
  end.
(** lines 504-527, getRightHandSide *)
Definition get_rhs_of (s : hs) (f : F) (nq : nat) : option (option (list V)) :=
  match find_f f (prio s), find_f f (iqm s) with
  | Some p, Some iq =>
      match nth_error (lvls s) p with
      | None => None
      | Some l => match segment (l_rhs l) iq nq with Some x => Some (Some x) | None => None end
      end
  | _, _ => Some None
  end.
(** lines 446-469, rightHandSideFromConfig(constraint, config): the value and the
    equality rows are those of the constraint given as argument. *)
Definition rhs_config_of (s : hs) (c : ic) (q : Z -> V) : option (hs * bool) :=
  match find_f (ic_f c) (iqm s), find_f (ic_f c) (prio s) with
  | Some _, Some _ =>
      match rhs_from_config zero (ic_s c) q with
      | Some x => set_rhs_of s (ic_f c) x
      | None => None
      end
  | _, _ => Some (s, false)
  end.
(** lines 436-444, rightHandSideFromConfig(config): each level through the set's
    Implicit::rightHandSideFromConfig, factor by factor. *)
Fixpoint level_rhs_config (cs : list ic) (q : Z -> V) : option (list V) :=
  match cs with
  | [] => Some []
  | c :: t => match rhs_from_config zero (ic_s c) q, level_rhs_config t q with
              | Some x, Some r => Some (x ++ r)
              | _, _ => None
              end
  end.
Definition lvl_rhs (l : lvl) (r : list V) : lvl :=
  mklvl (l_cons l) (l_nq l) (l_nv l) (l_cmp l) (l_ineq l) (l_eq l) r.
Fixpoint rhs_config_lvls (ls : list lvl) (q : Z -> V) : option (list lvl) :=
  match ls with
  | [] => Some []
  | l :: t => match level_rhs_config (l_cons l) q, rhs_config_lvls t q with
              | Some r, Some t' => Some (lvl_rhs l r :: t')
              | _, _ => None
              end
  end.
Definition rhs_config (s : hs) (q : Z -> V) : option hs :=
  match rhs_config_lvls (lvls s) q with
  | Some ls => Some (mkhs ls (prio s) (iqm s) (ivm s) (hcons s) (last_optional s))
  | None => None
  end.

(** lines 564-587, rightHandSide(vector): the segment of the level's own vector is
    taken at the offset iq of the whole vector (line 574); each factor x becomes
    exp (log x). *)
Fixpoint explog (cs : list ic) (x : list V) : list V :=
  match cs with
  | [] => []
  | c :: t => s_exp (ic_s c) (s_log (ic_s c) (firstn (s_nq (ic_s c)) x)) ++ explog t (skipn (s_nq (ic_s c)) x)
  end.
Fixpoint set_whole (ls : list lvl) (iq : nat) (v : list V) : option (list lvl) :=
  match ls with
  | [] => if Nat.eqb iq (length v) then Some [] else None
  | l :: t =>
      match segment v iq (l_nq l), segment (l_rhs l) iq (l_nq l) with
      | Some x, Some _ =>
          match set_segment (l_rhs l) iq (explog (l_cons l) x), set_whole t (iq + l_nq l) v with
          | Some r, Some t' => Some (lvl_rhs l r :: t')
          | _, _ => None
          end
      | _, _ => None
      end
  end.
Definition set_rhs_whole (s : hs) (v : list V) : option hs :=
  match set_whole (lvls s) 0 v with
  | Some ls => Some (mkhs ls (prio s) (iqm s) (ivm s) (hcons s) (last_optional s))
  | None => None
  end.
(** lines 600-614, rightHandSide() *)
Definition get_rhs_whole (s : hs) : list V := concat (map l_rhs (lvls s)).

(** lines 54-81: compare and applyComparison on the error *)
Section Value.
Variables (add sub : V -> V -> V) (neg : V -> V) (ltb : V -> V -> bool).
Definition compare (superior : bool) (val thr : V) : V * bool :=
  if (superior && ltb val thr) || (negb superior && ltb (neg thr) val)
  then ((if superior then sub val thr else add val thr), false)
  else (zero, true).
(** [apply_cmp]: error after the loop, and the rows of the Jacobian set to zero *)
Fixpoint apply_cmp (cmps : list cmp) (ineq : list nat) (thr : V) (e : list V) : option (list V * list nat) :=
  match ineq with
  | [] => Some (e, [])
  | j :: t =>
      match nth_error cmps j, nth_error e j with
      | Some k, Some x =>
          let r := match k with
                   | Superior => Some (compare true x thr)
                   | Inferior => Some (compare false x thr)
                   | _ => None
                   end in
          match r with
          | None => apply_cmp cmps t thr e
          | Some (y, z) =>
              match apply_cmp cmps t thr (set_nth e j y) with
              | Some (e', zs) => Some (e', if z then j :: zs else zs)
              | None => None
              end
          end
      | _, _ => None
      end
  end.
(** jacobian.row(j).setZero() for the rows listed by [apply_cmp] *)
Definition zero_jac (zs : list nat) (J : list (list V)) : list (list V) :=
  map (fun p => if existsb (Nat.eqb (fst p)) zs then repeat zero (length (snd p)) else snd p)
    (combine (seq 0 (length J)) J).
(** lines 623-646, computeValue<false> for one level: difference with the right hand
    side, inactive rows of the set to zero, comparison. *)
Fixpoint level_diff (cs : list ic) (rhs : list V) (q : Z -> V) : list V :=
  match cs with
  | [] => []
  | c :: t => s_minus (ic_s c) (s_fun (ic_s c) q) (firstn (s_nq (ic_s c)) rhs) ++ level_diff t (skipn (s_nq (ic_s c)) rhs) q
  end.
Definition level_error (ineq_thr : V) (l : lvl) (q : Z -> V) : option (list V * list nat) :=
  let mask := concat (map (fun c => m_mask (ic_i c)) (l_cons l)) in
  match zero_rows zero (inactive_rows mask) (level_diff (l_cons l) (l_rhs l) q) with
  | Some e => apply_cmp (l_cmp l) (l_ineq l) ineq_thr e
  | None => None
  end.
Fixpoint errors_of (thr : V) (ls : list lvl) (q : Z -> V) : option (list (list V)) :=
  match ls with
  | [] => Some []
  | l :: t => match level_error thr l q, errors_of thr t q with
              | Some (e, _), Some r => Some (e :: r)
              | _, _ => None
              end
  end.

(** lines 694-710, computeError; squared norms are doubles *)
Variable sqn : list V -> spec_float.
Fixpoint level_max (cs : list ic) (iv : nat) (e : list V) (m : spec_float) : option spec_float :=
  match cs with
  | [] => Some m
  | c :: t => match segment e iv (s_nv (ic_s c)) with
              | Some x => level_max t (iv + s_nv (ic_s c)) e (fmax m (sqn x))
              | None => None
              end
  end.
Fixpoint levels_max (ls : list lvl) (es : list (list V)) (m : spec_float) : option spec_float :=
  match ls, es with
  | l :: t, e :: u => match level_max (l_cons l) 0 e m with Some m' => levels_max t u m' | None => None end
  | _, _ => Some m
  end.
(** end = stacks_.size() - 1 wraps around when there is no level: the loop then
    leaves the vectors (None). *)
Definition compute_error (s : hs) (es : list (list V)) : option spec_float :=
  if last_optional s
  then match lvls s with
       | [] => None
       | _ => levels_max (removelast (lvls s)) (removelast es) fzero
       end
  else levels_max (lvls s) es fzero.
(** hierarchical-iterative.hh:338-342, isSatisfied(arg) *)
Definition hsat (s : hs) (ineq_thr : V) (sqthr : spec_float) (q : Z -> V) : option bool :=
  match errors_of ineq_thr (lvls s) q with
  | Some es => match compute_error s es with Some m => Some (flt m sqthr) | None => None end
  | None => None
  end.
(** lines 529-562, isConstraintSatisfied: (result, found, error) *)
Definition hcon_sat (s : hs) (c : ic) (sqthr : spec_float) (q : Z -> V) : option (bool * bool * list V) :=
  match find_f (ic_f c) (prio s), find_f (ic_f c) (iqm s) with
  | Some p, Some iq =>
      match nth_error (lvls s) p with
      | None => None
      | Some l =>
          match segment (l_rhs l) iq (s_nq (ic_s c)) with
          | None => None
          | Some r =>
              match zero_rows zero (m_inactive (ic_i c)) (s_minus (ic_s c) (s_fun (ic_s c) q) r) with
              | Some e => Some (flt (sqn e) sqthr, true, e)
              | None => None
              end
          end
      end
  | None, _ => Some (false, false, [])
  | Some _, None => None
  end.
End Value.
End Hier.
Arguments ic : clear implicits.
Arguments lvl : clear implicits.
Arguments hs : clear implicits.
