(** Model of class hpp::constraints::ExplicitConstraintSet.

    Source: /repo/src/explicit-constraint-set.cc,
            /repo/include/hpp/constraints/explicit-constraint-set.hh.

    Scalars are an abstract type V, right hand sides an abstract type Rh: the set
    only moves them around.  Indices are unbounded Z (simplification: no 64-bit
    overflow of size_type; the `int` coefficients of the dependency matrix are added
    with the parameter [iadd], so that both exact and wrapping arithmetic can be
    plugged in). *)
From Coq Require Import ZArith List Bool.
From Verif Require Import SegModel ViewModel.
Import ListNotations.
Open Scope Z_scope.

(** fwd.hh:180 *)
Inductive cmp := Equality | EqualToZero | Superior | Inferior.
Definition cmp_eqb (a b : cmp) : bool :=
  match a, b with
  | Equality, Equality | EqualToZero, EqualToZero
  | Superior, Superior | Inferior, Inferior => true
  | _, _ => false
  end.

(** Outcomes: value, undefined behaviour (failed assertion, access out of
    bounds), or model fuel exhausted (the C++ loop/recursion has no bound). *)
Inductive res (A : Type) := Val (a : A) | Und | Fuel.
Arguments Val {A}. Arguments Und {A}. Arguments Fuel {A}.

Section Ecs.
Context {V Rh : Type}.
Variable iadd : Z -> Z -> Z.

(** explicit.hh:182-200: index intervals of an Explicit constraint, its comparison
    types (implicit.hh) and the map (rhs, qin) |-> qout of Explicit::outputValue;
    [c_rhs0] is the neutral right hand side (explicit-constraint-set.cc:130). *)
Record con := mkcon {
  c_in : list (Z * Z); c_out : list (Z * Z);
  c_inv : list (Z * Z); c_outv : list (Z * Z);
  c_cmp : list cmp;
  c_val : Rh -> list V -> list V;
  c_rhs0 : Rh }.

(** explicit-constraint-set.hh:475-520, the data members that the operations
    below read or write. *)
Record ecs := mkecs {
  nq : Z; nv : Z;
  data : list con; rhsl : list Rh;
  inArgs : list (Z * Z); notOutArgs : list (Z * Z); outArgs : list (Z * Z);
  inDers : list (Z * Z); notOutDers : list (Z * Z); outDers : list (Z * Z);
  argF : Z -> Z; derF : Z -> Z;
  order : list nat;
  deps : nat -> Z -> Z }.

(** explicit-constraint-set.hh:186-207, constructor. *)
Definition init (n m : Z) : ecs :=
  mkecs n m [] [] [] [(0, n)] [] [] [(0, m)] [] (fun _ => -1) (fun _ => -1) [] (fun _ _ => 0).

(** explicit-constraint-set.cc:43-48, the indices of a set of segments. *)
Definition append (rbi : list (Z * Z)) : list Z := vread (fun i => i) rbi.

(** Bounds of a segment inside a vector of size n. *)
Definition seg_inb (n : Z) (s : Z * Z) : bool := (0 <=? fst s) && (0 <=? snd s) && (send s <=? n).

(** lview(vector).setConstant(x) on one segment. *)
Definition fill (f : Z -> Z) (s : Z * Z) (x : Z) : Z -> Z :=
  fun i => if (fst s <=? i) && (i <? send s) then x else f i.

(** explicit-constraint-set.cc:179-195, loop detection.  [true] = the queue became
    empty, [false] = return -1. *)
Fixpoint loop_check (fuel : nat) (n : Z) (d : list con) (af : Z -> Z) (outIdx : Z * Z) (q : list Z) : res bool :=
  match q with
  | [] => Val true
  | iArg :: t =>
      match fuel with
      | O => Fuel
      | S f =>
          if (fst outIdx <=? iArg) && (iArg <? send outIdx) then Val false
          else if negb ((0 <=? iArg) && (iArg <? n)) then Und
          else if af iArg <? 0 then loop_check f n d af outIdx t
          else match nth_error d (Z.to_nat (af iArg)) with
               | None => Und
               | Some c => loop_check f n d af outIdx (t ++ append (c_in c))
               end
      end
  end.

(** explicit-constraint-set.cc:293-314, computeOrder: depth first traversal.  The
    state is (content of computationOrder_[0..iOrder), computed flags,
    inOutDependencies_). *)
Record dfs := mkdfs { d_order : list nat; d_comp : nat -> bool; d_deps : nat -> Z -> Z }.

Definition set_comp (f : nat -> bool) (i : nat) : nat -> bool :=
  fun k => if Nat.eqb k i then true else f k.
Definition add_entry (m : nat -> Z -> Z) (r : nat) (c : Z) : nat -> Z -> Z :=
  fun i j => if Nat.eqb i r && (j =? c) then iadd (m i j) 1 else m i j.
Definition add_row (m : nat -> Z -> Z) (r r' : nat) : nat -> Z -> Z :=
  fun i j => if Nat.eqb i r then iadd (m i j) (m r' j) else m i j.

Section Order.
Variables (m : Z) (d : list con) (df : Z -> Z).

(** body of the two nested loops (lines 298-310) given the recursive call *)
Fixpoint order_inputs (rec : nat -> dfs -> res dfs) (iE : nat) (l : list Z) (s : dfs) : res dfs :=
  match l with
  | [] => Val s
  | j :: t =>
      if negb ((0 <=? j) && (j <? m)) then Und
      else if df j <? 0
      then order_inputs rec iE t (mkdfs (d_order s) (d_comp s) (add_entry (d_deps s) iE j))
      else let r := Z.to_nat (df j) in
           if negb (Nat.ltb r (length d)) then Und
           else match rec r s with
                | Val s' => order_inputs rec iE t (mkdfs (d_order s') (d_comp s') (add_row (d_deps s') iE r))
                | Und => Und
                | Fuel => Fuel
                end
  end.
Fixpoint compute_order (fuel : nat) (iE : nat) (s : dfs) : res dfs :=
  if d_comp s iE then Val s
  else match fuel with
       | O => Fuel
       | S f =>
           match nth_error d iE with
           | None => Und
           | Some c =>
               match order_inputs (compute_order f) iE (append (c_inv c)) s with
               | Val s' => Val (mkdfs (d_order s' ++ [iE]) (set_comp (d_comp s') iE) (d_deps s'))
               | Und => Und
               | Fuel => Fuel
               end
           end
       end.
(** lines 235-237: for i < data_.size(): computeOrder(i, order, computed) *)
Fixpoint order_all (fuel : nat) (l : list nat) (s : dfs) : res dfs :=
  match l with
  | [] => Val s
  | i :: t => match compute_order fuel i s with
              | Val s' => order_all fuel t s'
              | Und => Und
              | Fuel => Fuel
              end
  end.
End Order.

(** explicit-constraint-set.cc:144-240, add.  Result: index of the new constraint,
    -1, std::logic_error, undefined behaviour or exhausted fuel. *)
Inductive outcome := Added (i : nat) | Refused | Thrown | Undef | NoFuel.

Definition bad_cmp (c : cmp) : bool := negb (cmp_eqb c EqualToZero) && negb (cmp_eqb c Equality).

(** lines 207-229: update of the index sets; None = undefined. *)
Definition upd_out (outs : list (Z * Z)) (o : Z * Z) := normalise (outs ++ [o]).
Definition upd_in (ins cin outs : list (Z * Z)) : option (list (Z * Z)) :=
  match add_segs ins cin with
  | None => None
  | Some a => match diff_ll a outs with
              | None => None
              | Some r => Some (update_rows false true r)
              end
  end.

Definition add (fuel : nat) (st : ecs) (c : con) : ecs * outcome :=
  match c_out c, c_outv c with
  | [o], [ov] =>
      if existsb (fun s => overlap s o) (c_in c) then (st, Thrown)
      else if existsb bad_cmp (c_cmp c) then (st, Refused)
      else if negb (seg_inb (nq st) o) then (st, Undef)
      else if existsb (fun x => 0 <=? x) (vread (argF st) [o]) then (st, Refused)
      else match loop_check fuel (nq st) (data st) (argF st) o (append (c_in c)) with
      | Und => (st, Undef)
      | Fuel => (st, NoFuel)
      | Val false => (st, Refused)
      | Val true =>
          if negb (seg_inb (nv st) ov) then (st, Undef)
          else
          let idx := length (data st) in
          let af := fill (argF st) o (Z.of_nat idx) in
          let df := fill (derF st) ov (Z.of_nat idx) in
          let dat := data st ++ [c] in
          let outs := upd_out (outArgs st) o in
          let outd := upd_out (outDers st) ov in
          match diff_sl (0, nq st) outs, upd_in (inArgs st) (c_in c) outs,
                diff_sl (0, nv st) outd, upd_in (inDers st) (c_inv c) outd with
          | Some no, Some ins, Some nod, Some ind =>
              match order_all (nv st) dat df fuel (seq 0 (length dat))
                      (mkdfs [] (fun _ => false) (fun _ _ => 0)) with
              | Und => (st, Undef)
              | Fuel => (st, NoFuel)
              | Val s =>
                  (mkecs (nq st) (nv st) dat (rhsl st ++ [c_rhs0 c])
                     ins no outs ind nod outd af df (d_order s) (d_deps s), Added idx)
              end
          | _, _, _, _ => (st, Undef)
          end
      end
  | _, _ => (st, Undef)
  end.

(** explicit-constraint-set.cc:255-262, solveExplicitConstraint. *)
Definition solve_one (st : ecs) (arg : Z -> V) (i : nat) : option (Z -> V) :=
  match nth_error (data st) i, nth_error (rhsl st) i with
  | Some c, Some r => vwrite arg (c_out c) (c_val c r (vread arg (c_in c)))
  | _, _ => None
  end.
(** explicit-constraint-set.cc:60-65, solve. *)
Fixpoint solve_loop (st : ecs) (arg : Z -> V) (l : list nat) : option (Z -> V) :=
  match l with
  | [] => Some arg
  | i :: t => match solve_one st arg i with Some a => solve_loop st a t | None => None end
  end.
Definition solve (st : ecs) (arg : Z -> V) : option (Z -> V) := solve_loop st arg (order st).

(** The state with other right hand sides (the setters of
    explicit-constraint-set.cc:316-414 change nothing else). *)
Definition with_rhs (st : ecs) (rl : list Rh) : ecs :=
  mkecs (nq st) (nv st) (data st) rl (inArgs st) (notOutArgs st) (outArgs st)
    (inDers st) (notOutDers st) (outDers st) (argF st) (derF st) (order st) (deps st).

(** explicit-constraint-set.cc:464-475, inOutDofDependencies: rows are filled
    through the output velocity intervals, then the outDers rows are read.  The
    matrix is first uninitialised: [junk].  Without input column the matrix is
    returned before its rows are extracted (line 466): nv empty rows. *)
Definition write_rows (m : Z -> list Z) (rows : list (Z * Z)) (row : list Z) : Z -> list Z :=
  fun i => if existsb (fun s => (fst s <=? i) && (i <? send s)) rows then row else m i.
Fixpoint dof_rows (st : ecs) (m : Z -> list Z) (i : nat) (l : list con) : Z -> list Z :=
  match l with
  | [] => m
  | c :: t => dof_rows st (write_rows m (c_outv c) (vread (deps st i) (inDers st))) (S i) t
  end.
Definition dof_deps (junk : Z -> list Z) (st : ecs) : list (list Z) :=
  if cardinal (inDers st) =? 0 then repeat [] (Z.to_nat (nv st))
  else vread (dof_rows st junk 0 (data st)) (outDers st).
End Ecs.
Arguments con : clear implicits.
Arguments ecs : clear implicits.

(** 32-bit two's complement addition, what `int` addition does on every common
    platform when it overflows (the standard leaves it undefined). *)
Definition wrap32 (x : Z) : Z := (x + 2147483648) mod 4294967296 - 2147483648.
Definition iadd32 (x y : Z) : Z := wrap32 (x + y).
