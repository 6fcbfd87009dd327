(** Solvers as objects sharing constraints and Lie group spaces: copy constructors,
    extract, add.
    Modelled from src/solver/hierarchical-iterative.cc:213-305, 326-336, 364-400,
    src/solver/by-substitution.cc:62-140, include/hpp/constraints/implicit-constraint-set.hh:60-140,
    include/hpp/constraints/differentiable-function-set.hh:64-81,
    src/explicit-constraint-set.cc:453-462, src/implicit.cc:160-176, 54-84, 104-108.
    A pointer is an index in the list of allocated objects.  Only the members involved in
    sharing are kept: pointers to constraints, the Lie group space of the set of functions
    of each level (mutated in place by add) and the space of the output and right hand
    side of each level.  The functions themselves are immutable. *)
From Coq Require Import List Bool Arith.
Import ListNotations.

Section Heap.
Context {F K R I : Type}.
Variables (feq : F -> F -> bool) (extract_ : R -> I -> R).

(** class Implicit: function_ with the size of its output space, comparison_, rhsFunction_ *)
Record cell := mkcell { cl_f : F; cl_nq : nat; cl_nv : nat; cl_cmp : K; cl_rhs : option R }.
Record world := mkworld { cells : list cell; spaces : list (nat * nat) }.

(** A priority level: constraints_ of the set, outputSpace_ of its function set, space and
    vector sizes (output, error) of datas_[i]. *)
Record level := mklevel { lv_cons : list nat; lv_own : nat; lv_out : nat; lv_len : nat * nat }.
(** constraints_, stacks_ and datas_, iq_ and iv_, constraints of explicit_ *)
Record slv := mkslv { sv_cons : list nat; sv_levels : list level; sv_iq : list (F * (nat * nat)); sv_ex : list nat }.

Fixpoint get_cells (w : world) (l : list nat) : option (list cell) :=
  match l with
  | [] => Some []
  | p :: t => match nth_error (cells w) p, get_cells w t with Some c, Some r => Some (c :: r) | _, _ => None end
  end.
(** successive products of output spaces *)
Definition dims (cs : list cell) : nat * nat :=
  fold_left (fun a c => (fst a + cl_nq c, snd a + cl_nv c)) cs (0, 0).

(** hierarchical-iterative.cc:243-248, oldToNew[c] = newConstraint; later entries win *)
Definition lookup (m : list (nat * nat)) (p : nat) : option nat := option_map snd (find (fun x => Nat.eqb (fst x) p) (rev m)).
(** implicit-constraint-set.hh:117-124 and explicit-constraint-set.cc:453-462, replace *)
Definition repl (m : list (nat * nat)) (p : nat) : nat := match lookup m p with Some q => q | None => p end.

(** stacks_(other.stacks_): implicit-constraint-set.hh:104-112, a new function set to which
    the functions are added; then line 250-252.  datas_(other.datas_): the elements keep
    their pointer to the space. *)
Fixpoint copy_levels (w : world) (m : list (nat * nat)) (n : nat) (ls : list level) : option (list level * list (nat * nat)) :=
  match ls with
  | [] => Some ([], [])
  | l :: t => match get_cells w (lv_cons l), copy_levels w m (S n) t with
              | Some cs, Some (t', sp) => Some (mklevel (map (repl m) (lv_cons l)) n (lv_out l) (lv_len l) :: t', dims cs :: sp)
              | _, _ => None
              end
  end.
(** hierarchical-iterative.cc:213-253, copy constructor.  None = dangling pointer. *)
Definition hcopy (w : world) (s : slv) : option (world * slv * list (nat * nat)) :=
  match get_cells w (sv_cons s) with
  | None => None
  | Some cs =>
      let new := seq (length (cells w)) (length cs) in
      let m := combine (sv_cons s) new in
      match copy_levels w m (length (spaces w)) (sv_levels s) with
      | None => None
      | Some (ls, sp) => Some (mkworld (cells w ++ cs) (spaces w ++ sp), mkslv new ls (sv_iq s) (sv_ex s), m)
      end
  end.
(** by-substitution.cc:62-76, copy constructor *)
Definition bcopy (w : world) (s : slv) : option (world * slv * list (nat * nat)) :=
  match hcopy w s with
  | None => None
  | Some (w', r, m) => Some (w', mkslv (sv_cons r) (sv_levels r) (sv_iq r) (map (repl m) (sv_ex r)), m)
  end.

Definition upd {A} (l : list A) (n : nat) (x : A) : list A := firstn n l ++ match skipn n l with [] => [] | _ :: t => x :: t end.
Definition extract_cell (i : I) (c : cell) : cell :=
  mkcell (cl_f c) (cl_nq c) (cl_nv c) (cl_cmp c) (option_map (fun f => extract_ f i) (cl_rhs c)).
Fixpoint extract_all (i : I) (cs : list cell) (l : list nat) : option (list cell) :=
  match l with
  | [] => Some cs
  | p :: t => match nth_error cs p with Some c => extract_all i (upd cs p (extract_cell i c)) t | None => None end
  end.
(** hierarchical-iterative.cc:326-336 *)
Definition hextract (w : world) (s : slv) (i : I) : option (world * slv) :=
  match hcopy w s with
  | None => None
  | Some (w', r, _) => match extract_all i (cells w') (sv_cons r) with Some cs => Some (mkworld cs (spaces w'), r) | None => None end
  end.
(** by-substitution.cc:123-140: the second component is *this after the call *)
Definition bextract (w : world) (s : slv) (i : I) : option (world * slv * slv) :=
  match bcopy w s with
  | None => None
  | Some (w', r, m) =>
      match extract_all i (cells w') (sv_cons r) with
      | Some cs => Some (mkworld cs (spaces w'), mkslv (sv_cons s) (sv_levels s) (sv_iq s) (map (repl m) (sv_ex s)), r)
      | None => None
      end
  end.

(** hierarchical-iterative.cc:364-400, update: the elements take the space of the function set *)
Fixpoint update_levels (sp : list (nat * nat)) (ls : list level) : option (list level) :=
  match ls with
  | [] => Some []
  | l :: t => match nth_error sp (lv_own l), update_levels sp t with
              | Some d, Some t' => Some (mklevel (lv_cons l) (lv_own l) (lv_own l) d :: t')
              | _, _ => None
              end
  end.
(** lines 276-280: new levels with new function sets and new empty spaces *)
Definition new_levels (n k : nat) : list level := map (fun i => mklevel [] (n + 2 * i) (n + 2 * i + 1) (0, 0)) (seq 0 k).
(** lines 263-303, add; None = the function is there already, or a dangling pointer *)
Definition hadd (w : world) (s : slv) (c p : nat) : option (world * slv) :=
  match nth_error (cells w) c with
  | None => None
  | Some x =>
      if existsb (fun e => feq (fst e) (cl_f x)) (sv_iq s) then None else
      let k := S p - length (sv_levels s) in
      let ls := sv_levels s ++ new_levels (length (spaces w)) k in
      let sp := spaces w ++ repeat (0, 0) (2 * k) in
      match nth_error ls p with
      | None => None
      | Some l =>
          match nth_error sp (lv_out l), nth_error sp (lv_own l) with
          | Some o, Some d =>
              let sp' := upd sp (lv_own l) (fst d + cl_nq x, snd d + cl_nv x) in
              match update_levels sp' (upd ls p (mklevel (lv_cons l ++ [c]) (lv_own l) (lv_out l) (lv_len l))) with
              | Some ls' => Some (mkworld (cells w) sp', mkslv (sv_cons s ++ [c]) ls' (sv_iq s ++ [(cl_f x, o)]) (sv_ex s))
              | None => None
              end
          | _, _ => None
          end
      end
  end.
(** by-substitution.cc:89-112 with explicitConstraintSetHasChanged (142-146) and
    freeVariables, when the constraint is accepted as explicit *)
Definition xadd (w : world) (s : slv) (c : nat) : option slv :=
  match nth_error (cells w) c, update_levels (spaces w) (sv_levels s) with
  | Some _, Some ls => Some (mkslv (sv_cons s ++ [c]) ls (sv_iq s) (sv_ex s ++ [c]))
  | _, _ => None
  end.

(** Programs on a family of solvers. *)
Inductive op :=
| NewConstraint (c : cell)
| NewSolver
| Copy (i : nat)                    (* copy constructor of BySubstitution *)
| HExtract (i : nat) (r : I)        (* of a HierarchicalIterative *)
| BExtract (i : nat) (r : I)
| Add (i c p : nat)                 (* as an implicit constraint *)
| AddExplicit (i c : nat)
| SetComparison (c : nat) (k : K).  (* Implicit::comparisonType *)
Definition state := (world * list slv)%type.
Definition step (st : state) (o : op) : option state :=
  let '(w, l) := st in
  match o with
  | NewConstraint c => Some (mkworld (cells w ++ [c]) (spaces w), l)
  | NewSolver => Some (w, l ++ [mkslv [] [] [] []])
  | Copy i => match nth_error l i with
              | Some s => match bcopy w s with Some (w', r, _) => Some (w', l ++ [r]) | None => None end
              | None => None
              end
  | HExtract i r => match nth_error l i with
                    | Some s => match hextract w s r with Some (w', x) => Some (w', l ++ [x]) | None => None end
                    | None => None
                    end
  | BExtract i r => match nth_error l i with
                    | Some s => match bextract w s r with Some (w', s', x) => Some (w', upd l i s' ++ [x]) | None => None end
                    | None => None
                    end
  | Add i c p => match nth_error l i with
                 | Some s => match hadd w s c p with Some (w', s') => Some (w', upd l i s') | None => None end
                 | None => None
                 end
  | AddExplicit i c => match nth_error l i with
                       | Some s => match xadd w s c with Some s' => Some (w, upd l i s') | None => None end
                       | None => None
                       end
  | SetComparison c k => match nth_error (cells w) c with
                         | Some x => Some (mkworld (upd (cells w) c (mkcell (cl_f x) (cl_nq x) (cl_nv x) k (cl_rhs x))) (spaces w), l)
                         | None => None
                         end
  end.
Fixpoint run (st : state) (l : list op) : option state :=
  match l with [] => Some st | o :: t => match step st o with Some st' => run st' t | None => None end end.
Definition start : state := (mkworld [] [], []).

(** hierarchical-iterative.cc:600-614, rightHandSide(): the vector has the size of its space *)
Definition readable (w : world) (s : slv) : bool :=
  forallb (fun l => match nth_error (spaces w) (lv_out l) with Some d => Nat.eqb (fst d) (fst (lv_len l)) && Nat.eqb (snd d) (snd (lv_len l)) | None => false end) (sv_levels s).
(** comparison types of the explicit constraints, read by right hand side methods
    (explicit-constraint-set.cc:364, 409) *)
Definition ex_cmp (w : world) (s : slv) : list (option K) := map (fun p => option_map cl_cmp (nth_error (cells w) p)) (sv_ex s).
End Heap.
Arguments cell : clear implicits. Arguments world : clear implicits. Arguments slv : clear implicits. Arguments op : clear implicits. Arguments state : clear implicits.
