(** Model of class hpp::constraints::solver::BySubstitution, and of the parts of
    HierarchicalIterative that both solvers share: rows of the reduced Jacobian,
    descent direction, merge, comparison of solvers, serialization.

    Source: /repo/src/solver/by-substitution.cc,
            /repo/src/solver/hierarchical-iterative.cc,
            /repo/include/hpp/constraints/solver/by-substitution.hh.

    The member constraints_ (all constraints, in order) is [bs_cons]; the constraints
    treated numerically are those of the hierarchical solver [bs_h], those treated
    explicitly are [bs_ex], parallel to the data of the explicit set [bs_e].
    activeRowsOfJ, dimension_ and reducedDimension_ are recomputed by update() each
    time one of the members they depend on changes: they are functions of the state
    instead of members. *)
From Coq Require Import ZArith List Bool.
From Verif Require Import SegModel ViewModel EcsModel EcsRhsModel ImplModel HierModel.
Import ListNotations.

Section BySub.
Context {F V : Type}.
Variable feq : F -> F -> bool.
Variable zero : V.
Variable iadd : Z -> Z -> Z.

(** A constraint given to the solver: class Implicit part, class (ImplModel.kind) and,
    for classes derived from Explicit, the map outputValue. *)
Record bc := mkbc { bc_c : ic F V; bc_k : kind; bc_val : list V -> list V -> list V }.
Definition bc_f (c : bc) : F := ic_f (bc_c c).
(** operator== (implicit.cc:40-43) *)
Definition beq (a b : bc) : bool :=
  eq_con feq (mkkcon (ic_i (bc_c a)) (bc_k a)) (mkkcon (ic_i (bc_c b)) (bc_k b)).
(** dynamic cast to Explicit: what the explicit set reads of the constraint *)
Definition bc_con (c : bc) : option (con V (list V)) :=
  match as_explicit (bc_k c) with
  | Some e => Some (mkcon (x_in e) (x_out e) (x_inv e) (x_outv e) (m_cmp (ic_i (bc_c c))) (bc_val c)
                     (s_neutral (ic_s (bc_c c))))
  | None => None
  end.

Record bs := mkbs {
  bs_h : hs F V;
  bs_e : ecs V (list V);
  bs_ex : list bc;
  bs_cons : list bc;
  bs_free : list (Z * Z) }.
(** by-substitution.cc:58-61 and hierarchical-iterative.cc:209-210 *)
Definition bs_init (n m : Z) : bs := mkbs hs_init (init n m) [] [] [(0%Z, m)].

(** hierarchical-iterative.cc:255-261, contains *)
Definition bcontains (s : bs) (c : bc) : bool := existsb (fun d => beq d c) (bs_cons s).

(** by-substitution.cc:142-146, explicitConstraintSetHasChanged: freeVariables
    (hierarchical-iterative.hh) then update *)
Definition changed (s : bs) : bs :=
  mkbs (update (bs_h s)) (bs_e s) (bs_ex s) (bs_cons s) (notOutDers (bs_e s)).

(** true / false / std::logic_error / undefined / fuel exhausted *)
Inductive bout := BYes | BNo | BThrow | BUndef | BFuel.
Definition badd_num (s : bs) (c : bc) (p : nat) : bs * bout :=
  match hadd feq (bs_h s) (bc_c c) p with
  | Some h => (mkbs h (bs_e s) (bs_ex s) (bs_cons s ++ [c]) (bs_free s), BYes)
  | None => (s, BThrow)
  end.
(** by-substitution.cc:79-117, add *)
Definition badd (fuel : nat) (s : bs) (c : bc) (p : nat) : bs * bout :=
  if bcontains s c then (s, BNo)
  else match bc_con c with
       | None => badd_num s c p
       | Some x =>
           match add iadd fuel (bs_e s) x with
           | (e, Added _) => (changed (mkbs (bs_h s) e (bs_ex s ++ [c]) (bs_cons s ++ [c]) (bs_free s)), BYes)
           | (_, Refused) => badd_num s c p
           | (_, Thrown) => (s, BThrow)
           | (_, Undef) => (s, BUndef)
           | (_, NoFuel) => (s, BFuel)
           end
       end.

(** Right hand sides, by-substitution.cc:303-381.  The explicit set looks for the
    first constraint that is the argument, is equal to it or has an equal function
    (explicit-constraint-set.cc:324-335, 374-398); the same object satisfies the last
    test. *)
Definition bs_imps (s : bs) : list (imp V) := map (fun c => ic_s (bc_c c)) (bs_ex s).
Definition same_as (s : bs) (c : bc) (i : nat) : bool :=
  match nth_error (bs_ex s) i with
  | Some d => beq d c || feq (bc_f d) (bc_f c)
  | None => false
  end.
Definition bs_rhs (s : bs) (h : hs F V) (rl : list (list V)) : bs :=
  mkbs h (with_rhs (bs_e s) rl) (bs_ex s) (bs_cons s) (bs_free s).
(** lines 329-337; None = undefined *)
Definition bset_of (s : bs) (c : bc) (x : list V) : option (bs * bool) :=
  match set_rhs_of feq (bs_h s) (bc_f c) x with
  | None => None
  | Some (h, true) => Some (bs_rhs s h (rhsl (bs_e s)), true)
  | Some (_, false) =>
      match as_explicit (bc_k c) with
      | None => Some (s, false)
      | Some _ =>
          match set_rhs_con zero (same_as s c) (bs_imps s) (rhsl (bs_e s)) x with
          | None => None
          | Some (rl, b) => Some (bs_rhs s (bs_h s) rl, b)
          end
      end
  end.
(** lines 339-347; the size of the output is that of the constraint given *)
Definition bget_of (s : bs) (c : bc) : option (option (list V)) :=
  match get_rhs_of feq (bs_h s) (bc_f c) (s_nq (ic_s (bc_c c))) with
  | None => None
  | Some (Some x) => Some (Some x)
  | Some None =>
      match as_explicit (bc_k c) with
      | None => Some None
      | Some _ => Some (get_rhs_con (same_as s c) (bs_imps s) (rhsl (bs_e s)))
      end
  end.
(** lines 349-354: the explicit part is read in the head of the vector *)
Definition bset_whole (s : bs) (v : list V) : option bs :=
  let top := length (get_rhs_whole (bs_h s)) in
  let bot := rhs_size (bs_imps s) in
  if Nat.leb top (length v) && Nat.leb bot (length v)
  then match set_rhs_whole (bs_h s) (firstn top v), set_all zero (bs_imps s) (firstn bot v) with
       | Some h, Some rl => Some (bs_rhs s h rl)
       | _, _ => None
       end
  else None.
(** lines 356-363 *)
Definition bget_whole (s : bs) : list V := get_rhs_whole (bs_h s) ++ get_all (rhsl (bs_e s)).
(** lines 310-317 *)
Definition bconfig (s : bs) (q : Z -> V) : option bs :=
  match rhs_config zero (bs_h s) q, from_input_all zero (bs_imps s) (rhsl (bs_e s)) q with
  | Some h, Some rl => Some (bs_rhs s h rl)
  | _, _ => None
  end.

(** Rows of the reduced Jacobian.  [to_fun false]: an array of booleans. *)
Definition act_free (free : list (Z * Z)) (c : ic F V) : bool :=
  existsb (fun b => b) (vread (to_fun false (ic_adp c)) free).
(** by-substitution.cc:228-240: explicitIOdep.transpose() * adpC, any coefficient not 0 *)
Fixpoint col_sum (x : nat) (rows : list (list Z)) (sel : list bool) : Z :=
  match rows, sel with
  | r :: t, b :: u => iadd (if b then nth x r 0%Z else 0%Z) (col_sum x t u)
  | _, _ => 0%Z
  end.
Definition act_dep (deps : list (list Z)) (ncols : nat) (sel : list bool) : bool :=
  existsb (fun x => negb (Z.eqb (col_sum x deps sel) 0)) (seq 0 ncols).
Definition act_bs (junk : Z -> list Z) (e : ecs V (list V)) (free : list (Z * Z)) (c : ic F V) : bool :=
  let deps := dof_deps junk e in let ncols := Z.to_nat (cardinal (inDers e)) in
  act_free free c ||
  (negb (Nat.eqb (length deps) 0) && negb (Nat.eqb ncols 0) &&
   act_dep deps ncols (vread (to_fun false (ic_adp c)) (outDers e))).
(** hierarchical-iterative.cc:418-430 and by-substitution.cc:218-250 *)
Fixpoint kept_rows (act : ic F V -> bool) (off : Z) (cs : list (ic F V)) : list (Z * Z) :=
  match cs with
  | [] => []
  | c :: t =>
      (if act c then map (fun s => (fst s + off, snd s)%Z) (m_active (ic_i c)) else []) ++
      kept_rows act (off + Z.of_nat (s_nv (ic_s c))) t
  end.
(** activeRowsOfJ.m_rows of a level, after updateRows<true, true, true> *)
Definition active_rows_of_J (act : ic F V -> bool) (l : lvl F V) : list (Z * Z) :=
  normalise (kept_rows act 0 (l_cons l)).
(** hierarchical-iterative.cc:369-380, reducedDimension_ *)
Definition reduced_dim (act : ic F V -> bool) (s : hs F V) : Z :=
  fold_right (fun l n => (cardinal (active_rows_of_J act l) + n)%Z) 0%Z (lvls s).

(** hierarchical-iterative.cc:351-362, activeDerivativeParameters: the array of an
    empty level has size 0 (differentiable-function-set.hh:97-100), its disjunction
    with an array of another size is undefined. *)
Fixpoint orb_all (a b : list bool) : option (list bool) :=
  match a, b with
  | [], [] => Some []
  | x :: s, y :: t => match orb_all s t with Some r => Some ((x || y) :: r) | None => None end
  | _, _ => None
  end.
(** differentiable-function-set.hh:64-81, add *)
Fixpoint set_adp (a : list bool) (cs : list (ic F V)) : option (list bool) :=
  match cs with
  | [] => Some a
  | c :: t => match orb_all a (ic_adp c) with Some b => set_adp b t | None => None end
  end.
Definition level_adp (cs : list (ic F V)) : option (list bool) :=
  match cs with [] => Some [] | c :: t => set_adp (ic_adp c) t end.
Fixpoint adp_loop (a : list bool) (ls : list (lvl F V)) : option (list bool) :=
  match ls with
  | [] => Some a
  | l :: t => match level_adp (l_cons l) with
              | Some b => match orb_all a b with Some r => adp_loop r t | None => None end
              | None => None
              end
  end.
Definition solver_adp (m : nat) (s : hs F V) : option (list bool) := adp_loop (repeat false m) (lvls s).

(** by-substitution.cc:148-166, implicitDof.  [out] is an array of int. *)
Fixpoint idof_loop (e : ecs V (list V)) (i : Z) (adp : list bool) (out : Z -> Z) : Z -> Z :=
  match adp with
  | [] => out
  | b :: t =>
      idof_loop e (i + 1)%Z t
        (if b
         then if Z.leb 0 (derF e i)
              then let out1 := fun j => iadd (out j) (deps e (Z.to_nat (derF e i)) j) in
                   fun j => if Z.eqb j i then 0%Z else out1 j
              else fun j => if Z.eqb j i then iadd (out j) 1 else out j
         else out)
  end.
Definition implicit_dof (s : bs) : option (list (Z * Z)) :=
  match solver_adp (Z.to_nat (nv (bs_e s))) (bs_h s) with
  | None => None
  | Some adp =>
      let out := idof_loop (bs_e s) 0 adp (fun _ => 0%Z) in
      Some (from_logical (map (fun k => negb (Z.eqb (out (Z.of_nat k)) 0)) (seq 0 (length adp))))
  end.

(** hierarchical-iterative.cc:305-324, merge, on a hierarchical solver.  The second
    component tells whether the loop reached its end (otherwise std::logic_error, the
    constraints already added stay). *)
Definition prio_of (o : list (F * nat)) (f : F) : nat := match find_f feq f o with Some p => p | None => O end.
Fixpoint hmerge_loop (s : hs F V) (pr : list (F * nat)) (cs : list (ic F V)) : hs F V * bool :=
  match cs with
  | [] => (s, true)
  | c :: t =>
      if contains feq s c then hmerge_loop s pr t
      else match hadd feq s c (prio_of pr (ic_f c)) with
           | Some s' => hmerge_loop s' pr t
           | None => (s, false)
           end
  end.
Definition hmerge (s o : hs F V) : hs F V * bool := hmerge_loop s (prio o) (hcons o).
(** the same on a solver by substitution: contains and add are virtual *)
Fixpoint bmerge_loop (fuel : nat) (s : bs) (pr : list (F * nat)) (cs : list bc) : bs * bout :=
  match cs with
  | [] => (s, BYes)
  | c :: t =>
      if bcontains s c then bmerge_loop fuel s pr t
      else match badd fuel s c (prio_of pr (bc_f c)) with
           | (s', BYes) | (s', BNo) => bmerge_loop fuel s' pr t
           | (s', r) => (s', r)
           end
  end.
Definition bmerge (fuel : nat) (s o : bs) : bs * bout := bmerge_loop fuel s (prio (bs_h o)) (bs_cons o).
(** hierarchical-iterative.cc:730-742, definesSubmanifoldOf, on the lists of functions *)
Definition submanifold (mine others : list F) : bool :=
  forallb (fun f => existsb (fun g => feq g f) mine) others.
Definition hsub (s o : hs F V) : bool := submanifold (map ic_f (hcons s)) (map ic_f (hcons o)).
Definition bsub (s o : bs) : bool := submanifold (map bc_f (bs_cons s)) (map bc_f (bs_cons o)).
End BySub.
Arguments bc : clear implicits.
Arguments bs : clear implicits.

(** Descent direction: the members dq_ (with its size) and freeVariables_
    (hierarchical-iterative.hh:622 and 636).  dqSmall_ is the solution of the reduced
    problem, [m] is the size of the velocity. *)
Section Direction.
Context {V : Type}.
Variables (zero : V) (scale : V -> V) (m : Z).
Record dir := mkdir { dsz : Z; dq : Z -> V; fv : list (Z * Z) }.
(** constructor, hierarchical-iterative.cc:197 and 209-210: dq_ is an empty vector *)
Definition dir_init : dir := mkdir 0 (fun _ => zero) [(0%Z, m)].
Inductive dop :=
| DUpdate                        (** update(), hierarchical-iterative.cc:402 *)
| DFree (l : list (Z * Z))       (** freeVariables(segments_t), hierarchical-iterative.hh:383-389 *)
| DFreeRaw (l : list (Z * Z))    (** freeVariables(Indices_t), hierarchical-iterative.hh:395-398 *)
| DExpand (small : list V)       (** expandDqSmall, hierarchical-iterative.cc:825-828 *)
| DZero                          (** dq_.setZero(), hierarchical-iterative.cc:747-750 *)
| DScale.                        (** dq_ *= s, dq_ /= s, impl/by-substitution.hh:104 and 145 *)
(** None = access outside dq_ or sizes that do not match *)
Definition dstep (d : dir) (o : dop) : option dir :=
  match o with
  | DUpdate => Some (mkdir m (fun _ => zero) (fv d))
  | DFree l => Some (mkdir m (fun _ => zero) (update_rows true true l))
  | DFreeRaw l => Some (mkdir m (fun _ => zero) l)
  | DExpand small =>
      if forallb (seg_inb (dsz d)) (fv d)
      then match vwrite (dq d) (fv d) small with Some q => Some (mkdir (dsz d) q (fv d)) | None => None end
      else None
  | DZero => Some (mkdir (dsz d) (fun _ => zero) (fv d))
  | DScale => Some (mkdir (dsz d) (fun i => scale (dq d i)) (fv d))
  end.
Fixpoint drun (d : dir) (l : list dop) : option dir :=
  match l with
  | [] => Some d
  | o :: t => match dstep d o with Some d' => drun d' t | None => None end
  end.
End Direction.

(** Serialization, hierarchical-iterative.cc:872-923 and by-substitution.cc:383-400.
    Serializing a constraint is modelled as the identity; T is the type of numbers,
    [eps] the machine precision. *)
Section Saving.
Context {F V T : Type}.
Variable feq : F -> F -> bool.
Variable iadd : Z -> Z -> Z.
Variable eps : T.
(** The solver with its scalar members: [f_level] is solveLevelByLevel_ (None =
    uninitialised), [f_ex] the threshold of the explicit set, [f_je] the number of rows
    and columns of JeExpanded_. *)
Record full := mkfull {
  f_s : bs F V; f_sq : T; f_ineq : T; f_maxit : Z;
  f_level : option bool; f_ex : T; f_je : Z }.
Record archive := mkarchive {
  a_nq : Z; a_nv : Z; a_sq : T; a_ineq : T; a_maxit : Z; a_opt : bool;
  a_cons : list (bc F V * nat) }.
Definition bsave (x : full) : archive :=
  let s := f_s x in
  mkarchive (nq (bs_e s)) (nv (bs_e s)) (f_sq x) (f_ineq x) (f_maxit x) (last_optional (bs_h s))
    (map (fun c => (c, prio_of feq (prio (bs_h s)) (bc_f c))) (bs_cons s)).
Fixpoint load_loop (fuel : nat) (s : bs F V) (l : list (bc F V * nat)) : option (bs F V) :=
  match l with
  | [] => Some s
  | (c, p) :: t => match badd feq iadd fuel s c p with
                   | (s', BYes) | (s', BNo) => load_loop fuel s' t
                   | _ => None
                   end
  end.
Definition bload (fuel : nat) (a : archive) : option full :=
  let s := mkbs (mkhs [] [] [] [] [] (a_opt a)) (init (a_nq a) (a_nv a)) [] [] [(0%Z, a_nv a)] in
  match load_loop fuel s (a_cons a) with
  | Some s' => Some (mkfull s' (a_sq a) (a_ineq a) (a_maxit a) None eps 0)
  | None => None
  end.
(** by-substitution.cc:170-181, updateJacobian and explicit-constraint-set.cc:264-268:
    whether the block of free variables fits in JeExpanded_ (nothing is written when
    no free variable is read by an explicit constraint) *)
Definition je_fits (x : full) : bool :=
  let e := bs_e (f_s x) in
  Z.eqb (cardinal (inDers e)) 0 || forallb (seg_inb (f_je x)) (notOutDers e).
End Saving.
Arguments full : clear implicits.
