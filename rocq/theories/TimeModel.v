(** Right hand sides that vary with time: Implicit::rightHandSideFunction,
    Implicit::rightHandSideAt and HierarchicalIterative::rightHandSideAt.

    Source: /repo/src/implicit.cc, /repo/src/solver/hierarchical-iterative.cc.

    A right hand side function is a function of one real variable (type V, the type
    of scalars) with values in the output space.  The output space is identified by
    a number, its LiegroupSpace::operator==. *)
From Coq Require Import ZArith List Bool.
From Verif Require Import EcsModel EcsRhsModel ImplModel HierModel BySubModel.
Import ListNotations.

Section Time.
Context {F V : Type}.

(** a DifferentiableFunction used as right hand side: inputSize, inputDerivativeSize,
    outputSpace and value *)
Record tfun := mktfun { tf_in : nat; tf_inv : nat; tf_space : nat; tf_val : V -> list V }.
(** members of Implicit used here: those of [impl], the output space of function_,
    rhsFunction_ and the vector of output_ *)
Record tcon := mktcon { tc_i : impl F; tc_space : nat; tc_fun : option tfun; tc_out : list V }.

(** implicit.cc:54-84, rightHandSideFunction(rhsF): None = std::invalid_argument, the
    member is then not changed; a null pointer is accepted without check *)
Definition set_fun (c : tcon) (g : option tfun) : option tcon :=
  match g with
  | None => Some (mktcon (tc_i c) (tc_space c) None (tc_out c))
  | Some f =>
      if negb (Nat.eqb (tf_in f) 1) || negb (Nat.eqb (tf_inv f) 1) then None
      else if negb (Nat.eqb (tf_space f) (tc_space c)) then None
      else if existsb (fun t => negb (cmp_eqb t Equality)) (m_cmp (tc_i c)) then None
      else Some (mktcon (tc_i c) (tc_space c) g (tc_out c))
  end.
(** implicit.cc:104-108, comparisonType(comp): no check of rhsFunction_ *)
Definition set_type (c : tcon) (comp : list cmp) : tcon :=
  mktcon (impl_set_cmp (tc_i c) comp) (tc_space c) (tc_fun c) (tc_out c).
(** implicit.cc:212-220, rightHandSideFromConfig: what it does to output_, [v] being
    the value of the function at the configuration *)
Definition from_config (c : tcon) (v : list V) : tcon := mktcon (tc_i c) (tc_space c) (tc_fun c) v.
(** implicit.cc:86-93, rightHandSideAt(s): the constraint after the call and the
    vector returned *)
Definition at_time (c : tcon) (t : V) : tcon * list V :=
  let c' := match tc_fun c with
            | Some f => mktcon (tc_i c) (tc_space c) (tc_fun c) (tf_val f t)
            | None => c
            end in
  (c', tc_out c').

(** implicit.cc:114-136, a new constraint: no right hand side function, [o] is the
    vector of output_ (the neutral element of the output space) *)
Definition new_con (i : impl F) (space : nat) (o : list V) : tcon := mktcon i space None o.
Inductive top := SetFun (g : option tfun) | SetType (comp : list cmp) | FromConfig (v : list V) | AtTime (t : V).
Definition tstep (c : tcon) (o : top) : tcon :=
  match o with
  | SetFun g => match set_fun c g with Some c' => c' | None => c end
  | SetType comp => set_type c comp
  | FromConfig v => from_config c v
  | AtTime t => fst (at_time c t)
  end.

(** hierarchical-iterative.cc:589-598, rightHandSideAt(s): loop on constraints_.
    [set] is the virtual method rightHandSide(constraint, vector) of the solver,
    [psize] the parameterSize() of a constraint; each constraint comes with its right
    hand side function.  The result of [set] is not used. *)
Fixpoint at_all {St C} (set : St -> C -> list V -> option (St * bool)) (psize : C -> nat)
  (s : St) (cs : list (C * option (V -> list V))) (t : V) : option St :=
  match cs with
  | [] => Some s
  | (c, g) :: r =>
      match g with
      | Some f =>
          if negb (Nat.eqb (psize c) 0)
          then match set s c (f t) with Some (s', _) => at_all set psize s' r t | None => None end
          else at_all set psize s r t
      | None => at_all set psize s r t
      end
  end.
(** [gs]: the right hand side functions of the constraints, in the order of
    constraints_ *)
Variable feq : F -> F -> bool.
Variable zero : V.
Definition hier_at (s : hs F V) (gs : list (option (V -> list V))) (t : V) : option (hs F V) :=
  at_all (fun s c x => set_rhs_of feq s (ic_f c) x) (fun c => m_psize (ic_i c)) s (combine (hcons s) gs) t.
Definition by_sub_at (s : bs F V) (gs : list (option (V -> list V))) (t : V) : option (bs F V) :=
  at_all (bset_of feq zero) (fun c => m_psize (ic_i (bc_c c))) s (combine (bs_cons s) gs) t.
End Time.
Arguments tfun : clear implicits.
Arguments tcon : clear implicits.
Arguments top : clear implicits.
