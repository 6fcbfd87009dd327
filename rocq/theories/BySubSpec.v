(** Specification vocabulary for the solver by substitution: everything is stated on
    the sequence of accepted constraints, each with the way it is treated. *)
From Coq Require Import ZArith List.
From Verif Require Import SegSpec SegModel EcsModel EcsSpec EcsRhsModel EcsRhsSpec ImplModel ImplSpec HierModel HierSpec BySubModel.
Import ListNotations.

Section Spec.
Context {F V : Type}.
Variable feq : F -> F -> bool.
Variable zero : V.
Variable iadd : Z -> Z -> Z.
Variable mem : imp V -> list V -> Prop.
Variable okq : (Z -> V) -> Prop.
Variable P : con V (list V) -> Prop.
Variables n m : Z.
Notation bc := (bc F V).
Notation bs := (bs F V).

Inductive how := Explicitly | Numerically (p : nat).

(** the constraint has the right sizes; its explicit part belongs to the family P *)
Definition wf_bc (c : bc) : Prop :=
  wf_ic zero mem okq (bc_c c) /\ length (ic_adp (bc_c c)) = Z.to_nat m /\
  forall x, bc_con c = Some x -> P x.

Definition is_explicit (a : bc * how) : bool := match snd a with Explicitly => true | _ => false end.
Definition explicit_ones (l : list (bc * how)) : list bc := map fst (filter is_explicit l).
(** their explicit formulations *)
Definition excons (l : list (bc * how)) : list (con V (list V)) :=
  flat_map (fun c => match bc_con c with Some x => [x] | None => [] end) (explicit_ones l).
Definition numeric_ones (l : list (bc * how)) : list (ic F V * nat) :=
  flat_map (fun a => match snd a with Numerically p => [(bc_c (fst a), p)] | Explicitly => [] end) l.

(** States reached through the interface. *)
Inductive breach : bs -> list (bc * how) -> Prop :=
| br_init : breach (bs_init n m) []
| br_explicit s l c p fuel s' : breach s l -> wf_bc c -> badd feq iadd fuel s c p = (s', BYes) ->
    bs_ex s' = bs_ex s ++ [c] -> breach s' (l ++ [(c, Explicitly)])
| br_numeric s l c p fuel s' : breach s l -> wf_bc c -> badd feq iadd fuel s c p = (s', BYes) ->
    bs_ex s' = bs_ex s -> breach s' (l ++ [(c, Numerically p)])
| br_set s l c x s' b : breach s l ->
    (forall d h, In (d, h) l -> feq (bc_f d) (bc_f c) = true -> mem (ic_s (bc_c d)) x) ->
    bset_of feq zero s c x = Some (s', b) -> breach s' l
| br_whole s l v s' : breach s l ->
    (let cs := map (fun c => ic_s (bc_c c)) (explicit_ones l) in rhs_vector mem cs (firstn (total_size cs) v)) ->
    bset_whole zero s v = Some s' -> breach s' l
| br_config s l q s' : breach s l -> okq q -> bconfig zero s q = Some s' -> breach s' l
| br_optional s l b : breach s l ->
    let h := bs_h s in
    breach (mkbs (mkhs (lvls h) (prio h) (iqm h) (ivm h) (hcons h) b) (bs_e s) (bs_ex s) (bs_cons s) (bs_free s)) l.

(** an equal constraint has been accepted *)
Definition present (l : list (bc * how)) (c : bc) : Prop :=
  exists d h, In (d, h) l /\
    same_constraint feq (mkkcon (ic_i (bc_c d)) (bc_k d)) (mkkcon (ic_i (bc_c c)) (bc_k c)).
(** a constraint with the same function is treated numerically *)
Definition function_present (l : list (bc * how)) (c : bc) : Prop :=
  exists d p, In (d, Numerically p) l /\ feq (bc_f d) (bc_f c) = true.

(** the function of c depends on velocity variable i *)
Definition uses (c : ic F V) (i : Z) : Prop := (0 <= i)%Z /\ nth_error (ic_adp c) (Z.to_nat i) = Some true.
(** ... or on an output of explicit constraints computed from i *)
Definition reaches (ex : list (con V (list V))) (c : ic F V) (i : Z) : Prop :=
  uses c i \/ exists o d, uses c o /\ In d ex /\ covers (c_outv d) o /\ needsv ex d i.
Definition free_var (ex : list (con V (list V))) (i : Z) : Prop := (0 <= i < m)%Z /\ ~ outputv ex i.

(** row r of a level: row r0 of constraint number k, which is active in its mask *)
Definition active_row (cs : list (ic F V)) (r : Z) (k : nat) (c : ic F V) : Prop :=
  exists r0, nth_error cs k = Some c /\ nth_error (m_mask (ic_i c)) r0 = Some true /\
    r = Z.of_nat (sum_nv (firstn k cs) + r0).
End Spec.
