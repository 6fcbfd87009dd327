(** Specification vocabulary for the hierarchical solver: everything is stated on
    the sequence of accepted additions (constraint, priority). *)
From Coq Require Import ZArith List Floats.SpecFloat.
From Verif Require Import SegSpec EcsModel EcsRhsModel EcsRhsSpec NanModel ImplModel ImplSpec HierModel.
Import ListNotations.
Local Open Scope nat_scope.

Section Spec.
Context {F V : Type}.
Variable feq : F -> F -> bool.
Variable zero : V.
Notation ic := (ic F V).
Notation hs := (hs F V).

(** [mem c x]: x represents an element of the output space of c; [okq q]: q is a
    valid configuration (see EcsRhsSpec) *)
Variable mem : imp V -> list V -> Prop.
Variable okq : (Z -> V) -> Prop.

(** the members of a constraint have the sizes of its function's output space *)
Definition wf_ic (c : ic) : Prop :=
  m_cmp (ic_i c) = s_cmp (ic_s c) /\ length (m_mask (ic_i c)) = s_nv (ic_s c) /\
  impl_reach (ic_i c) /\ wf_imp zero mem okq (ic_s c) /\
  (forall q, length (s_fun (ic_s c) q) = s_nq (ic_s c)) /\
  (forall x y, length x = s_nq (ic_s c) -> length y = s_nq (ic_s c) ->
     length (s_minus (ic_s c) x y) = s_nv (ic_s c)).

(** constraints added with priority p, in order *)
Definition at_level (adds : list (ic * nat)) (p : nat) : list ic :=
  map fst (filter (fun a => Nat.eqb (snd a) p) adds).
(** sizes taken by the constraints of a list *)
Definition sum_nq (cs : list ic) : nat := list_sum (map (fun c => s_nq (ic_s c)) cs).
Definition sum_nv (cs : list ic) : nat := list_sum (map (fun c => s_nv (ic_s c)) cs).
(** number of levels *)
Definition nlevels (adds : list (ic * nat)) : nat := list_max (map (fun a => S (snd a)) adds).

(** all constraints, level by level *)
Definition in_order (adds : list (ic * nat)) : list ic :=
  concat (map (at_level adds) (seq 0 (nlevels adds))).

(** States reached by calls of the interface, with the accepted additions. *)
Inductive hreach : hs -> list (ic * nat) -> Prop :=
| hr_init : hreach hs_init []
| hr_add s adds c p s' : hreach s adds -> wf_ic c -> hadd feq s c p = Some s' -> hreach s' (adds ++ [(c, p)])
| hr_update s adds : hreach s adds -> hreach (update s) adds
| hr_rhs s adds f x s' b : hreach s adds -> set_rhs_of feq s f x = Some (s', b) -> hreach s' adds
| hr_config_of s adds c q s' b : hreach s adds -> rhs_config_of feq zero s c q = Some (s', b) -> hreach s' adds
| hr_config s adds q s' : hreach s adds -> okq q -> rhs_config zero s q = Some s' -> hreach s' adds
| hr_whole s adds v s' : hreach s adds -> set_rhs_whole s v = Some s' -> hreach s' adds
| hr_optional s adds b : hreach s adds ->
    hreach (mkhs (lvls s) (prio s) (iqm s) (ivm s) (hcons s) b) adds.

(** equality of functions is an equivalence *)
Definition equivalence : Prop :=
  (forall f, feq f f = true) /\ (forall f g, feq f g = true -> feq g f = true) /\
  (forall f g h, feq f g = true -> feq g h = true -> feq f h = true).

(** error of one row: masked rows are zero, inequality rows are compared *)
Section Row.
Variables (add sub : V -> V -> V) (neg : V -> V) (ltb : V -> V -> bool).
Definition row_error (thr : V) (t : cmp) (active : bool) (x : V) : V :=
  let y := if active then x else zero in
  match t with
  | Superior => if ltb y thr then sub y thr else zero
  | Inferior => if ltb (neg thr) y then add y thr else zero
  | _ => y
  end.
Fixpoint rows_error (thr : V) (ts : list cmp) (ms : list bool) (xs : list V) : list V :=
  match ts, ms, xs with
  | t :: ts', m :: ms', x :: xs' => row_error thr t m x :: rows_error thr ts' ms' xs'
  | _, _, _ => []
  end.
(** error of a constraint with right hand side r *)
Definition con_error (thr : V) (c : ic) (q : Z -> V) (r : list V) : list V :=
  rows_error thr (s_cmp (ic_s c)) (m_mask (ic_i c)) (s_minus (ic_s c) (s_fun (ic_s c) q) r).
End Row.
(** only the mask applied *)
Definition masked (ms : list bool) (xs : list V) : list V :=
  map (fun p => if fst p : bool then snd p else zero) (combine ms xs).
End Spec.
