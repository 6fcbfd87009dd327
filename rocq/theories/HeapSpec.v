(** Specification vocabulary for solvers sharing objects. *)
From Coq Require Import List Bool Arith.
From Verif Require Import HeapModel.
Import ListNotations.

Section S.
Context {F K R I : Type}.
Variables (feq : F -> F -> bool) (extract_ : R -> I -> R).

(** output sizes of a constraint, of a list of constraints *)
Definition size (w : world F K R) (p : nat) : nat * nat :=
  match nth_error (cells w) p with Some c => (cl_nq c, cl_nv c) | None => (0, 0) end.
Definition total (w : world F K R) (l : list nat) : nat * nat :=
  (list_sum (map (fun p => fst (size w p)) l), list_sum (map (fun p => snd (size w p)) l)).

(** Every level is evaluated in a space that has the dimension of its own constraints, as
    its vectors have. *)
Definition sound (w : world F K R) (s : slv F) : Prop :=
  forall l, In l (sv_levels s) -> nth_error (spaces w) (lv_out l) = Some (total w (lv_cons l)) /\ lv_len l = total w (lv_cons l).
(** The spaces are those of its own sets of functions. *)
Definition settled (s : slv F) : Prop := forall l, In l (sv_levels s) -> lv_out l = lv_own l.

Definition reach (st : state F K R) : Prop := exists l, run feq extract_ start l = Some st.

(** an operation that adds a constraint to solver [i] *)
Definition touches (o : op F K R I) (i : nat) : Prop := (exists c p, o = Add i c p) \/ (exists c, o = AddExplicit i c).

(** [r] is a copy of [s] with new constraints: nothing that existed changes, [g] gives the
    copy of each constraint of [s], the levels have the copies. *)
Definition copies (w w' : world F K R) (s r : slv F) (g : nat -> nat) : Prop :=
  (forall p, p < length (cells w) -> nth_error (cells w') p = nth_error (cells w) p) /\
  (forall a, a < length (spaces w) -> nth_error (spaces w') a = nth_error (spaces w) a) /\
  sv_cons r = seq (length (cells w)) (length (sv_cons s)) /\ length (cells w') = length (cells w) + length (sv_cons s) /\
  (forall p, In p (sv_cons s) -> In (g p) (sv_cons r)) /\ (forall p, ~ In p (sv_cons s) -> g p = p) /\
  map lv_cons (sv_levels r) = map (fun lv => map g (lv_cons lv)) (sv_levels s) /\ sv_iq r = sv_iq s.

(** a constraint with its right hand side function restricted to an interval *)
Definition extracted (i : I) (c : cell F K R) : cell F K R :=
  mkcell (cl_f c) (cl_nq c) (cl_nv c) (cl_cmp c) (option_map (fun f => extract_ f i) (cl_rhs c)).
(** function and comparison type of the explicit constraints *)
Definition ex_data (w : world F K R) (s : slv F) : list (option (F * K)) :=
  map (fun p => option_map (fun c => (cl_f c, cl_cmp c)) (nth_error (cells w) p)) (sv_ex s).
End S.
