(** Model of the accessors that stack the results of all levels in one vector or
    matrix, of the satisfaction tests of BySubstitution and of the active parameters.

    Source: /repo/src/solver/hierarchical-iterative.cc lines 338-349
            (activeParameters), 369-376 (dimension_), 674-692 (getValue,
            getReducedJacobian), 721-728 (residualError),
            /repo/include/hpp/constraints/solver/by-substitution.hh lines 199-238
            (errorSize, isSatisfied).

    The members datas_[i].output and datas_[i].error are those left by
    computeValue(q): the accessors take q as argument.  None = access outside the
    vector, sizes that do not match, or failed assertion. *)
From Coq Require Import ZArith List Bool Floats.SpecFloat.
From Verif Require Import SegModel ViewModel EcsModel EcsRhsModel NanModel ImplModel HierModel BySubModel.
Import ListNotations.
Local Open Scope nat_scope.

(** loops of lines 675-680 and 722-727: consecutive segments; also the final row *)
Fixpoint put_all {A} (v : list A) (row : nat) (xs : list (list A)) : option (list A * nat) :=
  match xs with
  | [] => Some (v, row)
  | x :: t => match set_segment v row x with
              | Some v' => put_all v' (row + length x) t
              | None => None
              end
  end.

Section Acc.
Context {F V : Type}.
Variable zero : V.

(** datas_[i].output: differentiable-function-set.hh:101-114 *)
Definition level_value (l : lvl F V) (q : Z -> V) : list V := concat (map (fun c => s_fun (ic_s c) q) (l_cons l)).
(** lines 674-682, with the assertion on the number of rows *)
Definition get_value (s : hs F V) (q : Z -> V) (v : list V) : option (list V) :=
  match put_all v 0 (map (fun l => level_value l q) (lvls s)) with
  | Some (w, row) => if Nat.eqb (length v) row then Some w else None
  | None => None
  end.
(** lines 369-376 *)
Definition dimension (s : hs F V) : nat := fold_left (fun n l => n + l_nv l) (lvls s) 0.

Section Err.
Variables (add sub : V -> V -> V) (neg : V -> V) (ltb : V -> V -> bool).
(** lines 721-728 *)
Definition residual_error (s : hs F V) (ineq_thr : V) (q : Z -> V) (error : list V) : option (list V) :=
  match errors_of zero add sub neg ltb ineq_thr (lvls s) q with
  | Some es => match put_all error 0 es with Some (w, _) => Some w | None => None end
  | None => None
  end.

(** Solver by substitution.  [dflt]: error threshold of the explicit set. *)
Variable sqn : list V -> spec_float.
Variables (sqthr dflt : spec_float) (ineq_thr : V).
(** explicit-constraint-set.cc:205, errorSize_ *)
Definition ex_error_size (s : bs F V) : nat := fold_left (fun n c => n + s_nv c) (bs_imps s) 0.
(** by-substitution.hh:204-206 *)
Definition error_size (s : bs F V) : Z := (Z.of_nat (dimension (bs_h s)) + cardinal (outDers (bs_e s)))%Z.
(** by-substitution.hh:211-214 and 220-223; [t]: threshold of the implicit part,
    squared; [u]: second argument of the test of the explicit set *)
Definition both (s : bs F V) (t u : spec_float) (q : Z -> V) : option bool :=
  match hsat zero add sub neg ltb sqn (bs_h s) ineq_thr t q with
  | Some true => Some (fst (is_satisfied sqn (bs_imps s) (rhsl (bs_e s)) q dflt u))
  | r => r
  end.
Definition bsat (s : bs F V) (q : Z -> V) : option bool := both s sqthr minus_one q.
Definition bsat_thr (s : bs F V) (q : Z -> V) (thr : spec_float) : option bool := both s (fmul thr thr) thr q.
(** by-substitution.hh:229-237 *)
Definition bsat_err (s : bs F V) (q : Z -> V) (error : list V) : option (bool * list V) :=
  let d := dimension (bs_h s) in
  if Nat.eqb (length error) (d + ex_error_size s)
  then match hsat zero add sub neg ltb sqn (bs_h s) ineq_thr sqthr q,
             residual_error (bs_h s) ineq_thr q (firstn d error) with
       | Some b, Some head =>
           let '(b', es) := is_satisfied sqn (bs_imps s) (rhsl (bs_e s)) q dflt minus_one in
           (* explicit-constraint-set.cc:80-84: the segments fill the tail *)
           match set_segment (skipn d error) 0 es with
           | Some tail => if Nat.eqb (length es) (ex_error_size s) then Some (b && b', head ++ tail) else None
           | None => None
           end
       | _, _ => None
       end
  else None.
End Err.

(** lines 338-349: arrays of the active parameters of the functions of each level; the
    array of a level: differentiable-function-set.hh:64-81 (see BySubModel.level_adp) *)
Fixpoint set_par (a : list bool) (fs : list (list bool)) : option (list bool) :=
  match fs with
  | [] => Some a
  | f :: t => match orb_all a f with Some b => set_par b t | None => None end
  end.
Definition level_par (fs : list (list bool)) : option (list bool) :=
  match fs with [] => Some [] | f :: t => set_par f t end.
Fixpoint par_loop (a : list bool) (ls : list (list (list bool))) : option (list bool) :=
  match ls with
  | [] => Some a
  | l :: t => match level_par l with
              | Some b => match orb_all a b with Some r => par_loop r t | None => None end
              | None => None
              end
  end.
Definition active_parameters (nq : nat) (ls : list (list (list bool))) : option (list bool) := par_loop (repeat false nq) ls.
End Acc.

(** lines 684-692: J.middleRows(row, r.rows()) = r *)
Fixpoint put_rows {K} (J : mat K) (row : Z) (rs : list (mat K)) : option (mat K * Z) :=
  match rs with
  | [] => Some (J, row)
  | r :: t => match put J row 0 (nr r) (nc J) (Z.eqb (nc r) (nc J)) (at_ r) with
              | Some J' => put_rows J' (row + nr r)%Z t
              | None => None
              end
  end.
Definition get_reduced_jacobian {K} (J : mat K) (rs : list (mat K)) : option (mat K) :=
  match put_rows J 0 rs with
  | Some (J', row) => if Z.eqb (nr J') row then Some J' else None
  | None => None
  end.
