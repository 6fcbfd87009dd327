(** Model of the resolution loops.

    Source: /repo/include/hpp/constraints/solver/impl/hierarchical-iterative.hh lines
    126-181 (HierarchicalIterative::solve),
    /repo/include/hpp/constraints/solver/impl/by-substitution.hh lines 38-168
    (BySubstitution::impl_solve).

    The numerical steps are parameters, so that the results hold for every behaviour
    of the linear algebra: Q configurations, D steps, St the hidden state of the solver
    (saturation flags, ranks, line search, ...).
      E q        residual squaredNorm_ after computeValue(q); computeError()
      C q        cost: squared norm of the error of the last level
      descent    (update of the Jacobian, saturation and) descent direction at q
      lsearch    line search: new configuration, new dq_; None = exception
                 FunctionNotDefinedForThisValue
      esolve     explicit_.solve; None = the same exception
    V: doubles, with ltb a b the C++ a < b. *)
From Coq Require Import ZArith List Bool.
Import ListNotations.
Open Scope Z_scope.

(** solver/hierarchical-iterative.hh:232-237 *)
Inductive status := ERROR_INCREASED | MAX_ITERATION_REACHED | INFEASIBLE | SUCCESS.

Section Solve.
Context {Q D St V : Type}.
Variables (ltb : V -> V -> bool) (E : Q -> V).
Variables (descent : St -> Q -> D * St) (dnorm : D -> V) (dmin : V).
Variables (thr : V) (maxit : Z) (rdim : Z).

(** HierarchicalIterative::solve; the status is None while it is uninitialised.  The
    result is (status, configuration, visited configurations - latest first). *)
Section Hier.
Variables (lsearch : St -> Q -> D -> Q * D * St) (inf : V).
(** lines 147-171; None: fuel exhausted.  A call is described by the hidden state, the
    visited configurations, squaredNorm_, previousSquaredNorm, errorDecreased, iter
    and status. *)
Fixpoint hloop (fuel : nat) (s : St) (arg : Q) (past : list Q) (sn prev : V) (ed iter : Z) (st : option status)
  : option (option status * Q * list Q * V * Z) :=
  if ltb thr sn && negb (ed =? 0) && (iter <? maxit) then
    match fuel with
    | O => None
    | S f =>
        let '(dq, s1) := descent s arg in
        if ltb (dnorm dq) dmin then Some (Some INFEASIBLE, arg, past, sn, iter)
        else
          let '(arg', _, s2) := lsearch s1 arg dq in
          let sn' := E arg' in
          let ed' := if ltb sn' prev then 3 else ed - 1 in
          let st' := if ltb sn' prev then st else Some ERROR_INCREASED in
          hloop f s2 arg' (arg :: past) sn' sn' ed' (iter + 1) st'
    end
  else Some (st, arg, past, sn, iter).
(** lines 126-181 *)
Definition hsolve (fuel : nat) (s : St) (arg : Q) : option (option status * Q * list Q * Z) :=
  let sn := E arg in
  if ltb thr sn && (rdim =? 0) then Some (Some INFEASIBLE, arg, [], 0)
  else
    match hloop fuel s arg [] sn inf 3 0 None with
    | None => None
    | Some (st, arg', past, sn', iter) =>
        if ltb thr sn'
        then Some (if maxit <=? iter then Some MAX_ITERATION_REACHED else st, arg', past, iter)
        else Some (Some SUCCESS, arg', past, iter)
    end.
End Hier.

(** BySubstitution::impl_solve *)
Section BySub.
Variables (C : Q -> V) (lsearch : St -> Q -> D -> option (Q * D * St)) (esolve : Q -> option Q).
(** .25 * x, x / 2, x * 2, x < 0.5, 1.; dq * x, dq / x *)
Variables (quarter half dbl : V -> V) (below_half : V -> bool) (one zero : V).
Variables (dmul ddiv : D -> V -> D).

(** local variables; [b_prev] and [b_dq] are uninitialised (None) before the first
    iteration; [b_nd] counts the descent directions computed. *)
Record bst := mkb {
  b_s : St; b_arg : Q; b_sn : V; b_prev : option V; b_dq : option D; b_ed : Z; b_iter : Z;
  b_above : bool; b_cost : V; b_scal : V; b_only : bool; b_qopt : option Q; b_nd : Z; b_past : list Q }.

(** result of the loop: broken off or finished with (status, state); exception;
    read of an uninitialised variable *)
Inductive bres := Bend (st : status) (b : bst) | Bexc | Buninit | Bfuel.

(** lines 85-152 *)
Fixpoint bloop (opt : bool) (fuel : nat) (st : status) (b : bst) : bres :=
  if opt || (b_above b && negb (b_ed b =? 0)) then
    if maxit <=? b_iter b then Bend MAX_ITERATION_REACHED b
    else
      match fuel with
      | O => Bfuel
      | S f =>
          let '(prev, dq0, s1, nd) :=
            if b_only b then (b_prev b, b_dq b, b_s b, b_nd b)
            else let '(dq, s) := descent (b_s b) (b_arg b) in (Some (b_sn b), Some dq, s, b_nd b + 1) in
          match prev, dq0 with
          | Some pv, Some dq0 =>
              let dq := if opt then dmul dq0 (b_scal b) else dq0 in
              if ltb (dnorm dq) dmin
              then Bend INFEASIBLE (mkb s1 (b_arg b) (b_sn b) prev (Some dq) (b_ed b) (b_iter b) (b_above b) (b_cost b) (b_scal b) (b_only b) (b_qopt b) nd (b_past b))
              else
                match lsearch s1 (b_arg b) dq with
                | None => Bexc
                | Some (a1, dq1, s2) =>
                    match esolve a1 with
                    | None => Bexc
                    | Some a2 =>
                        let sn := E a2 in
                        let ed := if ltb sn pv then 3 else b_ed b - 1 in
                        let st' := if ltb sn pv then SUCCESS else ERROR_INCREASED in
                        let above := ltb (quarter thr) sn in
                        let past := b_arg b :: b_past b in
                        if opt then
                          if negb above then
                            if ltb (C a2) (b_cost b)
                            then bloop opt f st' (mkb s2 a2 sn (Some pv) (Some dq1) ed (b_iter b + 1) above (C a2) (if below_half (b_scal b) then dbl (b_scal b) else b_scal b) false (Some a2) nd past)
                            else bloop opt f st' (mkb s2 a2 sn (Some pv) (Some dq1) ed (b_iter b + 1) above (b_cost b) (b_scal b) false (b_qopt b) nd past)
                          else
                            let past2 := a2 :: past in
                            bloop opt f st' (mkb s2 (match b_qopt b with Some x => x | None => a2 end) sn (Some pv) (Some (ddiv dq1 (b_scal b))) ed (b_iter b + 1)
                                           above (b_cost b) (half (b_scal b)) true (b_qopt b) nd past2)
                        else bloop opt f st' (mkb s2 a2 sn (Some pv) (Some dq1) ed (b_iter b + 1) above (b_cost b) (b_scal b) (b_only b) (b_qopt b) nd past)
                    end
                end
          | _, _ => Buninit
          end
      end
  else Bend st b.

(** result: status and configuration; [Thrown]: INFEASIBLE returned from an exception
    handler, the configuration is then whatever the interrupted step left *)
Inductive sres := Done (st : status) (arg : Q) (b : bst) | Thrown | Early (arg : Q) | Uninit | NoFuel.

Definition binit (s : St) (opt : bool) (q1 : Q) : bst :=
  let sn := E q1 in
  let below := ltb sn thr in
  let above := ltb (quarter thr) sn in
  mkb s q1 sn None None 3 (if below && negb opt then Z.max maxit 2 - 2 else 0) above (if opt then C q1 else zero) one false
    (if opt && negb above then Some q1 else None) 0 [].
(** lines 38-168; [opt]: optimize && lastIsOptional_ *)
Definition bsolve (fuel : nat) (s : St) (opt : bool) (arg : Q) : sres :=
  match esolve arg with
  | None => Thrown
  | Some q1 =>
      let sn := E q1 in
      let below := ltb sn thr in
      if ltb (quarter thr) sn && (rdim =? 0) then Early q1
      else
        match bloop opt fuel SUCCESS (binit s opt q1) with
        | Bfuel => NoFuel
        | Buninit => Uninit
        | Bexc => Thrown
        | Bend st b =>
            if negb opt && below
            then Done SUCCESS (if ltb sn (b_sn b) then q1 else b_arg b) b
            else Done st (if opt then match b_qopt b with Some x => x | None => b_arg b end else b_arg b) b
        end
  end.
End BySub.
End Solve.
