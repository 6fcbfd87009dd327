(** One step of the resolution.

    Source: /repo/include/hpp/constraints/solver/by-substitution.hh lines 211-214 (isSatisfied), 250-258
    (oneStep), /repo/include/hpp/constraints/solver/hierarchical-iterative.hh lines 338-342 (isSatisfied),
    468 (residualError), /repo/include/hpp/constraints/solver/impl/hierarchical-iterative.hh lines 39-121
    (line searches), /repo/src/solver/hierarchical-iterative.cc line 204 (squaredNorm_ (0)).

    The numerical steps are parameters as in SolveModel.v.  What SolveModel.v hides is made visible: the line
    searches read the member squaredNorm_ and the data of the levels.
      E q        what computeValue(q); computeError() store in squaredNorm_
      dat q      errors and reduced Jacobians after computeValue<true>(q); updateJacobian(q)
      sat q      computeSaturation(q), acting on these data
      dir        computeDescentDirection()
      esolve     explicit_.solve; None = exception FunctionNotDefinedForThisValue
      esat       explicit_.isSatisfied
      lsearch    line search: its own state, squaredNorm_, data, configuration, dq_ *)
From Coq Require Import ZArith Reals List Bool.
From Verif Require Import SolveModel LineModel SatModel ViewModel.
Import ListNotations.

Section One.
Context {Q D Dat LS V : Type}.
Variables (ltb : V -> V -> bool) (thr : V) (E : Q -> V) (dat : Q -> Dat) (sat : Q -> Dat -> Dat) (dir : Dat -> D).
Variables (esolve : Q -> option Q) (esat : Q -> bool) (lsearch : LS -> V -> Dat -> Q -> D -> option (Q * D * LS)).
(** members that survive a call *)
Record ost := mkos { o_norm : V; o_ls : LS }.
(** hierarchical-iterative.hh:338-342 *)
Definition h_satisfied (s : ost) (q : Q) : bool * ost := (ltb (E q) thr, mkos (E q) (o_ls s)).
(** by-substitution.hh:211-214 *)
Definition b_satisfied (s : ost) (q : Q) : bool * ost := let '(b, s') := h_satisfied s q in (b && esat q, s').
(** by-substitution.hh:250-258; computeError and computeSaturation are not called; None: the exception
    leaves the function *)
Definition one_step (s : ost) (arg : Q) : option (bool * Q * ost) :=
  let d := dat arg in
  match lsearch (o_ls s) (o_norm s) d arg (dir d) with
  | None => None
  | Some (a1, _, ls') =>
      match esolve a1 with
      | None => None
      | Some a2 => let '(b, s') := h_satisfied (mkos (o_norm s) ls') a2 in Some (b, a2, s')
      end
  end.
(** k calls in a row *)
Fixpoint steps (k : nat) (s : ost) (arg : Q) : option (Q * ost) :=
  match k with
  | O => Some (arg, s)
  | S k' => match one_step s arg with None => None | Some (_, a, s') => steps k' s' a end
  end.
(** impl_solve calls the same functions in this way (impl/by-substitution.hh lines 96-113): computeError was
    called at the configuration, computeSaturation is called *)
Definition descent_of (s : LS) (q : Q) : D * LS := (dir (sat q (dat q)), s).
Definition lsearch_of (s : LS) (q : Q) (d : D) : option (Q * D * LS) := lsearch s (E q) (sat q (dat q)) q d.
End One.
Arguments ost : clear implicits.

(** The line searches reading squaredNorm_ *)
Section Searches.
Context {Q D : Type}.
Variables (integrate : Q -> D -> Q) (scale : R -> D -> D) (f : Q -> R).
(** lines 112-121, [norm]: squaredNorm_ *)
Definition enb_with (s : enb) (thr2 norm : R) (arg : Q) (darg : D) : bool * Q * D :=
  let d := scale (enb_alpha s (norm / thr2)) darg in (true, integrate arg d, d).
(** lines 47-86, f_arg_norm2 = [norm] *)
Definition bt_with (fuel : nat) (s : bt) (slope norm : R) (arg : Q) (u : D) : option (bool * Q * D) :=
  let t := (2 * bt_c s * slope)%R in
  let failed := let d := scale (bt_small s) u in (false, integrate arg d, d) in
  if Rlt_dec 0 t then Some failed
  else match bt_loop integrate scale f fuel s t norm arg u 1 with
       | None => None
       | Some (Some (q, d)) => Some (true, q, d)
       | Some None => Some failed
       end.
End Searches.

(** One equation a x + b y = c in two bounded variables.  dat: (coefficients, error).  The step is the
    pseudo-inverse of one row (hierarchical-iterative.cc:752-762 with one level of one row). *)
Section Two.
Open Scope R_scope.
Variables (a b c lx ux ly uy : R).
Definition lebR (x y : R) : bool := if Rle_dec x y then true else false.
Definition ltbR (x y : R) : bool := if Rlt_dec x y then true else false.
Definition two_err (q : R * R) : R := a * fst q + b * snd q - c.
Definition two_E (q : R * R) : R := two_err q * two_err q.
Definition two_dat (q : R * R) : (R * R) * R := ((a, b), two_err q).
(** hierarchical-iterative.cc:645-667 *)
Definition two_flag (l u x : R) : Z := let '(_, z, _) := clamp lebR l u x in z.
Definition two_sat (q : R * R) (d : (R * R) * R) : (R * R) * R :=
  let '((j1, j2), e) := d in
  ((if ltbR (IZR (two_flag lx ux (fst q)) * (j1 * e)) 0 then 0 else j1,
    if ltbR (IZR (two_flag ly uy (snd q)) * (j2 * e)) 0 then 0 else j2), e).
Definition two_dir (d : (R * R) * R) : R * R :=
  let '((j1, j2), e) := d in
  let n := j1 * j1 + j2 * j2 in if Rlt_dec 0 n then (- e / n * j1, - e / n * j2) else (0, 0).
(** hierarchical-iterative.cc:711-719, integrate and clamp *)
Definition two_clamp (l u x : R) : R := let '(v, _, _) := clamp lebR l u x in v.
Definition two_integrate (q d : R * R) : R * R := (two_clamp lx ux (fst q + fst d), two_clamp ly uy (snd q + snd d)).
(** impl/hierarchical-iterative.hh:39-45 *)
Definition two_constant (s : unit) (norm : R) (d : (R * R) * R) (q dq : R * R) : option ((R * R) * (R * R) * unit) :=
  let '(_, q', dq') := constant two_integrate q dq in Some (q', dq', s).
End Two.

(** The equation x = 0 in one variable without bounds *)
Section Single.
Open Scope R_scope.
Definition sg_E (x : R) : R := x * x.
Definition sg_dat (x : R) : R := x.
Definition sg_dir (e : R) : R := - e.
(** impl/hierarchical-iterative.hh:47-101, the Jacobian is 1 *)
Definition sg_backtracking (s : unit) (norm e x dq : R) : option (R * R * unit) :=
  match bt_with Rplus Rmult sg_E 6 bt_new (dq * e) norm x dq with Some (_, q', d') => Some (q', d', s) | None => None end.
Definition sg_error_norm (p : enb) (thr2 : R) (s : unit) (norm e x dq : R) : option (R * R * unit) :=
  let '(_, q', d') := enb_with Rplus Rmult p thr2 norm x dq in Some (q', d', s).
End Single.
