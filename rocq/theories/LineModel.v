(** Model of the line searches.

    Source: /repo/include/hpp/constraints/solver/impl/hierarchical-iterative.hh lines
    39-124 (Constant, Backtracking, computeLocalSlope, FixedSequence, ErrorNormBased),
    /repo/src/solver/hierarchical-iterative.cc lines 84-112 (constructors).

    Numbers are reals (rounding is not modelled).  Q: configurations, D: velocities,
    [integrate] is HierarchicalIterative::integrate, [scale a u] is a * u, [f] is the
    residual error (computeValue<false>; computeError; residualError). *)
From Coq Require Import Reals List Rtrigo_def.
Import ListNotations.
Open Scope R_scope.

Section Line.
Context {Q D : Type}.
Variables (integrate : Q -> D -> Q) (scale : R -> D -> D) (f : Q -> R).

(** lines 39-45; result: value, arg, darg *)
Definition constant (arg : Q) (darg : D) : bool * Q * D := (true, integrate arg darg, darg).

(** hierarchical-iterative.cc:91: (alpha, alphaMax, K) *)
Record fixed := mkfixed { fx_alpha : R; fx_max : R; fx_K : R }.
Definition fixed_new : fixed := mkfixed (2 / 10) (95 / 100) (8 / 10).
(** lines 103-110 *)
Definition fixed_step (s : fixed) (arg : Q) (darg : D) : fixed * (bool * Q * D) :=
  let d := scale (fx_alpha s) darg in
  (mkfixed (fx_max s - fx_K s * (fx_max s - fx_alpha s)) (fx_max s) (fx_K s), (true, integrate arg d, d)).

(** atanh, as in <cmath> on (-1, 1) *)
Definition atanh (x : R) : R := ln ((1 + x) / (1 - x)) / 2.
(** hierarchical-iterative.cc:95-108: (C, K, a, b) *)
Record enb := mkenb { en_C : R; en_K : R; en_a : R; en_b : R }.
Definition enb_new3 (alphaMin a b : R) : enb := mkenb (1 / 2 + alphaMin / 2) ((1 - alphaMin) / 2) a b.
Definition delta : R := 2 / 100.
Definition r_half : R := 1000000.
Definition enb_new (alphaMin : R) : enb :=
  let C := 1 / 2 + alphaMin / 2 in
  let K := (1 - alphaMin) / 2 in
  let a := atanh ((delta - 1 + C) / K) / (1 - r_half) in
  mkenb C K a (- r_half * a).
(** lines 112-121: factor for the ratio r = residual / squared threshold *)
Definition enb_alpha (s : enb) (r : R) : R := en_C s - en_K s * tanh (en_a s * r + en_b s).
Definition enb_step (s : enb) (thr2 : R) (arg : Q) (darg : D) : bool * Q * D :=
  let d := scale (enb_alpha s (f arg / thr2)) darg in (true, integrate arg d, d).

(** hierarchical-iterative.cc:87: (c, tau, smallAlpha) *)
Record bt := mkbt { bt_c : R; bt_tau : R; bt_small : R }.
Definition bt_new : bt := mkbt (1 / 1000) (7 / 10) (2 / 10).
(** lines 88-101, computeLocalSlope: levels given by the rows of their reduced
    Jacobian and their errors on these rows *)
Definition dot (a b : list R) : R := fold_right Rplus 0 (map (fun p => fst p * snd p) (combine a b)).
Definition local_slope (levels : list (list (list R) * list R)) (dq : list R) : R :=
  fold_left (fun s l => s + dot (map (fun row => dot row dq) (fst l)) (snd l)) levels 0.
(** lines 62-79, loop over alpha; None: fuel exhausted *)
Fixpoint bt_loop (fuel : nat) (s : bt) (t f0 : R) (arg : Q) (u : D) (alpha : R) : option (option (Q * D)) :=
  if Rlt_dec (bt_small s) alpha then
    match fuel with
    | O => None
    | S n =>
        let d := scale alpha u in
        let q := integrate arg d in
        if Rle_dec (- alpha * t) (f0 - f q) then Some (Some (q, d)) else bt_loop n s t f0 arg u (alpha * bt_tau s)
    end
  else Some None.
(** lines 47-86 *)
Definition bt_step (fuel : nat) (s : bt) (slope : R) (arg : Q) (u : D) : option (bool * Q * D) :=
  let t := 2 * bt_c s * slope in
  let failed := let d := scale (bt_small s) u in (false, integrate arg d, d) in
  if Rlt_dec 0 t then Some failed
  else match bt_loop fuel s t (f arg) arg u 1 with
       | None => None
       | Some (Some (q, d)) => Some (true, q, d)
       | Some None => Some failed
       end.
End Line.
