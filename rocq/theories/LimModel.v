(** Resolution under bounds on the configuration variables.

    Source: /repo/src/solver/hierarchical-iterative.cc lines 121-144 (clamp, Bounds::saturate), 653-672
    (computeSaturation), 711-719 (integrate), 744-823 (computeDescentDirection);
    /repo/include/hpp/constraints/solver/impl/hierarchical-iterative.hh lines 39-181 (line searches, solve).

    The loop is hsolve of SolveModel.v, clamp is the one of SatModel.v, the descent direction the one of
    DescentModel.v on the Jacobians left by computeSaturation.  As in NewtModel.v the configuration space
    is a vector space, all variables are free and all rows active; variable i is bounded by lo_i, hi_i
    (iq2iv_ is the identity). *)
From Coq Require Import Reals ZArith.
From mathcomp Require Import all_ssreflect all_algebra.
From Verif Require Import SolveModel LineModel SatModel DescentModel RField RReal AffModel NewtModel.
Set Implicit Arguments. Unset Strict Implicit. Unset Printing Implicit Defensive.
Import GRing.Theory Num.Theory.
Open Scope ring_scope.

Section Lim.
Variables (F : realFieldType) (n : nat).
Record limits := mklim { lo : 'cV[F]_n; hi : 'cV[F]_n }.
Variable lm : limits.
(** lines 121-136 at variable i: value, flag, reached *)
Definition clamp_at (q : 'cV[F]_n) (i : 'I_n) : F * Z * bool := clamp (fun a b : F => a <= b) (lo lm i 0) (hi lm i 0) (q i 0).
(** lines 138-144 *)
Definition saturated (q : 'cV[F]_n) : 'cV[F]_n := \col_i (clamp_at q i).1.1.
Definition flag (q : 'cV[F]_n) (i : 'I_n) : Z := (clamp_at q i).1.2.
Definition reached (q : 'cV[F]_n) : bool := [exists i, (clamp_at q i).2].
(** cast of the flags, which are -1, 0 and 1 *)
Definition flag_value (z : Z) : F := match z with Z0 => 0 | Zpos _ => 1 | Zneg _ => -1 end.
(** lines 665-667, tmpSat_ *)
Definition blocked (q : 'cV[F]_n) (l : level F n) (j : 'I_n) : bool := flag_value (flag q j) * ((jac l)^T *m err l) j 0 < 0.
(** lines 653-672, one level *)
Definition limited (q : 'cV[F]_n) (l : level F n) : level F n :=
  if reached q then mklevel (\matrix_(i, j) if blocked q l j then 0 else jac l i j) (err l) else l.
(** lines 711-719 *)
Definition lintegrate (q d : 'cV[F]_n) : 'cV[F]_n := saturated (q + d).
(** data of computeDescentDirection at q *)
Definition at_lim (q : 'cV[F]_n) (l : nlevel F n) : level F n := limited q (at_n q l).
(** the constraint a q = b alone in its level *)
Definition row_level (a : 'rV[F]_n) (b : F) : nlevel F n := mknl (fun q => a *m q - const_mx b) (fun _ => a) [:: 1%N].
(** the constraint A q = b, of all rows, alone in its level *)
Definition rows_level (m : nat) (A : 'M[F]_(m, n)) (b : 'cV[F]_m) : nlevel F n := mknl (fun q => A *m q - b) (fun _ => A) [:: m].
(** impl/hierarchical-iterative.hh:39-45 *)
Definition lls_constant (St : Type) (s : St) (q d : 'cV[F]_n) : 'cV[F]_n * 'cV[F]_n * St := let '(_, q', d') := constant lintegrate q d in (q', d', s).
End Lim.

(** The other line searches (impl/hierarchical-iterative.hh:47-121) *)
Section Searches.
Variables (n : nat) (lm : limits R_realFieldType n).
Notation vec := 'cV[R]_n.
Definition lls_fixed (s : fixed) (q d : vec) : vec * vec * fixed := let '(s', (_, q', d')) := fixed_step (lintegrate lm) (@vscale n) s q d in (q', d', s').
Definition lls_error_norm (St : Type) (ls : seq (nlevel R_realFieldType n)) (e : enb) (thr : R) (s : St) (q d : vec) : vec * vec * St :=
  let '(_, q', d') := enb_step (lintegrate lm) (@vscale n) (nresidual ls) e thr q d in (q', d', s).
(** computeLocalSlope reads the Jacobians that computeSaturation left *)
Definition lslope (ls : seq (nlevel R_realFieldType n)) (q d : vec) : R :=
  foldl (fun s l => s + ((jac (at_lim lm q l) *m d)^T *m err (at_lim lm q l)) 0 0) 0 ls.
(** five trials at most (C35_backtracking_trials); no result: the loop did not end *)
Definition lls_backtracking (St : Type) (ls : seq (nlevel R_realFieldType n)) (s : St) (q d : vec) : option (vec * vec * St) :=
  if bt_step (lintegrate lm) (@vscale n) (nresidual ls) 6 bt_new (lslope ls q d) q d is Some (_, q', d') then Some (q', d', s) else None.
End Searches.

(** BySubstitution under bounds.  Configurations (x, y) as in AffModel.v, x free, y given by the explicit constraint.
    Source: /repo/include/hpp/constraints/solver/by-substitution.hh lines 281-286,
    /repo/include/hpp/constraints/solver/impl/by-substitution.hh lines 38-168. *)
Section Sub.
Variables (F : realFieldType) (n p : nat) (lm : limits F n) (lmy : limits F p).
(** explicit_.solve where the explicit function may be undefined *)
Definition psolve (g : 'cV[F]_n -> option 'cV[F]_p) (c : conf F n p) : option (conf F n p) := if g c.1 is Some y then Some (c.1, y) else None.
(** by-substitution.hh:281-286; all variables are saturated, then the explicit ones are computed *)
Definition bintegrate (g : 'cV[F]_n -> 'cV[F]_p) (c : conf F n p) (d : 'cV[F]_n) : conf F n p :=
  let r := (lintegrate lm c.1 d, saturated lmy c.2) in (r.1, g r.1).
(** data of computeDescentDirection at c: the flags of the free variables are read.  Where only explicit
    variables reach a bound these are all 0 and no column is blocked. *)
Definition at_blim (G : 'M[F]_(p, n)) (l : blevel F n p) (c : conf F n p) : level F n := limited lm c.1 (at_c G l c).
(** the constraint a x + r y = b alone in its level *)
Definition row_blevel (a : 'rV[F]_n) (r : 'rV[F]_p) (b : F) : blevel F n p := mkbl a r (const_mx b) [:: 1%N].
(** impl/hierarchical-iterative.hh:39-45 *)
Definition bls_constant (St : Type) (g : 'cV[F]_n -> 'cV[F]_p) (s : St) (c : conf F n p) (d : 'cV[F]_n) : option (conf F n p * 'cV[F]_n * St) :=
  let '(_, c', d') := constant (bintegrate g) c d in Some (c', d', s).
End Sub.
Section SubSearches.
Variables (n p : nat) (lm : limits R_realFieldType n) (lmy : limits R_realFieldType p) (g : 'cV[R]_n -> 'cV[R]_p).
Notation vec := 'cV[R]_n.
Notation cnf := (conf R_realFieldType n p).
Definition bls_fixed (s : fixed) (c : cnf) (d : vec) : option (cnf * vec * fixed) :=
  let '(s', (_, c', d')) := fixed_step (bintegrate lm lmy g) (@vscale n) s c d in Some (c', d', s').
(** [res]: residual of the levels *)
Definition bls_error_norm (St : Type) (res : cnf -> R) (e : enb) (thr : R) (s : St) (c : cnf) (d : vec) : option (cnf * vec * St) :=
  let '(_, c', d') := enb_step (bintegrate lm lmy g) (@vscale n) res e thr c d in Some (c', d', s).
(** [sl]: computeLocalSlope *)
Definition bls_backtracking (St : Type) (res : cnf -> R) (sl : cnf -> vec -> R) (s : St) (c : cnf) (d : vec) : option (cnf * vec * St) :=
  if bt_step (bintegrate lm lmy g) (@vscale n) res 6 bt_new (sl c d) c d is Some (_, c', d') then Some (c', d', s) else None.
End SubSearches.
