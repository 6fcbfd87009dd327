(** Model of the saturation of configurations.

    Source: /repo/src/solver/hierarchical-iterative.cc lines 113-174 (saturation::Base,
    clamp, Bounds, Device), 645-667 (computeSaturation), 700-707 (integrate).

    Scalars: an abstract type V with <= ([leb v w] is the C++ v <= w, hence false when
    an operand is NaN).  Vectors are functions of the index; a call is described by
    the written vector, the written flags and the returned boolean. *)
From Coq Require Import ZArith List Bool.
From Verif Require Import ViewModel.
Import ListNotations.
Open Scope Z_scope.

Section Sat.
Context {V : Type}.
Variable leb : V -> V -> bool.

(** lines 121-136: (vsat, s, returned value) *)
Definition clamp (lb ub v : V) : V * Z * bool :=
  if leb v lb then (lb, -1, true)
  else if leb ub v then (ub, 1, true)
  else (v, 0, false).

Record sst := mksst { qs : Z -> V; fl : Z -> Z; ret : bool }.
Definition upd {A} (f : Z -> A) (i : Z) (x : A) : Z -> A := fun j => if j =? i then x else f j.

(** one call clamp(lb[iq], ub[iq], q[iq], qSat[iq], saturation[iv]) *)
Definition sat_one (lb ub q : Z -> V) (s : sst) (p : Z * Z) : sst :=
  let '(v, f, b) := clamp (lb (fst p)) (ub (fst p)) (q (fst p)) in
  mksst (upd (qs s) (fst p) v) (upd (fl s) (snd p) f) (b || ret s).
Definition sat_list (lb ub q : Z -> V) (l : list (Z * Z)) (s : sst) : sst := fold_left (sat_one lb ub q) l s.

(** the same calls when q and qSat are the same vector (line 706: saturate(result, result, ..)) *)
Definition sat_one_in_place (lb ub : Z -> V) (s : sst) (p : Z * Z) : sst := sat_one lb ub (qs s) s p.
Definition sat_list_in_place (lb ub : Z -> V) (l : list (Z * Z)) (s : sst) : sst := fold_left (sat_one_in_place lb ub) l s.

(** 0, 1, ..., n-1 *)
Definition zrange (n : Z) : list Z := map Z.of_nat (seq 0 (Z.to_nat n)).

(** lines 138-144, Bounds::saturate: (configuration index, velocity index) pairs *)
Definition bounds_pairs (n : Z) (iq2iv : Z -> Z) : list (Z * Z) := map (fun i => (i, iq2iv i)) (zrange n).

(** lines 146-174, Device::saturate: the joints but the first one (the universe), each
    (nq, nv, idx_q, idx_v), then the extra configuration variables. *)
Record joint := mkjoint { j_nq : Z; j_nv : Z; j_iq : Z; j_iv : Z }.
Definition joint_pairs (j : joint) : list (Z * Z) :=
  map (fun k => (j_iq j + k, j_iv j + Z.min k (j_nv j - 1))) (zrange (j_nq j)).
Definition device_pairs (joints : list joint) (mnq mnv d : Z) : list (Z * Z) :=
  flat_map joint_pairs joints ++ map (fun k => (mnq + k, mnv + k)) (zrange d).

(** lines 114-119, Base::saturate *)
Definition base_saturate (q : Z -> V) : sst := mksst q (fun _ => 0) false.
End Sat.
Arguments sst : clear implicits.

(** lines 645-667, computeSaturation, for one level: [sat] the flags, [free] the free
    velocity variables, [err] the active rows of the error, [J] the reduced
    Jacobian.  K: the field of scalars; [neg x]: x < 0; [ofZ]: cast of a flag. *)
Section Comp.
Context {K : Type}.
Variables (zero : K) (kadd kmul : K -> K -> K) (neg : K -> bool) (ofZ : Z -> K).
(** coefficient j of J^T e *)
Fixpoint tdot (J : mat K) (e : list K) (j i : Z) : K :=
  match e with [] => zero | x :: t => kadd (kmul (at_ J i j) x) (tdot J t j (i + 1)) end.
(** line 660-662, tmpSat_ *)
Definition tmp_sat (sat : Z -> Z) (free : list Z) (J : mat K) (e : list K) (j : Z) : bool :=
  match nth_error free (Z.to_nat j) with
  | Some v => neg (kmul (ofZ (sat v)) (tdot J e j 0))
  | None => false
  end.
(** lines 663-664 *)
Definition saturate_jacobian (sat : Z -> Z) (free : list Z) (J : mat K) (e : list K) : mat K :=
  mkmat (nr J) (nc J) (fun i j => if tmp_sat sat free J e j then zero else at_ J i j).
(** lines 645-664: nothing is done when no variable reached a bound *)
Definition compute_saturation (applied : bool) (sat : Z -> Z) (free : list Z) (J : mat K) (e : list K) : mat K :=
  if applied then saturate_jacobian sat free J e else J.
End Comp.
