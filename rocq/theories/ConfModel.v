(** ConfigurationConstraint: half of the weighted square distance to a configuration.
    Modelled from src/configuration-constraint.cc:43-127.

    The difference of configurations and its derivative are those of the configuration space
    (hpp-pinocchio): [diff q i] is coordinate [i] of (goal - q), [dd q i j] is what
    dDifference_dq0 gives.  Real numbers; vectors are lists or functions of the index. *)
From Coq Require Import Reals List Bool Arith.
Import ListNotations.
Local Open Scope R_scope.

Fixpoint rsum (n : nat) (f : nat -> R) : R := match n with O => 0 | S n => rsum n f + f n end.
(** joints 1 .. njoints - 1 of the model: idx_q, nq, idx_v, nv *)
Record jnt := Jnt { jiq : nat; jnq : nat; jiv : nat; jnv : nat }.
(** nv, nq: numberDof, configSize *)
Record dev := Dev { d_nq : nat; d_nv : nat; d_joints : list jnt }.
Record conf := Conf { c_w : list R; c_act : list bool; c_actd : list bool }.
Definition is0 (r : R) : bool := if Req_EM_T r 0 then true else false.

(** segment(i, n).setConstant(false); segments of the model are in bounds *)
Definition clear (i n : nat) (l : list bool) : list bool :=
  map (fun p => if ((i <=? fst p) && (fst p <? i + n))%nat then false else snd p) (combine (seq 0 (length l)) l).
Definition all_zero (ws : list R) (j : jnt) : bool := forallb is0 (firstn (jnv j) (skipn (jiv j) ws)).
(** weights, lines 80-102; [None]: throws *)
Definition set_weights (d : dev) (ws : list R) : option conf :=
  if (length ws =? d_nv d)%nat then
    let '(a, ad) := fold_left (fun s j => if all_zero ws j then (clear (jiq j) (jnq j) (fst s), clear (jiv j) (jnv j) (snd s)) else s)
                      (d_joints d) (repeat true (d_nq d), repeat true (length ws)) in
    Some (Conf ws a ad)
  else None.
(** create with a mask, lines 43-56; [None]: write out of bounds *)
Fixpoint mask_weights (ws : list R) (mask : list bool) : option (list R) :=
  match mask, ws with
  | [], _ => Some ws
  | true :: m, w :: ws' => option_map (cons w) (mask_weights ws' m)
  | false :: m, _ :: ws' => option_map (cons 0) (mask_weights ws' m)
  | true :: m, [] => mask_weights [] m
  | false :: _, [] => None
  end.
Definition create_mask (d : dev) (mask : list bool) : option conf :=
  match mask_weights (repeat 1 (d_nv d)) mask with Some ws => set_weights d ws | None => None end.

Section V.
Context {Q : Type}.
Variables (n : nat) (diff : Q -> nat -> R) (dd : Q -> nat -> nat -> R) (ws : list R).
Definition w (i : nat) : R := nth i ws 0.
(** impl_compute, lines 110-115 *)
Definition cc_value (q : Q) : R := / 2 * rsum n (fun i => w i * (diff q i * diff q i)).
(** impl_jacobian, lines 117-127 *)
Definition cc_jacobian (q : Q) (j : nat) : R := rsum n (fun i => diff q i * dd q i j) * w j.
End V.

(** * Instance: a robot with one joint in SO(3), configurations are rotations.
    goal - a = log (a^T goal); its derivative with respect to a *)
From Verif Require Import Geo LogModel.
Definition coord (v : v3) (i : nat) : R := match i with 0%nat => vx v | 1%nat => vy v | _ => vz v end.
Definition rowm (m : m3) (i : nat) : v3 := match i with 0%nat => ra m | 1%nat => rb m | _ => rc m end.
Definition so3_diff (goal a : m3) (i : nat) : R := coord (snd (logSO3 (mul (mtr a) goal))) i.
Definition so3_dd (goal a : m3) (i j : nat) : R :=
  let '(th, r) := logSO3 (mul (mtr a) goal) in - coord (rowm (computeJlog th r) i) j.
