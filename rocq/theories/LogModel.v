(** Logarithm of rotations and rigid body transforms and its Jacobian.
    Modelled from include/hpp/constraints/tools.hh:60-93 (logSO3), 129-155 (JlogSO3),
    164-187 (logSE3), 189-230 (JlogSE3) and src/generic-transformation/helper.hh:165-190
    (computeJlog).  Real numbers instead of floating point; pi is exact. *)
From Coq Require Import Reals.
From Verif Require Import Geo Rigid.
Local Open Scope R_scope.

Definition trace (m : m3) : R := vx (ra m) + vy (rb m) + vz (rc m).
(** (R(2,1) - R(1,2), R(0,2) - R(2,0), R(1,0) - R(0,1)) *)
Definition vee (m : m3) : v3 := V3 (vy (rc m) - vz (rb m)) (vz (ra m) - vx (rc m)) (vx (rb m) - vy (ra m)).
Definition outer (a b : v3) : m3 := M3 (vscale (vx a) b) (vscale (vy a) b) (vscale (vz a) b).

(** lines 66-74 *)
Definition angle (m : m3) : R :=
  let tr := trace m in
  if Rlt_dec 3 tr then 0 else if Rlt_dec tr (-1) then PI else acos ((tr - 1) / 2).
(** lines 75-91 *)
Definition sgn (a b : R) : R := if Rlt_dec b a then 1 else -1.
Definition root (x : R) : R := if Rlt_dec 0 x then sqrt x else 0.
Definition logSO3 (m : m3) : R * v3 :=
  let theta := angle m in
  if Rlt_dec theta (PI - / 100) then
    let t := (if Rlt_dec (/ 1000000) theta then theta / sin theta else 1) / 2 in
    (theta, vscale t (vee m))
  else
    let cphi := cos (theta - PI) in
    let beta := theta * theta / (1 + cphi) in
    let tmp x := (x + cphi) * beta in
    (theta, V3 (sgn (vy (rc m)) (vz (rb m)) * root (tmp (vx (ra m))))
               (sgn (vz (ra m)) (vx (rc m)) * root (tmp (vy (rb m))))
               (sgn (vx (rb m)) (vy (ra m)) * root (tmp (vz (rc m))))).

(** diagonal, then +- [r]x, then / 2, then alpha r r^T.  [e] is 1 for JlogSO3, -1 for computeJlog *)
Definition jlog (e : R) (theta : R) (r : v3) : m3 :=
  if Rlt_dec theta (/ 1000000) then m1
  else
    let st_1mct := sin theta / (1 - cos theta) in
    let alpha := 1 / (theta * theta) - st_1mct / (2 * theta) in
    madd (mscale (/ 2) (madd (mscale (theta * st_1mct) m1) (mscale e (cross_matrix r)))) (mscale alpha (outer r r)).
Definition JlogSO3 : R -> v3 -> m3 := jlog 1.
Definition computeJlog : R -> v3 -> m3 := jlog (-1).

(** lines 177-183, 204-213 *)
Definition se3_alpha (theta : R) : R :=
  if Rlt_dec (Rabs theta) (/ 100) then 1 - theta * theta / 12 - theta * theta * theta * theta / 720
  else theta * sin theta / (2 * (1 - cos theta)).
Definition se3_beta (theta : R) : R :=
  if Rlt_dec (Rabs theta) (/ 100) then 1 / 12 + theta * theta / 720
  else 1 / (theta * theta) - sin theta / (2 * theta * (1 - cos theta)).
Definition se3_beta_dot (theta : R) : R :=
  if Rlt_dec (Rabs theta) (/ 100) then 1 / 360
  else - 2 / (theta * theta * theta * theta) + (theta + sin theta) / (2 * theta * theta * theta * (1 - cos theta)).
(** lines 164-187 *)
Definition logSE3 (M : se3) : twist :=
  let p := tra M in
  let '(theta, r) := logSO3 (rot M) in
  Tw (vadd (vsub (vscale (se3_alpha theta) p) (vscale (/ 2) (mulv (cross_matrix r) p))) (vscale (se3_beta theta * vdot r p) r)) r.
(** A 6 by 6 matrix of four blocks. *)
Record m6 := M6 { tl : m3; tr_ : m3; bl : m3; br : m3 }.
Definition mul6 (m : m6) (x : twist) : twist :=
  Tw (vadd (mulv (tl m) (lin x)) (mulv (tr_ m) (ang x))) (vadd (mulv (bl m) (lin x)) (mulv (br m) (ang x))).
(** lines 189-230 *)
Definition JlogSE3 (M : se3) : m6 :=
  let m := rot M in let p := tra M in
  let '(theta, r) := logSO3 m in
  let Jlog3 := JlogSO3 theta r in
  let alpha := se3_alpha theta in let beta := se3_beta theta in let bd := se3_beta_dot theta in
  let V := madd (msub (mscale alpha m1) (mscale (/ 2) (cross_matrix r))) (mscale beta (outer r r)) in
  let rTp := vdot r p in
  let J := mul (madd (madd (msub (madd (mscale (/ 2) (cross_matrix p)) (mscale (bd * rTp) (outer r r)))
                              (mscale (theta * theta * bd + 2 * beta) (outer p r)))
                       (mscale (rTp * beta) m1))
                 (mscale beta (outer r p))) Jlog3 in
  M6 (mul V m) J m0 Jlog3.
