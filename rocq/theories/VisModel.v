(** Blocks that explicit_::ImplicitFunction writes in its Jacobian for an output space SE(3),
    R^3 x SO(3) or SO(3).
    Modelled from src/explicit/implicit-function.cc:73-154 (JacobianVisitor) and 208-224 (value).

    The difference of elements, of pinocchio, is taken with the logarithms of tools.hh: vector part
    and SO3 part separately for R^3 x SO(3), together for SE(3).  Reals instead of floating point
    numbers; quaternions as Eigen stores them, real part last. *)
From Coq Require Import Reals List Bool ZArith.
From Verif Require Import Geo Rigid SegModel ViewModel FunModel ImplFunModel LogModel DistModel GTModel.
Import ListNotations.
Local Open Scope R_scope.

(** Eigen::Quaternion::toRotationMatrix *)
Definition q2r (x y z w : R) : m3 :=
  M3 (V3 (1 - (2 * y * y + 2 * z * z)) (2 * x * y - 2 * w * z) (2 * x * z + 2 * w * y))
     (V3 (2 * x * y + 2 * w * z) (1 - (2 * x * x + 2 * z * z)) (2 * y * z - 2 * w * x))
     (V3 (2 * x * z - 2 * w * y) (2 * y * z + 2 * w * x) (1 - (2 * x * x + 2 * y * y))).
(** Mout and Mf, lines 122-128; R_out and R_f, lines 98-99 *)
Definition se3_of (l : list R) : se3 :=
  SE3 (q2r (nth 3 l 0) (nth 4 l 0) (nth 5 l 0) (nth 6 l 0)) (V3 (nth 0 l 0) (nth 1 l 0) (nth 2 l 0)).
Definition so3_of (l : list R) : m3 := q2r (nth 0 l 0) (nth 1 l 0) (nth 2 l 0) (nth 3 l 0).

(** coefficients of vectors and matrices *)
Definition v3_at (v : v3) (i : Z) : R := if (i =? 0)%Z then vx v else if (i =? 1)%Z then vy v else vz v.
Definition m3_at (m : m3) (i j : Z) : R := v3_at (if (i =? 0)%Z then ra m else if (i =? 1)%Z then rb m else rc m) j.
Definition tw_at (T : twist) (i : Z) : R := if (i <? 3)%Z then v3_at (lin T) i else v3_at (ang T) (i - 3).
Definition m6_at (m : m6) (i j : Z) : R :=
  if (i <? 3)%Z then (if (j <? 3)%Z then m3_at (tl m) i j else m3_at (tr_ m) i (j - 3))
  else (if (j <? 3)%Z then m3_at (bl m) (i - 3) j else m3_at (br m) (i - 3) (j - 3)).
(** column j of a matrix with 6 or 3 rows *)
Definition tw_col (F : mat R) (j : Z) : twist := Tw (V3 (at_ F 0 j) (at_ F 1 j) (at_ F 2 j)) (V3 (at_ F 3 j) (at_ F 4 j) (at_ F 5 j)).

(** lines 73-115, R^3 x SO(3) *)
Definition r3so3_jlog (Rout Rf : m3) : m3 := let '(theta, r) := logSO3 (mul (mtr Rf) Rout) in JlogSO3 theta r.
Definition r3so3_out (qo fq : list R) : mat R :=
  mkmat 6 6 (m6_at (M6 m1 m0 m0 (r3so3_jlog (rot (se3_of qo)) (rot (se3_of fq))))).
Definition r3so3_in (qo fq : list R) (F : mat R) : mat R :=
  let Rout := rot (se3_of qo) in let Rf := rot (se3_of fq) in
  mkmat (nr F) (nc F) (fun i j =>
    let c := tw_col F j in
    tw_at (Tw (vopp (lin c)) (mulv (mul (mul (mopp (r3so3_jlog Rout Rf)) (mtr Rout)) Rf) (ang c))) i).
(** lines 117-147, SE(3) *)
Definition se3_out (qo fq : list R) : mat R := mkmat 6 6 (m6_at (JlogSE3 (comp (sinv (se3_of fq)) (se3_of qo)))).
Definition se3_in (qo fq : list R) (F : mat R) : mat R :=
  let Mout := se3_of qo in let Mf := se3_of fq in let Rout := rot Mout in let Rf := rot Mf in
  let J := JlogSE3 (comp (sinv Mf) Mout) in
  mkmat (nr F) (nc F) (fun i j =>
    let c := tw_col F j in
    let top := mulv (mul (mul (mtr Rout) (cross_matrix (vsub (tra Mout) (tra Mf)))) Rf) (ang c) in
    let top := vsub top (mulv (mul (mtr Rout) Rf) (lin c)) in
    tw_at (mul6 J (Tw top (mulv (mul (mopp (mtr Rout)) Rf) (ang c)))) i).
Definition fac_r3so3 : factor R R := mkfac 7 6 r3so3_out r3so3_in.
Definition fac_se3 : factor R R := mkfac 7 6 se3_out se3_in.
(** lines 149-153, all other spaces, here SO(3) *)
Definition fac_so3 : factor R R :=
  mkfac 4 3 (fun _ _ => mkmat 3 3 (fun i j => if (i =? j)%Z then 1 else 0)) (fun _ _ F => mkmat (nr F) (nc F) (fun i j => - at_ F i j)).

(** difference of elements, line 222 *)
Definition twl (T : twist) : list R := v3l (lin T) ++ v3l (ang T).
Definition sub_se3 (a b : list R) : list R := twl (logSE3 (comp (sinv (se3_of b)) (se3_of a))).
Definition sub_r3so3 (a b : list R) : list R :=
  twl (Tw (vsub (tra (se3_of a)) (tra (se3_of b))) (snd (logSO3 (mul (mtr (rot (se3_of b))) (rot (se3_of a)))))).
Definition sub_so3 (a b : list R) : list R := v3l (snd (logSO3 (mul (mtr (so3_of b)) (so3_of a)))).
