(** Blocks that explicit_::ImplicitFunction writes in its Jacobian for the output spaces without a
    visitor of their own: vector spaces, SO(2), R^2 x SO(2), SE(2).
    Modelled from src/explicit/implicit-function.cc:149-153 (generic JacobianVisitor) and 208-224 (value).

    Configurations of pinocchio: (cos, sin) for SO(2), (x, y, cos, sin) for R^2 x SO(2) and SE(2).
    The differences of elements are those of pinocchio, with reals instead of floating point numbers
    and without the branches that differ from the ones below by rounding only. *)
From Coq Require Import Reals List Bool ZArith.
From Verif Require Import SegModel ViewModel FunModel ImplFunModel.
Import ListNotations.
Local Open Scope R_scope.

(** lines 149-153; [nq] and [nv]: sizes of the output space *)
Definition fac_id (nq nv : Z) : factor R R :=
  mkfac nq nv (fun _ _ => mkmat nv nv (fun i j => if (i =? j)%Z then 1 else 0)) (fun _ _ F => mkmat (nr F) (nc F) (fun i j => - at_ F i j)).

(** vector spaces *)
Fixpoint sub_rn (a b : list R) : list R := match a, b with x :: a', y :: b' => (x - y) :: sub_rn a' b' | _, _ => [] end.
(** rotation b^-1 a, and the angle of a rotation *)
Definition rel_c (ca sa cb sb : R) : R := cb * ca + sb * sa.
Definition rel_s (ca sa cb sb : R) : R := cb * sa - sb * ca.
Definition log2 (c s : R) : R := if Rle_dec 0 s then acos c else - acos c.
Definition sub_so2 (a b : list R) : list R :=
  [log2 (rel_c (nth 0 a 0) (nth 1 a 0) (nth 0 b 0) (nth 1 b 0)) (rel_s (nth 0 a 0) (nth 1 a 0) (nth 0 b 0) (nth 1 b 0))].
Definition angle2 (a b : list R) : R :=
  log2 (rel_c (nth 2 a 0) (nth 3 a 0) (nth 2 b 0) (nth 3 b 0)) (rel_s (nth 2 a 0) (nth 3 a 0) (nth 2 b 0) (nth 3 b 0)).
Definition sub_r2so2 (a b : list R) : list R := [nth 0 a 0 - nth 0 b 0; nth 1 a 0 - nth 1 b 0; angle2 a b].
(** logarithm of b^-1 a in SE(2) *)
Definition se2_alpha (th : R) : R :=
  if Rlt_dec (Rabs th) (/ 10000) then 1 - th * th / 12 - th * th * (th * th) / 720 else th * sin th / (2 * (1 - cos th)).
Definition sub_se2 (a b : list R) : list R :=
  let dx := nth 0 a 0 - nth 0 b 0 in let dy := nth 1 a 0 - nth 1 b 0 in
  let px := nth 2 b 0 * dx + nth 3 b 0 * dy in let py := nth 2 b 0 * dy - nth 3 b 0 * dx in
  let th := angle2 a b in
  [se2_alpha th * px + th / 2 * py; se2_alpha th * py - th / 2 * px; th].
