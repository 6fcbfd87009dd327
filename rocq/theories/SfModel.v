(** Functions given by an expression, with the expressions that SymModel.v leaves out: the frame of
    a joint and another function.
    Modelled from include/hpp/constraints/symbolic-function.hh:95-165 and
    include/hpp/constraints/symbolic-calculus.hh:195-227 (base class), 713-755 (FunctionExp) and
    816-861 (JointFrame).

    Reals instead of floating point numbers.  The members of an object start with any content, the
    flags too, since the constructors do not set them.  The cross products of the base class are
    not used by these two expressions. *)
From Coq Require Import Reals List Bool ZArith.
From Verif Require Import Geo Rigid ViewModel LogModel GTModel VisModel.
Import ListNotations.
Local Open Scope R_scope.

(** members value_, jacobian_, theta_ (JointFrame), vValid_, jValid_ *)
Record obj := mkobj { o_val : list R; o_theta : R; o_jac : mat R; o_vv : bool; o_jv : bool }.
(** what forward kinematics leaves in the joint, and the configuration *)
Record state := mkst { s_arg : list R; s_M : se3; s_J : mat R }.
Inductive expression := JointFrame | FunctionExp (f : list R -> list R) (fJ : list R -> mat R).

(** impl_value, lines 837-841 and 743-746 *)
Definition impl_value (e : expression) (st : state) (o : obj) : obj :=
  match e with
  | JointFrame => let '(theta, r) := logSO3 (rot (s_M st)) in mkobj (v3l (tra (s_M st)) ++ v3l r) theta (o_jac o) (o_vv o) (o_jv o)
  | FunctionExp f _ => mkobj (f (s_arg st)) (o_theta o) (o_jac o) (o_vv o) (o_jv o)
  end.
(** computeValue, lines 202-206 *)
Definition compute_value (e : expression) (st : state) (o : obj) : obj :=
  if o_vv o then o else let o := impl_value e st o in mkobj (o_val o) (o_theta o) (o_jac o) true (o_jv o).
(** tail<3>() *)
Definition tail3 (l : list R) : v3 := V3 (nth 3 l 0) (nth 4 l 0) (nth 5 l 0).
(** impl_jacobian, lines 842-853 and 747-749; column by column *)
Definition impl_jacobian (e : expression) (st : state) (o : obj) : obj :=
  match e with
  | JointFrame =>
      let o := compute_value e st o in
      let Jlog := JlogSO3 (o_theta o) (tail3 (o_val o)) in
      let R := rot (s_M st) in
      mkobj (o_val o) (o_theta o)
        (mkmat 6 (nc (s_J st)) (fun i j => let c := tw_col (s_J st) j in tw_at (Tw (mulv R (lin c)) (mulv Jlog (ang c))) i))
        (o_vv o) (o_jv o)
  | FunctionExp _ fJ => mkobj (o_val o) (o_theta o) (fJ (s_arg st)) (o_vv o) (o_jv o)
  end.
(** computeJacobian, lines 207-211; invalidate, lines 212-216 *)
Definition compute_jacobian (e : expression) (st : state) (o : obj) : obj :=
  if o_jv o then o else let o := impl_jacobian e st o in mkobj (o_val o) (o_theta o) (o_jac o) (o_vv o) true.
Definition invalidate (o : obj) : obj := mkobj (o_val o) (o_theta o) (o_jac o) false false.

(** SymbolicFunction; [sf_extra] is the dimension of the extra configuration space, None without robot *)
Record sfun := mksf { sf_expr : expression; sf_mask : list bool; sf_extra : option Z }.

Definition lset (l : list R) (i : nat) (x : R) : list R := firstn i l ++ x :: skipn (S i) l.
(** symbolic-function.hh:125-128; None: out of bounds of the value or of the result *)
Fixpoint write_value (mask : list bool) (v : list R) (i index : nat) (result : list R) : option (list R) :=
  match mask with
  | [] => Some result
  | false :: m => write_value m v (S i) index result
  | true :: m =>
      match nth_error v i with
      | Some x => if (index <? length result)%nat then write_value m v (S i) (S index) (lset result index x) else None
      | None => None
      end
  end.
(** symbolic-function.hh:156-158; None: out of bounds of either matrix *)
Fixpoint write_rows (mask : list bool) (Je : mat R) (nv : Z) (i index : Z) (J : mat R) : option (mat R) :=
  match mask with
  | [] => Some J
  | false :: m => write_rows m Je nv (i + 1) index J
  | true :: m =>
      if ((i <? nr Je) && (index <? nr J) && (nv <=? nc J) && (nc Je =? nv))%Z
      then write_rows m Je nv (i + 1) (index + 1)
             (mkmat (nr J) (nc J) (fun r c => if ((r =? index) && (0 <=? c) && (c <? nv))%Z then at_ Je i c else at_ J r c))
      else None
  end.
(** impl_compute, lines 115-129 *)
Definition sf_compute (f : sfun) (st : state) (o : obj) (result : list R) : option (list R) * obj :=
  let o := compute_value (sf_expr f) st (invalidate o) in
  (write_value (sf_mask f) (o_val o) 0 0 result, o).
(** impl_jacobian, lines 131-160; the assertion of line 150 is part of it *)
Definition sf_jacobian (f : sfun) (st : state) (o : obj) (J : mat R) : option (mat R) * obj :=
  let o := compute_jacobian (sf_expr f) st (invalidate o) in
  let Je := o_jac o in
  (match sf_extra f with
   | Some d =>
       if (nc J =? nc Je + d)%Z
       then write_rows (sf_mask f) Je (nc Je) 0 0 (mkmat (nr J) (nc J) (fun r c => if (nc J - d <=? c)%Z then 0 else at_ J r c))
       else None
   | None => write_rows (sf_mask f) Je (nc J) 0 0 J
   end, o).
