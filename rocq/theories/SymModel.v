(** Model of the symbolic calculus,
    /repo/include/hpp/constraints/symbolic-calculus.hh.

    Expressions are objects referenced by shared pointers: a sub-expression may
    be shared.  They are modelled as trees in which each object carries its
    address; the mutable members are in a store indexed by addresses.  A Jacobian
    is represented by one of its columns: all operations on Jacobians in this
    file are column by column, [jv], [jw] are the same column of the upper and
    lower part of the joint Jacobians (expressed in the joint frame).

    Values of [ScalarProduct] (1x1 matrices) are stored as (s, 0, 0): their
    scalar product and the transposed products in impl_jacobian are those of
    1x1 matrices.  The C++ types forbid the other uses of a [ScalarProduct].

    Not modelled: [FunctionExp], [JointFrame] (values of other sizes);
    [MatrixOfExpressions] is in [MoeModel] and [PinvModel]. *)
From Coq Require Import Reals List Bool Arith.
From Verif Require Import Geo.
Import ListNotations.
Local Open Scope R_scope.

(** The state of the robot read by the expressions: placement and Jacobian of
    each joint ([currentTransformation], [jacobian]), center of mass and its
    Jacobian as [CenterOfMassComputation::compute] would give them now. *)
Record robot := Robot {
  jR : nat -> m3; jp : nat -> v3; jv : nat -> v3; jw : nat -> v3;
  com : v3; comJ : v3 }.

(** Expressions: [CrossProduct] 292-334, [ScalarProduct] 336-384, [Difference]
    386-426, [Sum] 428-466, [ScalarMultiply] 468-505, [RotationMultiply] 507-571,
    [PointInJoint] 573-651, [VectorInJoint] 653-714, [Point] 755-780, [PointCom]
    782-814.  The first argument is the address of the object; [l] and [r] are
    the members [lhs_] and [rhs_] of its [Expression]; [joint_] may be NULL for
    points and vectors.  Each [PointCom] has its own [CenterOfMassComputation]. *)
Inductive expr :=
| Cross (id : nat) (l r : expr)
| Dot (id : nat) (l r : expr)
| Diff (id : nat) (l r : expr)
| Sum (id : nat) (l r : expr)
| SMul (id : nat) (s : R) (r : expr)
| Rot (id : nat) (j : nat) (transpose : bool) (r : expr)
| Pij (id : nat) (j : option nat) (l : v3)
| Vij (id : nat) (j : option nat) (v : v3)
| Pt (id : nat) (p : v3)
| Com (id : nat).

Definition addr (e : expr) : nat :=
  match e with
  | Cross i _ _ | Dot i _ _ | Diff i _ _ | Sum i _ _ | SMul i _ _ | Rot i _ _ _
  | Pij i _ _ | Vij i _ _ | Pt i _ | Com i => i
  end.

(** Members of [CalculusBase], 224-230: [mem] is [value_]; [val] is what the
    method value() returns, i.e. [value_] except for [PointCom] where it is the
    center of mass stored in [comc_] (795-796). *)
Record cell := Cell {
  mem : v3; val : v3; jac : v3; crs : m3;
  vValid : bool; jValid : bool; cValid : bool }.

Definition store := nat -> cell.
Definition upd (st : store) (a : nat) (c : cell) : store :=
  fun b => if Nat.eqb b a then c else st b.

(** [this->value_ = v] (and comc_ for [PointCom]). *)
Definition put_val (a : nat) (v : v3) (st : store) : store :=
  let c := st a in upd st a (Cell v v (jac c) (crs c) (vValid c) (jValid c) (cValid c)).
Definition put_com (a : nat) (v : v3) (st : store) : store :=
  let c := st a in upd st a (Cell (mem c) v (jac c) (crs c) (vValid c) (jValid c) (cValid c)).
Definition put_jac (a : nat) (v : v3) (st : store) : store :=
  let c := st a in upd st a (Cell (mem c) (val c) v (crs c) (vValid c) (jValid c) (cValid c)).
Definition put_crs (a : nat) (m : m3) (st : store) : store :=
  let c := st a in upd st a (Cell (mem c) (val c) (jac c) m (vValid c) (jValid c) (cValid c)).
Definition set_vValid (a : nat) (st : store) : store :=
  let c := st a in upd st a (Cell (mem c) (val c) (jac c) (crs c) true (jValid c) (cValid c)).
Definition set_jValid (a : nat) (st : store) : store :=
  let c := st a in upd st a (Cell (mem c) (val c) (jac c) (crs c) (vValid c) true (cValid c)).
Definition set_cValid (a : nat) (st : store) : store :=
  let c := st a in upd st a (Cell (mem c) (val c) (jac c) (crs c) (vValid c) (jValid c) true).

(** [CalculusBase::invalidate], 212-216. *)
Definition invalidate_base (a : nat) (st : store) : store :=
  let c := st a in upd st a (Cell (mem c) (val c) (jac c) (crs c) false false false).

(** [CalculusBase::computeCrossValue], 218-223, given computeValue.  It reads the
    member [value_], not value(). *)
Definition compute_cross_with (compute_value : store -> store) (a : nat) (st : store) : store :=
  if cValid (st a) then st
  else let st1 := compute_value st in
       set_cValid a (put_crs a (cross_matrix (mem (st1 a))) st1).

(** Comparison of a vector with zero ([isZero] in the constructors of
    [PointInJoint], 590-616; exact instead of up to a precision). *)
Definition is_zero (v : v3) : bool :=
  (if Req_EM_T (vx v) 0 then true else false) &&
  (if Req_EM_T (vy v) 0 then true else false) &&
  (if Req_EM_T (vz v) 0 then true else false).

Section Robot.
  Variable q : robot.

  (** [CalculusBase::computeValue], 202-206, and the methods [impl_value]: 311-315,
      360-364, 405-409, 445-449, 487-490, 538-545, 620-623, 688-691, 778, 802-804. *)
  Fixpoint compute_value (e : expr) (st : store) : store :=
    if vValid (st (addr e)) then st
    else
      set_vValid (addr e)
        match e with
        | Cross a l r =>
            let st1 := compute_value r (compute_cross_with (compute_value l) (addr l) st) in
            put_val a (mulv (crs (st1 (addr l))) (val (st1 (addr r)))) st1
        | Dot a l r =>
            let st1 := compute_value r (compute_value l st) in
            put_val a (V3 (vdot (val (st1 (addr l))) (val (st1 (addr r)))) 0 0) st1
        | Diff a l r =>
            let st1 := compute_value r (compute_value l st) in
            put_val a (vsub (val (st1 (addr l))) (val (st1 (addr r)))) st1
        | Sum a l r =>
            let st1 := compute_value r (compute_value l st) in
            put_val a (vadd (val (st1 (addr l))) (val (st1 (addr r)))) st1
        | SMul a s r =>
            let st1 := compute_value r st in
            put_val a (vscale s (val (st1 (addr r)))) st1
        | Rot a j tr r =>
            let st1 := compute_value r st in
            put_val a (mulv (if tr then mtr (jR q j) else jR q j) (val (st1 (addr r)))) st1
        | Pij a (Some j) l => put_val a (vadd (mulv (jR q j) l) (jp q j)) st
        | Pij a None l => st
        | Vij a (Some j) v => put_val a (mulv (jR q j) v) st
        | Vij a None v => st
        | Pt a p => st
        | Com a => put_com a (com q) st
        end.

  Definition compute_cross (e : expr) (st : store) : store :=
    compute_cross_with (compute_value e) (addr e) st.

  (** [CalculusBase::computeJacobian], 207-211, and the methods [impl_jacobian]:
      316-323, 365-372, 410-414, 450-454, 491-494, 546-558, 624-633, 692-698, 779,
      805-810.  [PointInJoint] and [VectorInJoint] use the member [cross_] as a
      temporary (634-642, 699-703).  For [PointCom] computing the Jacobian also
      computes the center of mass. *)
  Fixpoint compute_jacobian (e : expr) (st : store) : store :=
    if jValid (st (addr e)) then st
    else
      set_jValid (addr e)
        match e with
        | Cross a l r =>
            let st1 := compute_jacobian r (compute_jacobian l
                         (compute_cross r (compute_cross l st))) in
            put_jac a (vsub (mulv (crs (st1 (addr l))) (jac (st1 (addr r))))
                            (mulv (crs (st1 (addr r))) (jac (st1 (addr l))))) st1
        | Dot a l r =>
            let st1 := compute_jacobian r (compute_jacobian l
                         (compute_value r (compute_value l st))) in
            put_jac a (V3 (vdot (val (st1 (addr l))) (jac (st1 (addr r))) +
                           vdot (val (st1 (addr r))) (jac (st1 (addr l)))) 0 0) st1
        | Diff a l r =>
            let st1 := compute_jacobian r (compute_jacobian l st) in
            put_jac a (vsub (jac (st1 (addr l))) (jac (st1 (addr r)))) st1
        | Sum a l r =>
            let st1 := compute_jacobian r (compute_jacobian l st) in
            put_jac a (vadd (jac (st1 (addr l))) (jac (st1 (addr r)))) st1
        | SMul a s r =>
            let st1 := compute_jacobian r st in
            put_jac a (vscale s (jac (st1 (addr r)))) st1
        | Rot a j tr r =>
            let st1 := compute_cross r (compute_jacobian r st) in
            put_jac a (mulv (if tr then mtr (jR q j) else jR q j)
                            (vadd (mulv (mul (crs (st1 (addr r))) (jR q j)) (jw q j))
                                  (jac (st1 (addr r))))) st1
        | Pij a (Some j) l =>
            if is_zero l then put_jac a (mulv (jR q j) (jv q j)) st
            else
              let st1 := put_crs a (cross_matrix (mulv (jR q j) l)) st in
              put_jac a (vsub (mulv (jR q j) (jv q j))
                              (mulv (mul (crs (st1 a)) (jR q j)) (jw q j))) st1
        | Pij a None l => st
        | Vij a (Some j) v =>
            let st1 := put_crs a (cross_matrix (mulv (jR q j) v)) st in
            put_jac a (mulv (mul (mopp (crs (st1 a))) (jR q j)) (jw q j)) st1
        | Vij a None v => st
        | Pt a p => st
        | Com a => put_jac a (comJ q) (put_com a (com q) st)
        end.
End Robot.

(** Methods [invalidate], 324-328, 373-377, 415-419, 455-459, 495-498, 559-562. *)
Fixpoint invalidate (e : expr) (st : store) : store :=
  match e with
  | Cross a l r | Dot a l r | Diff a l r | Sum a l r =>
      invalidate l (invalidate r (invalidate_base a st))
  | SMul a _ r | Rot a _ _ r => invalidate r (invalidate_base a st)
  | Pij a _ _ | Vij a _ _ | Pt a _ | Com a => invalidate_base a st
  end.

(** Constructors.  The flags are not initialised (230), [g] is the content of the
    memory.  Constants are set by the constructors with a number of degrees of
    freedom, 603-615, 676-684, 774-776.  (With [joint_] NULL the other
    constructors of [VectorInJoint] and [PointInJoint] leave the members
    uninitialised, an assertion forbids it for the latter; they are not modelled.) *)
Definition construct (e : expr) (g : store) : store :=
  let a := addr e in
  let c := g a in
  upd g a
    match e with
    | Pij _ None p | Vij _ None p | Pt _ p => Cell p p v0 m0 (vValid c) (jValid c) (cValid c)
    | _ => Cell (mem c) (val c) (jac c) m0 (vValid c) (jValid c) (cValid c)
    end.

Fixpoint construct_all (e : expr) (g : store) : store :=
  match e with
  | Cross _ l r | Dot _ l r | Diff _ l r | Sum _ l r =>
      construct e (construct_all r (construct_all l g))
  | SMul _ _ r | Rot _ _ _ r => construct e (construct_all r g)
  | Pij _ _ _ | Vij _ _ _ | Pt _ _ | Com _ => construct e g
  end.

(** Use of a set of expressions: the robot is moved, expressions are invalidated
    and evaluated. *)
Inductive op :=
| Move (q : robot)
| Invalidate (e : expr)
| Value (e : expr)
| Jacobian (e : expr)
| CrossValue (e : expr).

Definition step (s : robot * store) (o : op) : robot * store :=
  match o with
  | Move q => (q, snd s)
  | Invalidate e => (fst s, invalidate e (snd s))
  | Value e => (fst s, compute_value (fst s) e (snd s))
  | Jacobian e => (fst s, compute_jacobian (fst s) e (snd s))
  | CrossValue e => (fst s, compute_cross (fst s) e (snd s))
  end.

Definition run (ops : list op) (s : robot * store) : robot * store := fold_left step ops s.

(** [SymbolicFunction::impl_compute] and [impl_jacobian] without mask,
    /repo/include/hpp/constraints/symbolic-function.hh:110-160: the robot is
    moved, the expression is invalidated and evaluated. *)
Definition symbolic_value (q : robot) (e : expr) (s : robot * store) : v3 * (robot * store) :=
  let s' := run [Move q; Invalidate e; Value e] s in (val (snd s' (addr e)), s').
Definition symbolic_jacobian (q : robot) (e : expr) (s : robot * store) : v3 * (robot * store) :=
  let s' := run [Move q; Invalidate e; Jacobian e] s in (jac (snd s' (addr e)), s').

(** [ComBetweenFeet], /repo/src/com-between-feet.cc:73-98: the expressions built
    by the constructor; addresses 0..12, shared: com 0, left 1, right 2, u 3.
    The constructor of [Sum] exchanges its arguments (symbolic-calculus.hh:441-443):
    [lhs_] is the second operand of operator+. *)
Section ComBetweenFeet.
  Variables (jl jr jref : nat) (pl pr pref : v3).
  Definition cbf_com := Com 0.
  Definition cbf_left := Pij 1 (Some jl) pl.
  Definition cbf_right := Pij 2 (Some jr) pr.
  Definition cbf_u := Diff 3 cbf_right cbf_left.
  Definition cbf_xmxl := Diff 4 cbf_com cbf_left.
  Definition cbf_xmxr := Diff 5 cbf_com cbf_right.
  Definition cbf_ecrossu :=
    Cross 9 (Diff 8 cbf_com (SMul 7 (1/2) (Sum 6 cbf_right cbf_left))) cbf_u.
  Definition cbf_expr := Rot 10 jref true cbf_ecrossu.
  Definition cbf_xmxlDotu := Dot 11 cbf_xmxl cbf_u.
  Definition cbf_xmxrDotu := Dot 12 cbf_xmxr cbf_u.

  (** One row of the mask: an expression is invalidated and evaluated. *)
  Definition cbf_row (b : bool) (e : expr) (o : op) (read : cell -> R) (s : robot * store)
    : list R * (robot * store) :=
    if b then let s := run [Invalidate e; o] s in ([read (snd s (addr e))], s) else ([], s).

  (** [impl_compute], 100-127: the rows of the mask. *)
  Definition cbf_compute (mask : bool * bool * bool * bool) (q : robot) (s : robot * store)
    : list R * (robot * store) :=
    let '(b0, b1, b2, b3) := mask in
    let s := step s (Move q) in
    let '(r0, s) := cbf_row b0 cbf_com (Value cbf_com) (fun c => vz (vsub (val c) pref)) s in
    let '(r1, s) := cbf_row b1 cbf_expr (Value cbf_expr) (fun c => vz (val c)) s in
    let '(r2, s) := cbf_row b2 cbf_xmxlDotu (Value cbf_xmxlDotu) (fun c => vx (val c)) s in
    let '(r3, s) := cbf_row b3 cbf_xmxrDotu (Value cbf_xmxrDotu) (fun c => vx (val c)) s in
    (r0 ++ r1 ++ r2 ++ r3, s).

  (** [impl_jacobian], 129-159, one column among the columns of the joint
      Jacobians (the columns of the extra degrees of freedom are not written). *)
  Definition cbf_jacobian (mask : bool * bool * bool * bool) (q : robot) (s : robot * store)
    : list R * (robot * store) :=
    let '(b0, b1, b2, b3) := mask in
    let s := step s (Move q) in
    let '(r0, s) := cbf_row b0 cbf_com (Jacobian cbf_com) (fun c => vz (jac c)) s in
    let '(r1, s) := cbf_row b1 cbf_expr (Jacobian cbf_expr) (fun c => vz (jac c)) s in
    let '(r2, s) := cbf_row b2 cbf_xmxlDotu (Jacobian cbf_xmxlDotu) (fun c => vx (jac c)) s in
    let '(r3, s) := cbf_row b3 cbf_xmxrDotu (Jacobian cbf_xmxrDotu) (fun c => vx (jac c)) s in
    (r0 ++ r1 ++ r2 ++ r3, s).
End ComBetweenFeet.
