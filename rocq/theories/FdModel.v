(** Model of finite differences, extracted functions and affine functions over the reals.

    Source: /repo/src/differentiable-function.cc lines 48-212 (finite differences),
    226-230 (extract); /repo/src/extracted-function.hh lines 38-105;
    /repo/include/hpp/constraints/affine-function.hh lines 81-141.

    Vectors and matrix columns are functions of the index; rounding is not modelled;
    the output space is a vector space. *)
From Coq Require Import Reals List Bool Arith.
Import ListNotations.
Local Open Scope R_scope.

Definition vec := nat -> R.
Definition upd {B} (v : nat -> B) (i : nat) (b : B) : nat -> B := fun k => if Nat.eqb k i then b else v k.
Definition is0 (r : R) : bool := if Req_EM_T r 0 then true else false.

(** FiniteDiffRobotOp / FiniteDiffVectorSpaceOp, lines 48-123.  [o_int fwd x h i result]:
    content of result after integrate<fwd>. *)
Record fdop := mkop { o_int : bool -> vec -> vec -> nat -> vec -> vec; o_reset : vec -> nat -> vec -> vec }.

(** step, lines 55-63 and 97-104 (the same in both) *)
Definition step (eps : R) (i : nat) (x : vec) : R := let r := Rabs (x i) in if is0 r then eps else eps * r.

(** lines 106-120 *)
Definition vector_op : fdop :=
  mkop (fun fwd x h i result => upd result i (x i + (if fwd then h i else - h i)))
       (fun x i result => upd result i (x i)).
(** lines 65-86; [integrate] is hpp::pinocchio::integrate, which overwrites result *)
Definition robot_op (integrate : vec -> vec -> vec) : fdop :=
  mkop (fun fwd x h i result => if fwd then integrate x h else integrate x (fun k => - h k))
       (fun x i result => x).

Section FD.
Variables (op : fdop) (eps : R) (adp : nat -> bool) (f : vec -> vec) (x : vec).

Definition set_col (J : nat -> nat -> R) (j : nat) (c : vec) : nat -> nat -> R := fun i k => if Nat.eqb k j then c i else J i k.

(** finiteDiffCentral, lines 125-158: state x_pdx, x_mdx, h, jacobian *)
Record cstate := mkc { c_p : vec; c_m : vec; c_h : vec; c_J : nat -> nat -> R }.
Definition central_col (s : cstate) (j : nat) : cstate :=
  if negb (adp j) then mkc (c_p s) (c_m s) (c_h s) (set_col (c_J s) j (fun _ => 0))
  else
    let h := upd (c_h s) j (step eps j x) in
    let xm := o_int op false x h j (c_m s) in
    let fm := f xm in
    let xp := o_int op true x h j (c_p s) in
    let fp := f xp in
    mkc (o_reset op x j xp) (o_reset op x j xm) (upd h j 0) (set_col (c_J s) j (fun i => (fp i - fm i) / h j / 2)).
Definition central (n : nat) (J : nat -> nat -> R) : nat -> nat -> R :=
  c_J (fold_left central_col (seq 0 n) (mkc x x (fun _ => 0) J)).

(** finiteDiffForward, lines 160-191: state x_dx, h, jacobian *)
Record fstate := mkf { s_p : vec; s_h : vec; s_J : nat -> nat -> R }.
Definition forward_col (fx : vec) (s : fstate) (j : nat) : fstate :=
  if negb (adp j) then mkf (s_p s) (s_h s) (set_col (s_J s) j (fun _ => 0))
  else
    let h := upd (s_h s) j (step eps j x) in
    let xp := o_int op true x h j (s_p s) in
    let fp := f xp in
    mkf (o_reset op x j xp) (upd h j 0) (set_col (s_J s) j (fun i => (fp i - fx i) / h j)).
Definition forward (n : nat) (J : nat -> nat -> R) : nat -> nat -> R :=
  s_J (fold_left (forward_col (f x)) (seq 0 n) (mkf x (fun _ => 0) J)).
End FD.

(** DifferentiableFunction::extract, differentiable-function.cc:226-230, and
    ExtractedFunction, extracted-function.hh:50-86: a function of one real variable and
    its Jacobian (one column).  The two checks on sizes (lines 87-99) are not modelled. *)
Record rfun := mkr { r_val : R -> vec; r_jac : R -> vec }.
Definition gtb (a b : R) : bool := if Rlt_dec b a then true else false.
Definition extracted (orig : rfun) (t1 t2 : R) : rfun :=
  let reversed := gtb t1 t2 in
  mkr (fun t => r_val orig (if reversed then t1 - t else t1 + t))
      (fun t => if reversed then (fun i => r_jac orig (t1 - t) i * -1) else r_jac orig (t - t1)).
Definition extract (orig : rfun) (t1 t2 : R) : rfun :=
  if is0 t1 && gtb t2 0 then orig else extracted orig t1 t2.

(** AffineFunction, affine-function.hh:94-134: n columns, m rows *)
Definition dot (n : nat) (a b : vec) : R := fold_right Rplus 0 (map (fun k => a k * b k) (seq 0 n)).
Definition affine_value (n : nat) (J : nat -> nat -> R) (b : vec) (x : vec) : vec := fun i => dot n (J i) x + b i.
Definition affine_active (m : nat) (J : nat -> nat -> R) (j : nat) : bool := existsb (fun i => negb (is0 (J i j))) (seq 0 m).
