(** explicit_::RelativeTransformation and explicit_::RelativePose.
    Modelled from src/explicit/relative-transformation.cc:103-262 and
    src/explicit/relative-pose.cc:69-134.

    An element of SE(3), stored by the code as a translation and a quaternion, is a placement
    (the conversions of Eigen between quaternions and rotation matrices are not modelled).
    pinocchio gives the placements and the Jacobians of the joints; setting the configuration of
    a free-flying joint to [x] places it at (placement of the parent) * (position in the parent
    frame) * x.  [exp6], [log6] are pinocchio's exponential and logarithm of SE(3), which
    LiegroupSpace::SE3 uses for the sum and the difference. *)
From Coq Require Import Reals List Bool Arith ZArith.
From Verif Require Import Geo Rigid SegModel ViewModel DistModel GTModel.
Import ListNotations.
Local Open Scope R_scope.

Record rtf := RTF { r_parent : option nat; r_j1 : option nat; r_pos : se3; r_F1 : se3; r_F2 : se3; r_C : se3; r_in : list (Z * Z) }.
(** constructor, relative-transformation.cc:103-125 *)
Definition rt_create (parent j1 : option nat) (pos f1 f2 : se3) (inVel : list (Z * Z)) : rtf :=
  RTF parent j1 pos f1 f2 (comp f1 (sinv f2)) inVel.
(** parentJoint_ && parentJoint_->index() > 0 *)
Definition has_parent (f : rtf) : option nat := match r_parent f with Some (S n) => Some (S n) | _ => None end.

Section K.
Variables (f : rtf) (k : kins).
(** impl_compute, lines 137-164 *)
Definition rt_value : se3 :=
  let p := match r_j1 f with None => r_C f | Some j => comp (place k j) (r_C f) end in
  let p := match has_parent f with Some j => actInv (place k j) p | None => p end in
  actInv (r_pos f) p.
(** placement of joint 2 when its configuration is [x] *)
Definition place2 (x : se3) : se3 :=
  let p := match has_parent f with Some j => place k j | None => sid end in comp (comp p (r_pos f)) x.
Definition skewm (v : v3) : m3 := cross_matrix v.
(** impl_jacobian, lines 166-245, one column; [c1] and [cp] are the columns of the Jacobians of
    joint 1 and of the parent of joint 2 *)
Definition rt_col (c1 cp : twist) : twist :=
  let R2 := rot (place2 rt_value) in
  let R1 := match r_j1 f with None => m1 | Some j => rot (place k j) end in
  let t1 := match r_j1 f with None => v0 | Some j => tra (place k j) end in
  let cross1 := skewm (mulv R1 (tra (r_C f))) in
  match has_parent f with
  | Some j =>
      let Rp := rot (place k j) in
      let cross2 := skewm (vsub (tra (place k j)) t1) in
      let d := match r_j1 f with None => cp | Some _ => Tw (vsub (lin cp) (lin c1)) (vsub (ang cp) (ang c1)) end in
      let top := mulv (mul (mtr (rot (r_pos f))) (mtr Rp))
                   (vsub (vsub (mulv cross1 (ang d)) (mulv cross2 (ang cp))) (lin d)) in
      let bot := mulv (mul (mtr R2) Rp) (ang cp) in
      let bot := match r_j1 f with None => bot | Some _ => vsub bot (mulv (mul (mtr R2) R1) (ang c1)) end in
      Tw top bot
  | None =>
      match r_j1 f with
      | None => t0
      | Some _ =>
          Tw (mulv (mtr R2) (vadd (mulv (mul (mopp cross1) R1) (ang c1)) (mulv R1 (lin c1))))
             (mulv (mul (mtr R2) R1) (ang c1))
      end
  end.
(** the columns of the input velocities *)
Definition col_of (j : option nat) (i : Z) : twist := match j with Some j => nth (Z.to_nat i) (jjac k j) t0 | None => t0 end.
Definition rt_jacobian : list twist := vread (fun i => rt_col (col_of (r_j1 f) i) (col_of (has_parent f) i)) (r_in f).
End K.

(** RelativePose *)
Section RP.
Variables (exp6 : twist -> se3) (log6 : se3 -> twist).
Variable f : rtf.
(** implicitToExplicitRhs, relative-pose.cc:97-115: [p2 - neutral] *)
Definition imp2exp (M1 : se3) : twist := log6 (comp (sinv sid) (comp (comp (r_F2 f) M1) (sinv (r_F2 f)))).
(** explicitToImplicitRhs, lines 117-134 *)
Definition exp2imp (v : twist) : se3 := let M1 := exp6 v in comp (comp (sinv (r_F2 f)) M1) (r_F2 f).
(** outputValue, lines 69-75 *)
Definition output_value (k : kins) (rhs : se3) : se3 := comp (rt_value f k) (exp6 (imp2exp rhs)).
(** dIntegrate_dq of SE(3): inverse of the action matrix of exp6 v, times a column *)
Definition dintegrate (v : twist) (c : twist) : twist :=
  let E := exp6 v in
  Tw (mulv (mtr (rot E)) (vadd (lin c) (vcross (ang c) (tra E)))) (mulv (mtr (rot E)) (ang c)).
(** jacobianOutputValue, lines 77-91; [is_neutral]: rhs == rhs.space()->neutral() *)
Definition jac_output (is_neutral : se3 -> bool) (k : kins) (rhs : se3) : list twist :=
  if is_neutral rhs then rt_jacobian f k else map (dintegrate (imp2exp rhs)) (rt_jacobian f k).
End RP.
