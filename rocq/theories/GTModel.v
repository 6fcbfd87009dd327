(** GenericTransformation: position, orientation and transformation functions, absolute and
    relative, with values in a vector space or in SO(3) / R^3 x SO(3).
    Modelled from include/hpp/constraints/generic-transformation.hh:46-86, 259-305,
    src/generic-transformation.cc:67-88, 170-253 and
    src/generic-transformation/helper.hh:65-130, 206-237, 239-462.

    Parameters: Eigen's approximate tests [isIdentity] and [isZero] and the conversion of a
    rotation matrix into a quaternion.  Forward kinematics (pinocchio) gives the placement of
    the joints and their Jacobians, by columns.  A Jacobian is a list of columns: all
    operations of the code are column by column.  [None] is the dereference of a null joint or
    a write out of the bounds of a matrix. *)
From Coq Require Import Reals List Bool Arith ZArith.
From Verif Require Import Geo Rigid SegModel ViewModel LogModel DistModel.
Import ListNotations.
Local Open Scope R_scope.

(** the template arguments *)
Record opts := Opts { relative : bool; position : bool; orientation : bool; so3 : bool }.
(** GenericTransformationModel, .hh:46-86, and mask_ *)
Record gt := GT {
  g_j1 : option nat; g_j2 : option nat; R1isID : bool; t1isZero : bool; t2isZero : bool;
  F1 : se3; F2 : se3; fullPos : bool; fullOri : bool; rowOri : nat; g_mask : list bool }.
(** joints with their index; index 0 is the universe *)
Record kins := Kins { place : nat -> se3; jjac : nat -> list twist }.

(** .hh:53-54: translation then rotation *)
Definition actInv (A B : se3) : se3 := SE3 (mul (mtr (rot A)) (rot B)) (mulv (mtr (rot A)) (vsub (tra B) (tra A))).
Definition v3l (v : v3) : list R := [vx v; vy v; vz v].

Section GT.
Variables (isId : m3 -> bool) (isZero : v3 -> bool) (quat : m3 -> list R).
Variable o : opts.

(** constructor, .cc:170-200; the members keep their initial values *)
Definition create (mask : list bool) : gt :=
  let nb := length (filter (fun b => b) (firstn 3 mask)) in
  let row := if position o then nb else 0%nat in
  let iOri := if position o then 3%nat else 0%nat in
  GT None None true true true sid sid (position o && (row =? 3)%nat)
     (orientation o && (nth iOri mask false && nth (iOri + 1) mask false && nth (iOri + 2) mask false)) row mask.
(** joint1, joint2, frame1InJoint1, frame2InJoint2, reference: .hh:259-305, .cc:83-89 *)
Inductive setter := SetJ1 (j : option nat) | SetJ2 (j : option nat) | SetF1 (M : se3) | SetF2 (M : se3) | SetRef (M : se3).
Definition set (g : gt) (s : setter) : gt :=
  let setF1 g M := GT (g_j1 g) (g_j2 g) (isId (rot M)) (isZero (tra M)) (t2isZero g) M (F2 g) (fullPos g) (fullOri g) (rowOri g) (g_mask g) in
  let setF2 g M := GT (g_j1 g) (g_j2 g) (R1isID g) (t1isZero g) (isZero (tra M)) (F1 g) M (fullPos g) (fullOri g) (rowOri g) (g_mask g) in
  match s with
  | SetJ1 j => GT (if relative o then match j with Some (S n) => Some (S n) | _ => None end else None)
                  (g_j2 g) (R1isID g) (t1isZero g) (t2isZero g) (F1 g) (F2 g) (fullPos g) (fullOri g) (rowOri g) (g_mask g)
  | SetJ2 j => GT (g_j1 g) j (R1isID g) (t1isZero g) (t2isZero g) (F1 g) (F2 g) (fullPos g) (fullOri g) (rowOri g) (g_mask g)
  | SetF1 M => setF1 g M
  | SetF2 M => setF2 g M
  | SetRef M => setF2 (setF1 g M) sid
  end.
(** reference(), .hh:263 *)
Definition reference (g : gt) : se3 := actInv (F1 g) (F2 g).
Definition setup (mask : list bool) (l : list setter) : gt := fold_left set l (create mask).

Section K.
Variables (g : gt) (k : kins).
(** M2(), M1() *)
Definition M2 : se3 := match g_j2 g with Some j => place k j | None => sid end.
Definition M1 (j : nat) : se3 := place k j.
(** relativeTransform<_, true>::run, helper.hh:360-385 *)
Definition pose : se3 :=
  match g_j1 g with
  | None => actInv (F1 g) (comp M2 (F2 g))
  | Some j => actInv (F1 g) (actInv (M1 j) (comp M2 (F2 g)))
  end.
(** relativeTransform<_, false>::run, helper.hh:317-357, 386-404 *)
Definition point : v3 :=
  let v := match g_j1 g with
           | None => act M2 (tra (F2 g))
           | Some j => mulv (mtr (rot (M1 j))) (vsub (act M2 (tra (F2 g))) (tra (M1 j)))
           end in
  let v := if t1isZero g then v else vsub v (tra (F1 g)) in
  if R1isID g then v else mulv (mtr (rot (F1 g))) v.
(** compute::error, helper.hh:407-424 and log 216-224 *)
Definition raw : list R :=
  if orientation o then
    (if position o then v3l (tra pose) else []) ++
    (if so3 o then quat (rot pose) else v3l (snd (logSO3 (rot pose))))
  else v3l point.
(** indices, .cc:67-81, and impl_compute, .cc:211-225 *)
Definition value : list R :=
  vread (fun i => nth (Z.to_nat i) raw 0) (from_logical (g_mask g ++ if so3 o then [true] else [])).

(** Jlog, helper.hh:225-237 *)
Definition Jlog_from1 : m3 :=
  if so3 o then
    let m := mul (mtr (rot (F2 g))) (mtr (rot M2)) in
    match g_j1 g with Some j => mul m (rot (M1 j)) | None => m end
  else
    let '(theta, r) := logSO3 (rot pose) in
    let m := computeJlog theta r in
    if R1isID g then m else mul m (mtr (rot (F1 g))).
Definition cross2 : v3 := if t2isZero g then v0 else mulv (rot M2) (tra (F2 g)).

(** Jtranslation and Jorientation, helper.hh:262-311: one column; [c1], [c2] are the columns of
    the Jacobians of the joints, [None] for a null joint *)
Definition Jtranslation (c1 c2 : option twist) : option v3 :=
  match g_j1 g with
  | Some j =>
      match c1 with
      | None => None
      | Some c1 =>
          let R1 := rot (M1 j) in let R2 := rot M2 in
          let cross1 := vsub (vadd cross2 (tra M2)) (tra (M1 j)) in
          let t := mulv (mul (mopp (mtr R1)) (colcross R1 cross1)) (ang c1) in
          let t := match c2 with Some c2 => vadd t (mulv (mul (mtr R1) R2) (lin c2)) | None => t end in
          let t := vsub t (lin c1) in
          let t := match c2 with
                   | Some c2 => if t2isZero g then t else vadd t (mulv (mul (mtr R1) (colcross R2 cross2)) (ang c2))
                   | None => t end in
          Some (if R1isID g then t else mulv (mtr (rot (F1 g))) t)
      end
  | None =>
      match c2 with
      | None => None
      | Some c2 =>
          let R2 := rot M2 in
          if t2isZero g then
            Some (if R1isID g then mulv R2 (lin c2) else mulv (mul (mtr (rot (F1 g))) R2) (lin c2))
          else
            let t := vadd (mulv (colcross R2 cross2) (ang c2)) (mulv R2 (lin c2)) in
            Some (if R1isID g then t else mulv (mtr (rot (F1 g))) t)
      end
  end.
Definition Jorientation (c1 c2 : option twist) : option v3 :=
  match g_j1 g with
  | Some j =>
      match c1 with
      | None => None
      | Some c1 =>
          let t := vopp (ang c1) in
          let t := match c2 with Some c2 => vadd t (mulv (mul (mtr (rot (M1 j))) (rot M2)) (ang c2)) | None => t end in
          Some (mulv Jlog_from1 t)
      end
  | None => match c2 with None => None | Some c2 => Some (mulv (mul Jlog_from1 (rot M2)) (ang c2)) end
  end.

(** middleRows<3>(start) = v, in one column *)
Definition write3 (start : nat) (v : v3) (col : list R) : option (list R) :=
  if (start + 3 <=? length col)%nat then Some (firstn start col ++ v3l v ++ skipn (start + 3) col) else None.
(** assign_if, helper.hh:239-250: to the cache or to the result *)
Definition assign_if (cond : bool) (rowCache startRow : nat) (v : v3) (cache_out : list R * list R) : option (list R * list R) :=
  let '(cache, out) := cache_out in
  if cond then option_map (fun c => (c, out)) (write3 rowCache v cache)
  else option_map (fun c => (cache, c)) (write3 startRow v out).
(** the loops of helper.hh:448-470: rows of the cache with the mask, from [index] on *)
Fixpoint copy_rows (mask : list bool) (cache : list R) (index : nat) (out : list R) : option (nat * list R) :=
  match mask, cache with
  | b :: mask', x :: cache' =>
      if b then
        if (index <? length out)%nat then copy_rows mask' cache' (S index) (firstn index out ++ x :: skipn (S index) out) else None
      else copy_rows mask' cache' index out
  | [], _ => Some (index, out)
  | _, [] => None
  end.
Definition bind {A B} (x : option A) (f : A -> option B) : option B := match x with Some a => f a | None => None end.
(** compute::jacobian, helper.hh:426-473, one of the first [cols] columns.  [junk]: content of
    the cache after allocation, helper.hh:126 *)
Definition jac_col (c1 c2 : option twist) (junk out : list R) : option (list R) :=
  let lPos := if position o then 3%nat else 0%nat in
  let lOri := if orientation o then 3%nat else 0%nat in
  let cache := if fullPos g && fullOri g then [] else firstn (lPos + lOri) junk in
  bind (if position o then bind (Jtranslation c1 c2) (fun v => assign_if (negb (fullPos g)) 0 0 v (cache, out)) else Some (cache, out)) (fun co =>
  bind (if orientation o then bind (Jorientation c1 c2) (fun v => assign_if (negb (so3 o || fullOri g)) lPos (rowOri g) v co) else Some co) (fun co =>
  let '(cache, out) := co in
  bind (if fullPos g then Some (lPos, out) else copy_rows (firstn lPos (g_mask g)) cache 0 out) (fun io =>
  bind (if fullOri g then Some io else copy_rows (firstn lOri (skipn lPos (g_mask g))) (skipn lPos cache) (fst io) (snd io)) (fun io =>
  Some (snd io))))).

(** impl_jacobian, .cc:227-244: [old] is the content of the result, [cols] = number of degrees of
    freedom without extra ones; the other columns are set to zero *)
Fixpoint columns (cs : list (option twist * option twist)) (junk : list R) (old : list (list R)) : option (list (list R)) :=
  match cs, old with
  | c :: cs', x :: old' => bind (jac_col (fst c) (snd c) junk x) (fun y => option_map (cons y) (columns cs' junk old'))
  | [], _ => Some (map (map (fun _ => 0)) old)
  | _, [] => None
  end.
Definition jcolumns (j : option nat) (cols : nat) : list (option twist) :=
  match j with Some j => map Some (jjac k j) | None => repeat None cols end.
Definition jacobian (cols : nat) (junk : list R) (old : list (list R)) : option (list (list R)) :=
  columns (combine (jcolumns (g_j1 g) cols) (jcolumns (g_j2 g) cols)) junk old.
End K.
End GT.
