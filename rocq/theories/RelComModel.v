(** RelativeCom: position of the center of mass in the frame of a joint.
    Modelled from src/relative-com.cc:48-55 (size), 86-104 (constructor), 115-190.

    pinocchio gives the placement and the Jacobian of the joint and the center of mass with its
    Jacobian; Jacobians are lists of columns.  [None] is the dereference of a null joint, a read
    of the mask out of bounds or an assignment of vectors of different sizes (assertion of Eigen,
    undefined behaviour without assertions).  Reals instead of floating point numbers. *)
From Coq Require Import Reals List Bool Arith.
From Verif Require Import Geo Rigid DistModel GTModel.
Import ListNotations.
Local Open Scope R_scope.

Record ckin := CK { ck : kins; ccom : v3; ccomJ : list v3 }.
Record rcom := RC { rc_joint : option nat; rc_ref : v3; rc_mask : list bool; rc_nominal : bool }.
(** lines 48-55: number of rows of the output *)
Fixpoint rc_size (mask : list bool) : nat := match mask with [] => 0%nat | b :: m => ((if b then 1 else 0) + rc_size m)%nat end.
(** lines 86-104: [mask[0] && mask[1] && mask[2]], an element is read if the previous ones are true *)
Definition rc_create (j : option nat) (ref : v3) (mask : list bool) : option rcom :=
  let mk b := Some (RC j ref mask b) in
  match nth_error mask 0 with
  | None => None
  | Some false => mk false
  | Some true =>
      match nth_error mask 1 with
      | None => None
      | Some false => mk false
      | Some true => match nth_error mask 2 with None => None | Some b => mk b end
      end
  end.

Section K.
Variables (f : rcom) (k : ckin).
(** assignment of the result, lines 129-139, or of a column of the Jacobian, lines 166-178 *)
Definition rc_put (v : v3) (old : list R) : option (list R) :=
  if rc_nominal f then if (length old =? 3)%nat then Some (v3l v) else None
  else if (3 <=? length (rc_mask f))%nat then option_map snd (copy_rows (firstn 3 (rc_mask f)) (v3l v) 0 old) else None.
(** impl_compute, lines 115-140; [old]: content of the result *)
Definition rc_value (old : list R) : option (list R) :=
  match rc_joint f with
  | None => None
  | Some j => let M := place (ck k) j in rc_put (vsub (mulv (mtr (rot M)) (vsub (ccom k) (tra M))) (rc_ref f)) old
  end.
(** one column of jacobian_ minus the linear part of the Jacobian of the joint, lines 160-178 *)
Definition rc_col (M : se3) (cx : v3) (cj : twist) : v3 :=
  vsub (vadd (mulv (mtr (rot M)) cx)
             (mulv (mul (mtr (rot M)) (colcross (rot M) (vsub (tra M) (ccom k)))) (ang cj)))
       (lin cj).
Fixpoint rc_columns (M : se3) (cs : list (v3 * twist)) (old : list (list R)) : option (list (list R)) :=
  match cs, old with
  | c :: cs', x :: old' => bind (rc_put (rc_col M (fst c) (snd c)) x) (fun y => option_map (cons y) (rc_columns M cs' old'))
  | [], _ => Some (map (map (fun _ => 0)) old)
  | _, [] => None
  end.
(** impl_jacobian, lines 142-182 *)
Definition rc_jacobian (old : list (list R)) : option (list (list R)) :=
  match rc_joint f with
  | None => None
  | Some j => rc_columns (place (ck k) j) (combine (ccomJ k) (jjac (ck k) j)) old
  end.
End K.
