(** ComBetweenFeet as a function: mask, sizes, vector and matrix written.

    Source: /repo/src/com-between-feet.cc lines 40-46, 73-98, 100-159.

    The rows are those of SymModel.v ([cbf_compute], [cbf_jacobian]).  The Jacobian is a
    list of columns; [cols] has for each column of the joint Jacobians the state of the
    robot, with that column, and the state of the expressions.  None = access out of
    bounds. *)
From Coq Require Import Reals List Bool Arith.
From Verif Require Import Geo SymModel.
Import ListNotations.

(** lines 40-46 *)
Definition feet_size (mask : list bool) : nat := length (filter (fun b => b) mask).
(** mask_[0] to mask_[3], lines 105-121; std::vector does not check the index *)
Definition mask4 (mask : list bool) : option (bool * bool * bool * bool) :=
  match mask with b0 :: b1 :: b2 :: b3 :: _ => Some (b0, b1, b2, b3) | _ => None end.
(** rows are written from the first one, the others keep their content *)
Definition put_rows (v old : list R) : option (list R) :=
  if length v <=? length old then Some (v ++ skipn (length v) old) else None.

Section Feet.
Variables (jl jr jref : nat) (pl pr pref : v3).
(** impl_compute, lines 100-127 *)
Definition feet_value (mask : list bool) (q : robot) (s : robot * store) (result : list R) : option (list R) :=
  match mask4 mask with Some m => put_rows (fst (cbf_compute jl jr jref pl pr pref m q s)) result | None => None end.
(** impl_jacobian, lines 129-159: leftCols (jointRef_->jacobian ().cols ()) *)
Fixpoint put_columns (m : bool * bool * bool * bool) (cols : list (robot * (robot * store))) (J : list (list R)) : option (list (list R)) :=
  match cols, J with
  | [], _ => Some J
  | (q, s) :: t, c :: J' =>
      match put_rows (fst (cbf_jacobian jl jr jref pl pr m q s)) c, put_columns m t J' with
      | Some c', Some J'' => Some (c' :: J'')
      | _, _ => None
      end
  | _ :: _, [] => None
  end.
Definition feet_jacobian (mask : list bool) (cols : list (robot * (robot * store))) (J : list (list R)) : option (list (list R)) :=
  match mask4 mask with Some m => put_columns m cols J | None => None end.
End Feet.
