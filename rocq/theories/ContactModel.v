(** Contact of convex shapes: selection of a pair of surfaces, value of the contact
    constraint and of its complement, decoding of the right hand side.

    Source: /repo/src/convex-shape-contact.cc:113-128 (computeRadius), 195-226
            (impl_compute), 287-318 (selectConvexShapes), 370-406
            (computeRelativePoseRightHandSide), 408-426 (complement impl_compute),
            484-490 (hold impl_compute);
            /repo/src/explicit/convex-shape-contact.cc:125-145, 195-215 (pose_).

    Numbers are reals (rounding, infinities and NaN are not modelled, except that minDist
    starts at infinity, [None]).  Distances [dp j i] (signed, in the plane of floor j, of the
    center of object i) and [dn j i] (along the normal) are given functions. *)
From Coq Require Import Reals List Bool Arith ZArith.
Import ListNotations.
Open Scope R_scope.

Definition rlt (a b : R) : bool := if Rlt_dec a b then true else false.
Definition req (a b : R) : bool := if Req_EM_T a b then true else false.

(** lines 113-128: vertices relative to the center of the polygon, in the frame of the
    surface (y and z axes in the plane) *)
Definition norm (p : R * R) : R := sqrt (fst p * fst p + snd p * snd p).
Definition radius (floors : list (list (R * R))) : R :=
  fold_left (fun M shape => fold_left (fun M p => if rlt M (norm p) then norm p else M) shape M) floors 0 + 1.

(** lines 287-318; state: minDist, iobject, ifloor and isInside, uninitialised (None) at the
    beginning.  Result: floor, object, isInside. *)
Section Select.
Variables dp dn : nat -> nat -> R.
Definition dist (j i : nat) : R := if rlt (dp j i) 0 then dn j i * dn j i else dp j i * dp j i + dn j i * dn j i.
Definition sel := option (R * (nat * nat * bool)).
Definition sel_step (s : sel) (ji : nat * nat) : sel :=
  let d := dist (fst ji) (snd ji) in
  match s with
  | Some (m, _) => if rlt d m then Some (d, (fst ji, snd ji, rlt (dp (fst ji) (snd ji)) 0)) else s
  | None => Some (d, (fst ji, snd ji, rlt (dp (fst ji) (snd ji)) 0))
  end.
Definition pairs (nf no : nat) : list (nat * nat) := flat_map (fun j => map (fun i => (j, i)) (seq 0 no)) (seq 0 nf).
Definition select (nf no : nat) : option (nat * nat * bool) := option_map snd (fold_left sel_step (pairs nf no) None).
End Select.

(** relative pose of the object in the floor: log in R^3 x SO(3) *)
Record pose := mkpose { px : R; py : R; pz : R; rx : R; ry : R; rz : R }.
(** value of the 8 rows *)
Record hold := mkhold { h0 : R; h1 : R; h2 : R; h3 : R; h4 : R; h5 : R; h6 : R; h7 : R }.
(** lines 195-226 then 408-426; [point]: contact of type POINT_ON_PLANE *)
Definition hold_value (M margin : R) (point inside : bool) (v : pose) (ifloor iobject : nat) : hold :=
  mkhold (px v + margin) (if inside then 0 else py v) (if inside then 0 else pz v)
    (if point then 0 else ry v) (if point then 0 else rz v)
    ((if inside then py v else 0) + INR (2 * ifloor) * M)
    ((if inside then pz v else 0) + INR (2 * iobject) * M)
    (rx v).

(** lines 370-406.  floor (Y / (2 M) + .5) as an index: None = the assertion fails (the
    conversion of a negative number to size_t is undefined). *)
Definition index (M Y : R) : option nat :=
  let k := Int_part (Y / (2 * M) + / 2) in if (k <? 0)%Z then None else Some (Z.to_nat k).
Definition decode (M : R) (h : hold) : option (nat * nat * pose) :=
  match index M (h5 h), index M (h6 h) with
  | Some f, Some o =>
      let inside := req (h1 h) 0 && req (h2 h) 0 in
      Some (f, o, mkpose (h0 h) (if inside then h5 h - INR (2 * f) * M else h1 h)
                    (if inside then h6 h - INR (2 * o) * M else h2 h) (h7 h) (h3 h) (h4 h))
  | _, _ => None
  end.

(** explicit/convex-shape-contact.cc:195-215: pose_, and the access of line 141 *)
Definition poses {A} (mk : nat -> nat -> A) (nf no : nat) : list A := map (fun ji => mk (fst ji) (snd ji)) (pairs nf no).
Definition pose_at {A} (l : list A) (no ifloor iobject : nat) : option A := nth_error l (ifloor * no + iobject).
