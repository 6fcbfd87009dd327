(** Convex contact surfaces.  Modelled from include/hpp/constraints/convex-shape.hh.

    Real numbers instead of floating point ones.  Reads of vectors by the member functions are
    checked: [None] is a read out of bounds.  The joint is the placement of the joint in the
    current configuration, [None] for a null pointer. *)
From Coq Require Import Reals List Arith.
From Verif Require Import Geo Rigid.
Import ListNotations.
Local Open Scope R_scope.

(** Eigen normalize(): no effect on the null vector *)
Definition normalize (v : v3) : v3 := if Rlt_dec 0 (vdot v v) then vscale (/ norm v) v else v.

(** lines 47-62 *)
Definition closestPointToSegment (P A v : v3) : v3 :=
  let w := vsub A P in let c1 := vdot v w in let c2 := vdot v v in
  if Rle_dec c1 0 then A else if Rle_dec c2 c1 then vadd A v else vadd A (vscale (c1 / c2) v).
(** lines 70-74; the assertion is not modelled *)
Definition linePlaneIntersection (A u P n : v3) : v3 := vadd A (vscale (vdot n (vsub P A) / vdot n u) u).

(** members, lines 176-196 *)
Record shape := Shape {
  s_pts : list v3; s_dim : nat; s_C : v3; s_N : v3;
  s_Ns : list v3; s_Us : list v3; s_Ls : list R; s_M : se3 }.

Definition set0 {A} (l : list A) (x : A) : list A := match l with [] => [] | _ :: l => x :: l end.
Definition cols (a b c : v3) : m3 := mtr (M3 a b c).
Definition vsum (l : list v3) : v3 := fold_left vadd l v0.
Definition nx (n i : nat) : nat := ((i + 1) mod n)%nat.
Definition pt (pts : list v3) (i : nat) : v3 := nth i pts v0.
Definition edge (pts : list v3) (i : nat) : v3 := vsub (pt pts (nx (length pts) i)) (pt pts i).

(** init, lines 235-299, from the vectors before the call: with one or two points it appends to
    Us_ and Ns_.  [None]: throws.  The reads are in bounds. *)
Definition init (pts : list v3) (oNs oUs : list v3) (oLs : list R) : option shape :=
  let fin C N Ns Us Ls := Some (Shape pts (length pts) C N Ns Us Ls (SE3 (cols N (nth 0 Ns v0) (nth 0 Us v0)) C)) in
  match pts with
  | [] => None
  | [p] => fin p (V3 1 0 0) (oNs ++ [V3 0 1 0]) (oUs ++ [V3 0 0 1]) oLs
  | [p; q] =>
      let Us := oUs ++ [vsub q p] in
      let l := norm (nth 0 Us v0) in
      let Us := set0 Us (normalize (nth 0 Us v0)) in
      let u := nth 0 Us v0 in
      let N := normalize (if Req_EM_T (vx u) 0 then V3 0 (- vz u) (vy u) else V3 (- vy u) (vx u) 0) in
      let Ns := oNs ++ [vcross u N] in
      let Ns := set0 Ns (normalize (nth 0 Ns v0)) in
      fin (vscale (/ 2) (vadd p q)) N Ns Us [l]
  | _ =>
      let n := length pts in
      let C := vscale (/ INR n) (vsum pts) in
      let N := normalize (vcross (vsub (pt pts 1) (pt pts 0)) (vsub (pt pts 2) (pt pts 1))) in
      let Us := map (fun i => normalize (edge pts i)) (seq 0 n) in
      let Ls := map (fun i => norm (edge pts i)) (seq 0 n) in
      let Ns := map (fun i => normalize (vcross (normalize (edge pts i)) N)) (seq 0 n) in
      fin C N Ns Us Ls
  end.
(** assertions of init, lines 275, 285-289 *)
Definition asserted (s : shape) : Prop :=
  (3 <= s_dim s)%nat -> s_N s <> v0 /\ forall i, (i < s_dim s)%nat -> vdot (nth (nx (s_dim s) i) (s_Us s) v0) (nth i (s_Ns s) v0) < 0.

(** constructors, lines 87-106; reverse, lines 108-111 *)
Definition create (pts : list v3) : option shape := init pts [] [] [].
Definition copy (s : shape) : option shape := init (s_pts s) [] [] [].
Definition reverse (s : shape) : option shape := init (rev (s_pts s)) (s_Ns s) (s_Us s) (s_Ls s).

(** lines 115-118 *)
Definition intersectionLocal (s : shape) (A u : v3) : v3 := linePlaneIntersection A u (s_C s) (s_N s).
(** lines 121-127 *)
Fixpoint inside_loop (s : shape) (Ap : v3) (l : list nat) : option bool :=
  match l with
  | [] => Some true
  | i :: l => match nth_error (s_Ns s) i, nth_error (s_pts s) i with
              | Some n, Some p => if Rlt_dec 0 (vdot n (vsub Ap p)) then Some false else inside_loop s Ap l
              | _, _ => None end
  end.
Definition isInsideLocal (s : shape) (Ap : v3) : option bool := inside_loop s Ap (seq 0 (s_dim s)).

(** dist, lines 202-213: w, c2, v, u *)
Definition dist (w : v3) (c2 : R) (v u : v3) : R :=
  let c1 := vdot v w in
  if Rle_dec c1 0 then (if Rlt_dec 0 (vdot u w) then norm w else - norm w)
  else if Rle_dec c2 c1 then (let e := norm (vsub w (vscale c2 v)) in if Rlt_dec 0 (vdot u w) then e else - e)
  else vdot u w.
(** distanceLocal, lines 133-148; [None] for infinities *)
Definition below (d : R) (m : option R) : bool := match m with None => true | Some m => if Rlt_dec d m then true else false end.
Definition above (d : R) (m : option R) : bool := match m with None => true | Some m => if Rlt_dec m d then true else false end.
Inductive value := OutOfBounds | Infinite | Val (r : R).
Fixpoint dist_loop (s : shape) (a : v3) (l : list nat) (minPos maxNeg : option R) (outside : bool) : value :=
  match l with
  | [] => match (if outside then minPos else maxNeg) with Some r => Val r | None => Infinite end
  | i :: l =>
      match nth_error (s_pts s) i, nth_error (s_Ls s) i, nth_error (s_Us s) i, nth_error (s_Ns s) i with
      | Some p, Some L, Some U, Some n =>
          let d := dist (vsub a p) L U n in
          if Rlt_dec 0 d then dist_loop s a l (if below d minPos then Some d else minPos) maxNeg true
          else dist_loop s a l minPos (if above d maxNeg then Some d else maxNeg) outside
      | _, _, _, _ => OutOfBounds end
  end.
Definition distanceLocal (s : shape) (a : v3) : value := dist_loop s a (seq 0 (s_dim s)) None None false.

(** ConvexShapeData, lines 302-388 *)
Record cdata := CData { d_normal : v3; d_center : v3; d_oMj : se3 }.
(** updateToCurrentTransform and _recompute, lines 311-343 *)
Definition update (joint : option se3) (cs : shape) : cdata :=
  match joint with
  | None => CData (s_N cs) (s_C cs) sid
  | Some M => CData (mulv (rot M) (s_N cs)) (act M (s_C cs)) M
  end.
Definition actInv (M : se3) (p : v3) : v3 := mulv (mtr (rot M)) (vsub p (tra M)).
(** lines 347-349, 356-366 *)
Definition intersection (d : cdata) (A u : v3) : v3 := linePlaneIntersection A u (d_center d) (d_normal d).
Definition isInside (d : cdata) (joint : option se3) (cs : shape) (Ap : v3) : option bool :=
  match joint with None => isInsideLocal cs Ap | Some _ => isInsideLocal cs (actInv (d_oMj d) Ap) end.
(** lines 383-386 *)
Definition distance (d : cdata) (joint : option se3) (cs : shape) (a : v3) : value :=
  distanceLocal cs (match joint with None => a | Some _ => actInv (d_oMj d) a end).
(** lines 369-379; yproj.isZero() is exact here *)
Definition alignedPositionInJoint (d : cdata) (cs : shape) (yaxis : v3) : se3 :=
  let yaxis := actInv (d_oMj d) yaxis in
  let yproj := vsub yaxis (vscale (vdot yaxis (s_N cs)) (s_N cs)) in
  if Req_EM_T (vdot yproj yproj) 0 then s_M cs
  else SE3 (cols (s_N cs) yaxis (vcross (s_N cs) yaxis)) (s_C cs).
(** distances of a floor and the center of an object, src/convex-shape-contact.cc:291-298 *)
Definition pair_dist (f o : option se3 * shape) : value * R :=
  let fd := update (fst f) (snd f) in let od := update (fst o) (snd o) in
  (distance fd (fst f) (snd f) (intersection fd (d_center od) (d_normal fd)),
   vdot (d_normal fd) (vsub (d_center od) (d_center fd))).
(** [dp] and [dn] of all pairs of a floor and an object *)
Definition floor_dp (floors objects : list (option se3 * shape)) (d : option se3 * shape) (j i : nat) : R :=
  match fst (pair_dist (nth j floors d) (nth i objects d)) with Val r => r | _ => 0 end.
Definition floor_dn (floors objects : list (option se3 * shape)) (d : option se3 * shape) (j i : nat) : R := snd (pair_dist (nth j floors d) (nth i objects d)).
(** the center of a surface in the world *)
Definition center (o : option se3 * shape) : v3 := d_center (update (fst o) (snd o)).
