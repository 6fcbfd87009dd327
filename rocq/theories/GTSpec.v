(** Specification of transformation functions. *)
From Coq Require Import Reals List Bool Arith.
From Verif Require Import Geo Rigid LogModel LogSpec GTModel.
Import ListNotations.
Local Open Scope R_scope.

(** Elements of a list selected by a mask. *)
Fixpoint select {A} (m : list bool) (l : list A) : list A :=
  match m, l with
  | b :: m', x :: l' => if b then x :: select m' l' else select m' l'
  | _, _ => []
  end.
(** Placement of frame 2 in frame 1; a null joint is the world. *)
Definition joint_place (j : option nat) (k : kins) : se3 := match j with Some j => place k j | None => sid end.
Definition relpose (g : gt) (k : kins) : se3 :=
  comp (sinv (comp (joint_place (g_j1 g) k) (F1 g))) (comp (joint_place (g_j2 g) k) (F2 g)).
(** Row [i] of a matrix given by columns, times a vector. *)
Definition row_times (J : list (list R)) (i : nat) (d : list R) : R := rapp (map (fun c => nth i c 0) J) d.
(** The mask has the length of the derivative, all the orientation if the output is in SO(3). *)
Definition good_mask (o : opts) (m : list bool) : Prop :=
  length m = ((if position o then 3 else 0) + (if orientation o then 3 else 0))%nat /\
  (position o || orientation o = true) /\
  (so3 o = true -> orientation o = true /\ skipn (if position o then 3 else 0) m = [true; true; true]).
Definition count (m : list bool) : nat := length (filter (fun b => b) m).
(** The joints of the function move with the velocity [d] of the robot. *)
Definition joint_moves (j : option nat) (K : R -> kins) (t : R) (d : list R) : Prop :=
  match j with
  | None => True
  | Some j => (forall s, rotation (rot (place (K s) j))) /\ moves (fun s => place (K s) j) t (japp (jjac (K t) j) d)
  end.
(** Angles where the logarithm is differentiated exactly. *)
Definition log_ok (th : R) : Prop := / 1000000 < th < PI \/ th = 0.

(** The coordinates of a placement that the function may select. *)
Definition coords (quat : m3 -> list R) (o : opts) (p : se3) : list R :=
  (if position o then v3l (tra p) else []) ++
  (if orientation o then (if so3 o then quat (rot p) else v3l (snd (logSO3 (rot p)))) else []).

(** The value last written by a sequence of setters, [x0] if there is none. *)
Definition latest {A} (written : setter -> option A) (l : list setter) (x0 x : A) : Prop :=
  (exists a s b, l = a ++ s :: b /\ written s = Some x /\ forall s', In s' b -> written s' = None) \/
  (x = x0 /\ forall s, In s l -> written s = None).
(** What each setter writes; the reference is frame 1, with frame 2 on joint 2.  The root joint
    is the world, functions that are not relative have no joint 1. *)
Definition writes_F1 (s : setter) : option se3 := match s with SetF1 M | SetRef M => Some M | _ => None end.
Definition writes_F2 (s : setter) : option se3 := match s with SetF2 M => Some M | SetRef _ => Some sid | _ => None end.
Definition writes_J1 (o : opts) (s : setter) : option (option nat) :=
  match s with SetJ1 j => Some (if relative o then match j with Some O => None | _ => j end else None) | _ => None end.
Definition writes_J2 (s : setter) : option (option nat) := match s with SetJ2 j => Some j | _ => None end.
