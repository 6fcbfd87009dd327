(** Specification of the explicit relative transformation. *)
From Coq Require Import Reals List ZArith.
From Verif Require Import Geo Rigid SegModel ViewModel GTModel GTSpec RTModel.
Local Open Scope R_scope.

(** Joint 2 is at [x] in the frame where its configuration is expressed; placement of frame 2 in
    frame 1, the value of the implicit function. *)
Definition parent_place (f : rtf) (k : kins) : se3 := match r_parent f with Some (S n) => place k (S n) | _ => sid end.
Definition place1 (f : rtf) (k : kins) : se3 := match r_j1 f with Some j => place k j | None => sid end.
Definition implicit_value (f : rtf) (k : kins) (x : se3) : se3 :=
  let J2 := comp (comp (parent_place f k) (r_pos f)) x in
  comp (sinv (comp (place1 f k) (r_F1 f))) (comp J2 (r_F2 f)).
(** the joints move when the input variables have velocity [d] *)
Definition input_moves (f : rtf) (j : option nat) (K : R -> kins) (t : R) (d : list R) : Prop :=
  match j with
  | None => True
  | Some j => (forall s, rotation (rot (place (K s) j))) /\
              moves (fun s => place (K s) j) t (japp (vread (fun i => nth (Z.to_nat i) (jjac (K t) j) t0) (r_in f)) d)
  end.
Definition good_frames (f : rtf) : Prop := rotation (rot (r_F1 f)) /\ rotation (rot (r_F2 f)) /\ rotation (rot (r_pos f)).
(** the exponential inverts the logarithm at the right hand side, moved to the frame of joint 2 *)
Definition log_inverted (exp6 : twist -> se3) (log6 : se3 -> twist) (f : rtf) (M : se3) : Prop :=
  let X := comp (comp (r_F2 f) M) (sinv (r_F2 f)) in exp6 (log6 X) = X.
