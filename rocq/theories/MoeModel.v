(** Cache of a matrix of expressions.
    Source: /repo/include/hpp/constraints/symbolic-calculus.hh:190-239 (CalculusBase), 896-919
    (constructors), 963-977 (computeSVD, computePseudoInverse), 1053-1060 (invalidate).
    The caches of the elements are in [SymModel]: here [elem q] is what they give after invalidation
    in configuration [q].  Not modelled: the Jacobian (same flag mechanism as the value). *)
From Coq Require Import List Bool.
Import ListNotations.
Section Moe.
Variables Q V S P : Type.
Variables (elem : Q -> V) (svd_of : V -> S) (pinv_of : S -> P).
(** [pi_] is None when it has never been resized *)
Record moe := mkmoe { conf : Q; vvalid : bool; value : V; svdvalid : bool; svd : S; pivalid : bool; pi_ : option P }.
Inductive op := Move (q : Q) | Invalidate | ComputeValue | ComputeSVD | ComputePinv
  | CopyOf (v : bool) (** work on a copy, whose flag vValid_ is not initialised *).
Definition computeValue (m : moe) : moe :=
  if vvalid m then m else mkmoe (conf m) true (elem (conf m)) (svdvalid m) (svd m) (pivalid m) (pi_ m).
Definition computeSVD (m : moe) : moe :=
  if svdvalid m then m else let m := computeValue m in
  mkmoe (conf m) (vvalid m) (value m) true (svd_of (value m)) (pivalid m) (pi_ m).
Definition computePinv (m : moe) : moe :=
  if pivalid m then m else let m := computeSVD (computeValue m) in
  mkmoe (conf m) (vvalid m) (value m) (svdvalid m) (svd m) true (Some (pinv_of (svd m))).
Definition step (m : moe) (o : op) : moe :=
  match o with
  | Move q => mkmoe q (vvalid m) (value m) (svdvalid m) (svd m) (pivalid m) (pi_ m)
  | Invalidate => mkmoe (conf m) false (value m) false (svd m) false (pi_ m)
  | ComputeValue => computeValue m
  | ComputeSVD => computeSVD m
  | ComputePinv => computePinv m
  | CopyOf v => mkmoe (conf m) v (value m) (svdvalid m) (svd m) (pivalid m) None
  end.
Definition run (m : moe) (l : list op) : moe := fold_left step l m.
End Moe.
Arguments Move {Q}. Arguments Invalidate {Q}. Arguments ComputeValue {Q}. Arguments ComputeSVD {Q}. Arguments ComputePinv {Q}. Arguments CopyOf {Q}.
(** Specification: operations that neither move the robot nor copy *)
Definition compute (Q : Type) (o : op Q) : Prop := match o with ComputeValue | ComputeSVD | ComputePinv => True | _ => False end.
