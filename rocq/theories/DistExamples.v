From Coq Require Import Reals Lra List.
From Verif Require Import Geo GeoLemmas Rigid RigidExamples DistModel.
Import ListNotations.
Local Open Scope R_scope.

(** An arm with a vertical revolute joint followed by a sliding joint; joint 2 is fixed. *)
Definition arm (q : R * R) : kin :=
  mkkin (SE3 (rotz (fst q)) (mulv (rotz (fst q)) (V3 (snd q) 0 0))) sid
        [Tw (V3 0 (snd q) 0) ez; Tw ex v0] [t0; t0].
Definition ceq2 (a b : R * R) : bool :=
  if Req_EM_T (fst a) (fst b) then if Req_EM_T (snd a) (snd b) then true else false else false.
Definition target : v3 := V3 3 0 0.
Definition park : kin := arm (0, 0).
