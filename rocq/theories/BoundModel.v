(** Bounds of the step in the kernel of the contact matrix.

    Source: src/static-stability.cc:164-174 (findBoundIndex), 216-227 (computeLambdaDot).  The
    calls are commented out, lines 106, 140, 147.  Real numbers instead of floating point. *)
From Coq Require Import Reals List.
Import ListNotations.
Local Open Scope R_scope.

(** maxCoeff (index) and minCoeff (index) of Eigen: the first index; [None]: empty vector, assertion *)
Fixpoint extreme (better : R -> R -> bool) (best : R * nat) (n : nat) (l : list R) : R * nat :=
  match l with
  | [] => best
  | x :: t => extreme better (if better x (fst best) then (x, n) else best) (S n) t
  end.
Definition coeff (better : R -> R -> bool) (l : list R) : option (R * nat) :=
  match l with [] => None | x :: t => Some (extreme better (x, 0%nat) 1 t) end.
Definition greater (a b : R) : bool := if Rlt_dec b a then true else false.
Definition less (a b : R) : bool := if Rlt_dec a b then true else false.

Section B.
(** dummy_precision *)
Variable eps : R.
(** lines 170-171 *)
Definition lam (p : R * R) : R := if Rlt_dec (Rabs (snd p)) eps then 0 else - (fst p / snd p).
(** lines 172-173 *)
Definition findBoundIndex (u v : list R) : option ((R * nat) * (R * nat)) :=
  let uv := combine u v in
  match coeff greater (map (fun p => if Rlt_dec eps (snd p) then lam p else 0) uv),
        coeff less (map (fun p => if Rlt_dec (snd p) eps then lam p else 0) uv) with
  | Some a, Some b => Some (a, b)
  | _, _ => None
  end.
(** lines 216-227, one column: [du], [dv] are the entries of row i0 *)
Definition computeLambdaDot (u v du dv : R) : R :=
  if Rlt_dec (Rabs v) eps then 0 else - du / v + (u / (v * v)) * dv.
End B.
