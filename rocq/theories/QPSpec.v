(** Specification of static stability: contact forces, all nonnegative, that balance gravity. *)
From Coq Require Import Reals List.
From Verif Require Import Geo Rigid QPModel.
Import ListNotations.
Local Open Scope R_scope.

Definition forces (n : nat) (F : list R) : Prop := length F = n /\ Forall (fun x => 0 <= x) F.
(** squared norm of the sum of the forces, gravity included *)
Definition residual (P : list twist) (F : list R) : R := let e := tadd (japp P F) gravity in tdot e e.
Definition balanced (P : list twist) : Prop := exists F, forces (length P) F /\ japp P F = minus_gravity.
(** what is expected from the solver of quadratic programs *)
Definition objective (H : list (list R)) (G F : list R) : R := / 2 * dots F (map (fun row => dots row F) H) + dots G F.
Definition qp_solves (qp : list (list R) -> list R -> list R * R) (P : list twist) : Prop :=
  let '(F, obj) := qp (hessian P) (gradient P) in
  forces (length P) F /\ obj = objective (hessian P) (gradient P) F /\
  forall F', forces (length P) F' -> objective (hessian P) (gradient P) F <= objective (hessian P) (gradient P) F'.
(** the columns of phi move, and their Jacobians give their velocity *)
Definition tderiv (f : R -> twist) (t : R) (f' : twist) : Prop :=
  vderiv (fun s => lin (f s)) t (lin f') /\ vderiv (fun s => ang (f s)) t (ang f').
Definition columns_move {Q} (phi : Q -> list twist) (dphi : Q -> list (list twist)) (c : R -> Q) (t : R) (d : list R) : Prop :=
  (forall s, length (phi (c s)) = length (dphi (c t))) /\
  forall i, (i < length (dphi (c t)))%nat -> length (nth i (dphi (c t)) []) = length d /\
     tderiv (fun s => nth i (phi (c s)) t0) t (japp (nth i (dphi (c t)) []) d).
(** the configuration of the last request of a value in a history of calls *)
Section Last.
Variable Q : Type.
Fixpoint last_of (l : list (qp_op Q)) : option Q := match l with [] => None | QValue _ q :: _ => Some q | QJacobian _ _ :: l => last_of l end.
Definition last_value (l : list (qp_op Q)) : option Q := last_of (rev l).
End Last.
