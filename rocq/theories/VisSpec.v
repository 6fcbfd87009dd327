(** When the Jacobian of the implicit form of an explicit constraint is the derivative of its value. *)
From Coq Require Import Reals List Bool ZArith.
From Verif Require Import Geo Rigid SegModel SegSpec ViewModel FunModel EcsModel EcsJacModel EcsJacSpec ImplFunModel VisModel.
Import ListNotations.
Local Open Scope R_scope.

(** the sizes and the variables of an implicit form with one factor, and the matrix [J] to fill *)
Record shaped (g : ifun R R) (fa : factor R R) (q : Z -> R) (J : mat R) : Prop := Shaped {
  sh_space : if_space g = [fa];
  sh_nr : nr J = fa_v fa; sh_nc : nc J = if_nv g; sh_nv : (0 <= if_nv g)%Z;
  sh_in : forall s, In s (if_inv g) -> (0 <= fst s /\ 0 <= snd s /\ fst s + snd s <= if_nv g)%Z;
  sh_out : forall s, In s (if_outv g) -> (0 <= fst s /\ 0 <= snd s /\ fst s + snd s <= if_nv g)%Z;
  sh_din : NoDup (indices (if_inv g)); sh_dout : NoDup (indices (if_outv g));
  sh_disj : forall i, ~ (In i (indices (if_inv g)) /\ In i (indices (if_outv g)));
  sh_card : length (indices (if_outv g)) = Z.to_nat (fa_v fa);
  sh_qo : length (indices (if_out g)) = Z.to_nat (fa_q fa);
  sh_f : length (if_f g (map q (indices (if_in g)))) = Z.to_nat (fa_q fa);
  sh_Jr : nr (if_J g (map q (indices (if_in g)))) = fa_v fa;
  sh_Jc : nc (if_J g (map q (indices (if_in g)))) = Z.of_nat (length (indices (if_inv g))) }.
(** velocities of the outputs, and of the value of the explicit function through its Jacobian *)
Definition pick (dq : Z -> R) (l : list (Z * Z)) (i : nat) : R := nth i (map dq (indices l)) 0.
Fixpoint dotf (c : nat -> R) (l : list R) : R := match l with [] => 0 | x :: t => c O * x + dotf (fun k => c (S k)) t end.
Definition rate (F : mat R) (v : list R) (i : nat) : R := dotf (fun k => at_ F (Z.of_nat i) (Z.of_nat k)) v.
Definition vec6 (h : nat -> R) : twist := Tw (V3 (h 0%nat) (h 1%nat) (h 2%nat)) (V3 (h 3%nat) (h 4%nat) (h 5%nat)).
Definition vec3 (h : nat -> R) : v3 := V3 (h 0%nat) (h 1%nat) (h 2%nat).
(** velocity in R^3 x SO(3): linear velocity in the fixed frame, angular velocity in the moving one *)
Definition moves_r3so3 (M : R -> se3) (t : R) (T : twist) : Prop :=
  mderiv (fun s => rot (M s)) t (mul (rot (M t)) (cross_matrix (ang T))) /\ vderiv (fun s => tra (M s)) t (lin T).
Definition turns (M : R -> m3) (t : R) (w : v3) : Prop := mderiv M t (mul (M t) (cross_matrix w)).
(** every coordinate of the value has the derivative given by the rows of [J'] *)
Definition jacobian_is_derivative (g : ifun R R) (n : nat) (q : R -> Z -> R) (dq : Z -> R) (J' : mat R) : Prop :=
  forall i, (i < n)%nat -> deriv (fun s => nth i (if_value g (q s)) 0) 0
    (ksum 0 Rplus (Z.to_nat (if_nv g)) (fun j => at_ J' (Z.of_nat i) j * dq j)).
