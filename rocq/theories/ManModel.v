(** Manipulability.
    Modelled from src/manipulability.cc:33-66 and 102-108 (value) and 110-112 (Jacobian: the
    central finite differences of FdModel.v with step 1e-8).

    Reals instead of floating point numbers: std::numeric_limits<double>::min () is 2^-1022. The
    singular values are those of Eigen::JacobiSVD; ManSpec.v says what is assumed of them. *)
From Coq Require Import Reals.
From mathcomp Require Import all_ssreflect all_algebra.
From Verif Require Import RField FdModel.
Set Implicit Arguments. Unset Strict Implicit. Unset Printing Implicit Defensive.
Delimit Scope R_scope with coqR.

Definition log10 (x : R) : R := (ln x / ln 10)%coqR.
Definition tiny : R := (/ 2 ^ 1022)%coqR.
(** cols_.rview (J_), line 56; [act] enumerates the active velocity variables (line 42, see C09) *)
Definition active_columns m n k (act : 'I_k -> 'I_n) (J : 'M[R]_(m, n)) : 'M[R]_(m, k) := (\matrix_(i, j) J i (act j))%R.
(** lines 58-62: cwiseMax, log10, sum *)
Definition log_abs_determinant (sv : seq R) : R := foldr Rplus 0%coqR [seq log10 (Rmax s tiny) | s <- sv].
(** line 107 *)
Definition manip_of (sv : seq R) : R := Rmax (- log_abs_determinant sv)%coqR 0%coqR.
(** impl_compute, [svd] the singular values *)
Definition manip m n k (svd : 'M[R]_(m, k) -> seq R) (act : 'I_k -> 'I_n) (J : 'M[R]_(m, n)) : R :=
  manip_of (svd (active_columns act J)).
(** impl_jacobian; [integ] is the integration of a velocity, [value] the value at a configuration *)
Definition manip_jacobian (integ : vec -> vec -> vec) (adp : nat -> bool) (value : vec -> R) (x : vec) (n : nat) (J : nat -> nat -> R) : nat -> nat -> R :=
  central (robot_op integ) (/ 10 ^ 8)%coqR adp (fun y _ => value y) x n J.
