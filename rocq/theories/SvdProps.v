(** Property C38, existence: the decompositions that the theorems on descent directions take as given. *)
From Coq Require Import Reals.
From mathcomp Require Import all_ssreflect all_algebra.
From Verif Require Import RField RReal DescentModel DescentExamples AffModel SvdExist SvdMain.
Set Implicit Arguments. Unset Strict Implicit. Unset Printing Implicit Defensive.
Import GRing.Theory Num.Theory.
Open Scope ring_scope.

(** Every matrix over the reals, of any size and rank, has a singular value decomposition. *)
Theorem C38_decomposition : forall m k (M : 'M[R_realFieldType]_(m, k)), inhabited (svd M).
Proof. exact @svd_exists. Qed.
Print Assumptions C38_decomposition.

(** computeDescentDirection has a result on all levels, whatever the previous call left. *)
Theorem C38_defined : forall n lbl (thr : R_realFieldType) (ls : seq (level R_realFieldType n * nat)) stale,
  exists r mrs ok, direction lbl thr ls stale r mrs ok.
Proof. exact @defined. Qed.
Print Assumptions C38_defined.

(** The hypothesis on the descent of C82, C83 and C85 to C88 is met by some function, whatever the levels. *)
Theorem C38_function : forall n (thr : R_realFieldType) (St X : Type) (lv : X -> seq (level R_realFieldType n)),
  exists descent : St -> X -> 'cV[R_realFieldType]_n * St, forall s x, descends thr (lv x) (descent s x).1.
Proof. exact @descent_function. Qed.
Print Assumptions C38_function.
