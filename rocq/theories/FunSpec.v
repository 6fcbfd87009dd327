(** What differentiable functions have to satisfy, independently of FunModel's helpers. *)
From Coq Require Import ZArith List Bool.
From Verif Require Import ViewModel FunModel SegSpec.
Import ListNotations.
Local Open Scope Z_scope.

Definition in_mat {A} (m : mat A) (i j : Z) : Prop := 0 <= i < nr m /\ 0 <= j < nc m.

(** same sizes and same coefficients *)
Definition same {A} (m m' : mat A) : Prop := nr m = nr m' /\ nc m = nc m' /\ forall i j, in_mat m i j -> at_ m i j = at_ m' i j.

(** A function with consistent sizes whose Jacobian only looks at the matrix it was
    given; it may leave coefficients as they were. *)
Definition wf_fn {A} (f : fn A) : Prop :=
  0 <= f_in f /\ 0 <= f_ind f /\ 0 <= f_out f /\ 0 <= f_outd f /\
  length (f_act f) = Z.to_nat (f_in f) /\ length (f_actd f) = Z.to_nat (f_ind f) /\
  (forall x, length x = Z.to_nat (f_in f) -> length (f_val f x) = Z.to_nat (f_out f)) /\
  (forall x m, length x = Z.to_nat (f_in f) -> nr m = f_outd f -> nc m = f_ind f ->
     exists m', f_jac f x m = Some m' /\ nr m' = nr m /\ nc m' = nc m) /\
  (forall x m1 m2 m1' m2', length x = Z.to_nat (f_in f) -> nr m1 = f_outd f -> nc m1 = f_ind f -> same m1 m2 ->
     f_jac f x m1 = Some m1' -> f_jac f x m2 = Some m2' -> same m1' m2').

(** All functions of a set have the same input sizes. *)
Definition same_input {A} (f g : fn A) : Prop := f_in f = f_in g /\ f_ind f = f_ind g.

(** rows of a matrix starting at r *)
Definition row_block {A} (m : mat A) (r n : Z) (b : mat A) : Prop :=
  nr b = n /\ nc b = nc m /\ forall i j, 0 <= i < n -> 0 <= j < nc m -> at_ b i j = at_ m (r + i) j.
Definition col_block {A} (m : mat A) (c n : Z) (b : mat A) : Prop :=
  nr b = nr m /\ nc b = n /\ forall i j, 0 <= i < nr m -> 0 <= j < n -> at_ b i j = at_ m i (c + j).

Definition sumz (l : list Z) : Z := fold_right Z.add 0 l.
