(** Finite differences in binary64 arithmetic, one variable.

    Source: /repo/src/differentiable-function.cc lines 97-104 (step), 106-110 (integrate), 125-191
    (finiteDiffCentral, finiteDiffForward), the same functions as FdModel.v; one variable, active, output
    in a vector space.  Numbers are Coq's executable IEEE floats (Coq.Floats.SpecFloat), operations rounded
    to nearest even, in the order of the code.
    /repo/include/hpp/constraints/differentiable-function.hh lines 142-143: default value of eps. *)
From Coq Require Import ZArith Bool Floats.SpecFloat.

Definition fadd (a b : spec_float) : spec_float := SFadd 53 1024 a b.
Definition fsub (a b : spec_float) : spec_float := SFsub 53 1024 a b.
Definition fmul (a b : spec_float) : spec_float := SFmul 53 1024 a b.
Definition fdiv (a b : spec_float) : spec_float := SFdiv 53 1024 a b.
(** 1, 2 and x / 2^n *)
Definition one : spec_float := S754_finite false 4503599627370496 (-52).
Definition two : spec_float := fadd one one.
Fixpoint halved (n : nat) (x : spec_float) : spec_float := match n with O => x | S k => halved k (fdiv x two) end.
(** square root of the epsilon of double, 2^-52 *)
Definition eps_default : spec_float := halved 26 one.

Definition fstep (eps x : spec_float) : spec_float :=
  let r := SFabs x in if SFeqb r (S754_zero false) then eps else fmul eps r.
Definition fcentral (eps : spec_float) (f : spec_float -> spec_float) (x : spec_float) : spec_float :=
  let h := fstep eps x in
  let fm := f (fadd x (SFopp h)) in
  let fp := f (fadd x h) in
  fdiv (fdiv (fsub fp fm) h) two.
Definition fforward (eps : spec_float) (f : spec_float -> spec_float) (x : spec_float) : spec_float :=
  let fx := f x in
  let h := fstep eps x in
  let fp := f (fadd x h) in
  fdiv (fsub fp fx) h.
