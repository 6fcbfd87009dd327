(** IEEE comparisons with NaN: the C++ operators and std::max on double.

    Numbers are Coq's executable IEEE floats (Coq.Floats.SpecFloat), so a NaN, the
    infinities and both zeros are values. *)
From Coq Require Import ZArith List Bool Floats.SpecFloat.
Import ListNotations.

Definition isnan (x : spec_float) : bool := match x with S754_nan => true | _ => false end.
(** a < b, false as soon as one operand is NaN *)
Definition flt (a b : spec_float) : bool := SFltb a b.
(** std::max(a, b) = (a < b) ? b : a *)
Definition fmax (a b : spec_float) : spec_float := if flt a b then b else a.
Definition fzero : spec_float := S754_zero false.
(** binary64 product *)
Definition fmul (a b : spec_float) : spec_float := SFmul 53 1024 a b.
