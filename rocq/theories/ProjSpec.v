(** Linearised constraints at a configuration. *)
From mathcomp Require Import all_ssreflect all_algebra.
Set Implicit Arguments. Unset Strict Implicit. Unset Printing Implicit Defensive.
Open Scope ring_scope.
Section S.
Variables (R : realFieldType) (n N m : nat) (J : 'M[R]_(m, n)) (free : 'I_n -> 'I_N).
(** q differs from [from] by free variables only, and J (q - from) = 0 *)
Definition on_linear (from q : 'cV[R]_N) : Prop :=
  (forall j, (forall i, free i <> j) -> q j 0 = from j 0) /\ J *m (\col_i (q (free i) 0 - from (free i) 0)) = 0.
End S.
