From Coq Require Import ZArith.
From mathcomp Require Import all_ssreflect all_algebra.
From Verif Require Import SatModel IntSpec DescentModel DescentSpec DescentProofs DescentMain ProjModel ProjSpec.
Set Implicit Arguments. Unset Strict Implicit. Unset Printing Implicit Defensive.
Import Order.TTheory GRing.Theory Num.Theory.
Open Scope ring_scope.

Section P.
Variables (R : realFieldType) (n N : nat).
Notation le := (fun x y : R => x <= y).
Lemma saturate_brought (lb ub q : 'cV[R]_N) i : brought le (lb i 0) (ub i 0) (q i 0) (saturate lb ub q i 0).
Proof. by rewrite /brought /saturate mxE /clamp; case: (q i 0 <= _); case: (_ <= q i 0). Qed.
Lemma saturate_in (lb ub q : 'cV[R]_N) : (forall i, lb i 0 <= ub i 0) -> forall i, lb i 0 <= saturate lb ub q i 0 <= ub i 0.
Proof.
move=> B i; rewrite mxE /clamp; case: (leP (q i 0)) => H /=; first by rewrite lexx B.
by case: (leP (ub i 0)) => H' /=; rewrite ?lexx ?B ?andbT // !ltW.
Qed.
Lemma saturate_id (lb ub q : 'cV[R]_N) : (forall i, lb i 0 <= q i 0 <= ub i 0) -> saturate lb ub q = q.
Proof.
move=> B; apply/matrixP => i j; rewrite (ord1 j) mxE /clamp; have /andP[H1 H2] := B i.
case: (leP (q i 0)) => H /=; first by apply/eqP; rewrite eq_le H1 H.
by case: (leP (ub i 0)) => H' //=; apply/eqP; rewrite eq_le H2 H'.
Qed.
Variables (m : nat) (J : 'M[R]_(m, n)) (D : svd J) (free : 'I_n -> 'I_N).
Hypothesis free_inj : injective free.
Notation on_linear := (on_linear J free).
Lemma norm2_split (x : 'cV[R]_N) : norm2 x = norm2 (restrict free x) + \sum_(j | j \notin codom free) x j 0 ^+ 2.
Proof.
rewrite {1}/norm2 (bigID (fun j => j \in codom free)) /=; congr (_ + _).
have Hu : uniq (codom free) by apply/injectiveP.
by rewrite -(big_uniq _ Hu) codomE big_map big_enum /=; apply: eq_bigr => i _; rewrite mxE.
Qed.
Lemma restrictB (x y : 'cV[R]_N) : restrict free (x - y) = restrict free x - restrict free y.
Proof. by apply/matrixP => i j; rewrite !mxE. Qed.

Lemma col_restrict (q from : 'cV[R]_N) : \col_i (q (free i) 0 - from (free i) 0) = restrict free (q - from).
Proof. by apply/matrixP => i j; rewrite !mxE. Qed.
Definition unsat (from to : 'cV[R]_N) := from + project_vector free false D (to - from).
Lemma unsat_linear from to : on_linear from (unsat from to).
Proof.
have [A [B _]] := projection D free_inj (to - from); split.
- by move=> j Hj; rewrite mxE A // addr0.
- by rewrite col_restrict /unsat addrAC subrr add0r.
Qed.
Lemma unsat_closest from to q : on_linear from q -> norm2 (to - unsat from to) <= norm2 (to - q).
Proof.
move=> [Q1]; rewrite col_restrict => Q2; have [U1 U2] := unsat_linear from to.
rewrite !norm2_split; apply: ler_add; last first.
  apply: ler_sum => j Hj; have Hf : forall i, free i <> j by move=> i E; move: Hj; rewrite -E codom_f.
  have E1 : (to - unsat from to) j 0 = to j 0 - from j 0 by rewrite !mxE -[in RHS](U1 j Hf) !mxE.
  have E2 : (to - q) j 0 = to j 0 - from j 0 by rewrite !mxE -[in RHS](Q1 j Hf).
  by rewrite E1 E2.
have [_ [_ [C _]]] := projection D free_inj (to - from).
have := C _ Q2; rewrite -!restrictB.
have -> : to - from - project_vector free false D (to - from) = to - unsat from to by rewrite /unsat opprD addrA.
by have -> : to - from - (q - from) = to - q by rewrite opprB addrA subrK.
Qed.
Lemma unsat_fix from q : on_linear from q -> unsat from q = q.
Proof.
move=> [Q1]; rewrite col_restrict => Q2; rewrite /unsat /project_vector (project_fix D Q2).
suff -> : expand free (restrict free (q - from)) = q - from by rewrite addrC subrK.
apply/matrixP => j k; rewrite (ord1 k) [in LHS]mxE; case: pickP => [i /eqP <-|H]; first by rewrite mxE.
by rewrite !mxE Q1 ?subrr // => i /eqP; rewrite H.
Qed.

Lemma kernel_spec (lb ub from to : 'cV[R]_N) :
  let r := project_on_kernel lb ub false false free D from to in
  (exists p, on_linear from p /\ (forall q, on_linear from q -> norm2 (to - p) <= norm2 (to - q)) /\
     (forall i, brought le (lb i 0) (ub i 0) (p i 0) (r i 0))) /\
  ((forall i, lb i 0 <= ub i 0) -> forall i, lb i 0 <= r i 0 <= ub i 0) /\
  ((forall i, lb i 0 <= to i 0 <= ub i 0) -> on_linear from to -> r = to).
Proof.
cbv zeta; rewrite /project_on_kernel /=; split; [|split].
- exists (unsat from to); split; first exact: unsat_linear.
  by split=> [q|i]; [exact: unsat_closest|exact: saturate_brought].
- by move=> B i; apply: saturate_in.
- by move=> B /unsat_fix E; rewrite -/(unsat from _) E saturate_id.
Qed.
Lemma kernel_none (lb ub from to : 'cV[R]_N) none :
  project_on_kernel lb ub true none free D from to = to /\
  forall i, brought le (lb i 0) (ub i 0) (to i 0) (project_on_kernel lb ub false true free D from to i 0).
Proof.
split=> // i; rewrite /project_on_kernel /= /project_vector.
have -> : from + (to - from) = to by rewrite addrC subrK.
exact: saturate_brought.
Qed.
End P.
