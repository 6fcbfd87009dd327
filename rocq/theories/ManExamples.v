From Coq Require Import Reals Lra.
From mathcomp Require Import all_ssreflect all_algebra.
From Verif Require Import RField ManModel ManSpec ManProofs.
Set Implicit Arguments. Unset Strict Implicit. Unset Printing Implicit Defensive.
Import GRing.Theory.
Delimit Scope R_scope with coqR.
Local Open Scope ring_scope.

(** two rows, three variables of which the first and the last are active *)
Definition act3 (a : 'I_2) : 'I_3 := if a == 0%N :> nat then @Ordinal 3 0 isT else @Ordinal 3 2 isT.
Definition J3 (a b : R) : 'M[R]_(2, 3) := \matrix_(i, j) (if (i == 0%N :> nat) && (j == 0%N :> nat) then a else if (i == 1%N :> nat) && (j == 2%N :> nat) then b else 0).
Lemma only3 a b : only_active act3 (J3 a b).
Proof.
  split.
  - move=> [[|[|x]] hx] [[|[|y]] hy] //= E; try exact: val_inj; by move/(congr1 (@nat_of_ord 3)): E.
  - move=> i [[|[|[|j]]] hj] h //; rewrite mxE ?andbF //=.
    + case: (h (@Ordinal 2 0 isT)). exact: val_inj.
    + case: (h (@Ordinal 2 1 isT)). exact: val_inj.
Qed.
Lemma sv3 a b : (0 <= a)%coqR -> (0 <= b)%coqR -> singular_values (active_columns act3 (J3 a b)) [:: a; b].
Proof.
  move=> ha hb. split; first by []. split.
    by move=> s; rewrite !inE => /orP [/eqP ->|/eqP ->].
  exists 1%:M, 1%:M. rewrite !trmx1 !mul1mx mulmx1. do 2 (split; first by []).
  apply/matrixP => [[[|[|i]] hi] [[|[|j]] hj]] //; by rewrite !mxE.
Qed.
Definition half : R := (/ 2)%coqR.
Definition fifth : R := (/ 5)%coqR.
Lemma tiny_small : (tiny <= / 5)%coqR.
Proof.
  rewrite /tiny. apply Rinv_le_contravar; [lra|]. rewrite pow_IZR. apply IZR_le. by apply/Z.leb_le; vm_compute.
Qed.
Lemma case_determinant : let svd := fun _ : 'M[R]_2 => [:: half; fifth] in let J := J3 half fifth in
  only_active act3 J /\ singular_values (active_columns act3 J) (svd (active_columns act3 J)) /\
  (forall s, s \in svd (active_columns act3 J) -> (tiny <= s)%coqR) /\ manip svd act3 J = 1%coqR.
Proof.
  have t := tiny_small. move=> svd J. split; first exact: only3. split; first by apply: sv3; rewrite /half /fifth; lra.
  split; first by rewrite /svd => s; rewrite !inE => /orP [/eqP ->|/eqP ->]; rewrite /half /fifth; lra.
  rewrite /manip /svd /manip_of /log_abs_determinant /=. rewrite !Rmax_left /half /fifth; try lra.
  - rewrite /log10 !ln_Rinv; try lra. have e : (ln 10 = ln 2 + ln 5)%coqR by rewrite -ln_mult; try lra; congr ln; lra.
    have h := ln10_pos. rewrite e in h *. field. lra.
  - rewrite /log10 !ln_Rinv; try lra. have e : (ln 10 = ln 2 + ln 5)%coqR by rewrite -ln_mult; try lra; congr ln; lra.
    have h := ln10_pos. have -> : (- (- ln 2 / ln 10 + (- ln 5 / ln 10 + 0)) = 1)%coqR by rewrite e in h *; field; lra. lra.
Qed.
Lemma case_singular : let svd := fun _ : 'M[R]_2 => [:: half; 0] in let J := J3 half 0 in
  only_active act3 J /\ singular_values (active_columns act3 J) (svd (active_columns act3 J)) /\
  (forall s, s \in svd (active_columns act3 J) -> (s <= 1)%coqR) /\ \det (J *m J^T) = 0.
Proof.
  move=> svd J. have sv : singular_values (active_columns act3 J) [:: half; 0] by apply: sv3; rewrite /half; [lra|right].
  split; first exact: only3. split; first exact: sv.
  split; first by rewrite /svd => s; rewrite !inE => /orP [/eqP ->|/eqP ->]; rewrite /half; [lra|exact: Rle_0_1].
  rewrite (gram_active (only3 half 0)) (gram_det _ sv) //. rewrite /product /= expr2. 
  have -> : Rmult half (Rmult 0 1%coqR) = (0 : R) by rewrite /half; change (/ 2 * (0 * 1) = 0)%coqR; lra.
  by rewrite mul0r.
Qed.
(** more rows than active variables *)
Definition J21 : 'M[R]_(2, 1) := \matrix_(i, j) (if i == 0%N :> nat then 10%coqR else 0).
Lemma rows_refuted : exists m n k (svd : 'M[R]_(m, k) -> seq R) (act : 'I_k -> 'I_n) (J : 'M[R]_(m, n)),
  only_active act J /\ singular_values (active_columns act J) (svd (active_columns act J)) /\
  \det (J *m J^T) = 0 /\ manip svd act J = 0.
Proof.
  exists 2%N, 1%N, 1%N, (fun _ => [:: 10%coqR]), id, J21. split; first by split=> // i j h; case: (h j).
  split; first split; first by [].
  - split; first by move=> s; rewrite inE => /eqP ->; lra.
    exists 1%:M, 1%:M. rewrite !trmx1 !mul1mx mulmx1. do 2 (split; first by []).
    apply/matrixP => [[[|[|i]] hi] [[|j] hj]] //; by rewrite !mxE.
  - split.
    + rewrite (expand_det_row _ (@Ordinal 2 1 isT)) big1 // => j _. rewrite mxE big1 ?mul0r // => l _. by rewrite !mxE mul0r.
    + rewrite /manip /manip_of /log_abs_determinant /=. rewrite (@Rmax_left 10%coqR tiny); last by have := tiny_small; lra.
      have -> : log10 10 = 1%coqR by rewrite /log10; field; have := ln10_pos; lra. rewrite Rmax_right //. lra.
Qed.
