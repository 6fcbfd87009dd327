From Coq Require Import Reals Lra.
From mathcomp Require Import all_ssreflect all_algebra.
From Verif Require Import RField FdModel FdProofs ManModel ManSpec.
Set Implicit Arguments. Unset Strict Implicit. Unset Printing Implicit Defensive.
Import GRing.Theory.
Delimit Scope R_scope with coqR.
Local Open Scope ring_scope.

Lemma product_big (l : seq R) : product l = \prod_(s <- l) s.
Proof. elim: l => [|x l IH]; [by rewrite big_nil|]. by rewrite big_cons -IH. Qed.
Lemma gram_active m n k (act : 'I_k -> 'I_n) (J : 'M[R]_(m, n)) : only_active act J ->
  J *m J^T = active_columns act J *m (active_columns act J)^T.
Proof.
  move=> [inj Z]; apply/matrixP => i i'. rewrite !mxE.
  rewrite (eq_bigr (fun a : 'I_k => J i (act a) * J i' (act a))); last by move=> a _; rewrite !mxE.
  rewrite (bigID (mem (codom act))) /= [X in _ + X]big1 ?addr0; last first.
    move=> j /negP h. rewrite !mxE Z ?mul0r // => a E; apply: h; rewrite -E; exact: codom_f.
  rewrite (eq_bigl (mem [set act a | a in 'I_k])); last first.
    move=> j; rewrite inE; apply/codomP/imsetP => [[a ->]|[a _ ->]]; by exists a.
  rewrite big_imset /=; last by move=> a b _ _; exact: inj.
  by apply: eq_big => [a|a _]; rewrite ?inE // !mxE.
Qed.
Lemma gram_diag m k (sv : seq R) : (m <= k)%N -> rect_diag m k sv *m (rect_diag m k sv)^T = diag_mx (\row_i (nth 0 sv i ^+ 2)).
Proof.
  move=> le; apply/matrixP => i i'. rewrite !mxE.
  have lt : (i < k)%N by exact: leq_trans (ltn_ord i) le.
  rewrite (bigD1 (Ordinal lt)) //= big1 ?addr0; last first.
    move=> j nj. rewrite !mxE. case: eqP => [E|_]; last by rewrite mul0r.
    by case/eqP: nj; apply/val_inj; rewrite /= E.
  rewrite !mxE /= eqxx. case: (eqVneq i i') => [<-|ne]; first by rewrite eqxx mulr1n expr2.
  have -> : ((i' : nat) == i) = false by apply/negbTE; apply: contra ne => /eqP h; apply/eqP/val_inj.
  by rewrite mulr0 mulr0n.
Qed.
Lemma gram_det m k (A : 'M[R]_(m, k)) sv : (m <= k)%N -> singular_values A sv -> \det (A *m A^T) = product sv ^+ 2.
Proof.
  move=> le [sz [_ [U [V [UU [VV ->]]]]]].
  have U1 : \det U * \det U = 1 by rewrite -{1}det_tr -det_mulmx UU det1.
  have -> : U *m rect_diag m k sv *m V^T *m (U *m rect_diag m k sv *m V^T)^T = U *m (rect_diag m k sv *m (rect_diag m k sv)^T) *m U^T.
    rewrite !trmx_mul trmxK -!mulmxA. congr (_ *m (_ *m _)). by rewrite (mulmxA V^T) VV mul1mx.
  rewrite gram_diag // !det_mulmx det_tr mulrAC U1 mul1r det_diag product_big.
  have sz' : size sv = m by rewrite sz; exact/minn_idPl.
  rewrite (eq_bigr (fun i : 'I_m => nth 0 sv i ^+ 2)); last by move=> i _; rewrite mxE.
  rewrite prodrXl; congr (_ ^+ 2). by rewrite (big_nth 0) sz' big_mkord.
Qed.

Lemma tiny_pos : (0 < tiny)%coqR.
Proof. rewrite /tiny. apply Rinv_0_lt_compat, pow_lt; lra. Qed.
Lemma ln10_pos : (0 < ln 10)%coqR.
Proof. rewrite -ln_1. apply ln_increasing; lra. Qed.
Definition floored (sv : seq R) : seq R := [seq Rmax s tiny | s <- sv].
Lemma floored_pos sv : (0 < product (floored sv))%coqR.
Proof.
  elim: sv => [|s sv IH]; rewrite /product /=; first lra.
  apply Rmult_lt_0_compat; [|exact IH]. have := Rmax_r s tiny; have := tiny_pos; lra.
Qed.
Lemma log_sum sv : log_abs_determinant sv = log10 (product (floored sv)).
Proof.
  elim: sv => [|s sv IH]; first by rewrite /log_abs_determinant /log10 /product /= ln_1; lra.
  rewrite /log_abs_determinant /=. rewrite -/(log_abs_determinant sv) IH /log10 /product /=.
  rewrite -/(product (floored sv)) ln_mult; [lra| |exact: floored_pos].
  have := Rmax_r s tiny; have := tiny_pos; lra.
Qed.
Lemma power_log x : (0 < x)%coqR -> Rpower 10 (log10 x) = x.
Proof. move=> h. rewrite /Rpower /log10. rewrite -[RHS]exp_ln //. congr exp. field. have := ln10_pos; lra. Qed.
Lemma manip_nonneg sv : (0 <= manip_of sv)%coqR.
Proof. exact: Rmax_r. Qed.
Lemma manip_power sv : Rpower 10 (- manip_of sv)%coqR = Rmin 1%coqR (product (floored sv)).
Proof.
  rewrite /manip_of. have P := floored_pos sv. have L := log_sum sv. set q := product _ in P L *.
  rewrite L. case: (Rle_dec q 1%coqR) => h.
  - have l0 : (log10 q <= 0)%coqR.
      rewrite /log10. have z : (ln q <= 0)%coqR by rewrite -ln_1; case: h => [h|->]; [left; apply ln_increasing; lra|right].
      have := ln10_pos => t. rewrite /Rdiv. have := Rinv_0_lt_compat _ t. nra.
    rewrite Rmax_left; [|lra]. rewrite Rmin_right; [|lra]. by rewrite Ropp_involutive power_log.
  - have l0 : (0 < log10 q)%coqR.
      rewrite /log10. have z : (0 < ln q)%coqR by rewrite -ln_1; apply ln_increasing; lra.
      apply Rdiv_lt_0_compat; [exact z|exact ln10_pos].
    rewrite Rmax_right; [|lra]. rewrite Rmin_left; [|lra]. by rewrite Ropp_0 Rpower_O; [|lra].
Qed.
Lemma tiny_log : (-308 <= log10 tiny <= -307)%coqR.
Proof.
  have b1 : (2 ^ 1022 <= 10 ^ 308)%coqR.
    rewrite !pow_IZR. apply IZR_le. by apply/Z.leb_le; vm_compute.
  have b2 : (10 ^ 307 <= 2 ^ 1022)%coqR.
    rewrite !pow_IZR. apply IZR_le. by apply/Z.leb_le; vm_compute.
  rewrite /log10 /tiny ln_Rinv; [|apply pow_lt; lra].
  have p10 n : ln (10 ^ n)%coqR = (INR n * ln 10)%coqR by apply ln_pow; lra.
  have t := ln10_pos.
  have c1 : (ln (2 ^ 1022) <= INR 308 * ln 10)%coqR.
    rewrite -p10. case: b1 => [b1|->]; [left; apply ln_increasing; [apply pow_lt; lra|exact b1]|right; reflexivity].
  have c2 : (INR 307 * ln 10 <= ln (2 ^ 1022))%coqR.
    rewrite -p10. case: b2 => [b2|->]; [left; apply ln_increasing; [apply pow_lt; lra|exact b2]|right; reflexivity].
  have e1 : INR 308 = 308%coqR by rewrite INR_IZR_INZ.
  have e2 : INR 307 = 307%coqR by rewrite INR_IZR_INZ.
  rewrite e1 in c1. rewrite e2 in c2.
  set l := ln (2 ^ 1022)%coqR in c1 c2 *. set u := ln 10%coqR in t c1 c2 *.
  split; [apply Rmult_le_reg_r with u|apply Rmult_le_reg_r with u]; try exact t;
  rewrite /Rdiv Rmult_assoc Rinv_l; lra.
Qed.

Lemma log_le x y : (0 < x)%coqR -> (x <= y)%coqR -> (log10 x <= log10 y)%coqR.
Proof.
  move=> h l. rewrite /log10. have t := Rinv_0_lt_compat _ ln10_pos.
  have : (ln x <= ln y)%coqR by case: l => [l|->]; [left; exact: ln_increasing|right].
  rewrite /Rdiv. nra.
Qed.
Lemma manip_bound sv : (manip_of sv <= 308 * INR (size sv))%coqR.
Proof.
  apply Rmax_lub; last by have := pos_INR (size sv); lra.
  elim: sv => [|s sv IH]; first by rewrite /log_abs_determinant /=; lra.
  rewrite /log_abs_determinant /= -/(log_abs_determinant sv). change (match size sv with 0%N => 1%coqR | S _ => (INR (size sv) + 1)%coqR end) with (INR (size sv).+1).
  rewrite S_INR. have := log_le tiny_pos (Rmax_r s tiny). have := tiny_log. lra.
Qed.
Lemma product_min sv : (forall s, s \in sv -> (tiny <= s)%coqR) -> floored sv = sv.
Proof. move=> h. rewrite /floored. elim: sv h => [|s sv IH] h //=. rewrite IH; last by move=> t ht; apply: h; exact: mem_behead. by rewrite Rmax_left //; apply: h; exact: mem_head. Qed.

Lemma det_value m n k (svd : 'M[R]_(m, k) -> seq R) (act : 'I_k -> 'I_n) (J : 'M[R]_(m, n)) : (m <= k)%N -> only_active act J ->
  singular_values (active_columns act J) (svd (active_columns act J)) ->
  (forall s, s \in svd (active_columns act J) -> (tiny <= s)%coqR) ->
  Rpower 10 (-2 * manip svd act J)%coqR = Rmin 1%coqR (\det (J *m J^T)).
Proof.
  move=> le oa SV big. rewrite (gram_active oa) (gram_det le SV) /manip. have e := manip_power (svd (active_columns act J)).
  rewrite (product_min big) in e. have p : (0 < product (svd (active_columns act J)))%coqR by rewrite -(product_min big); exact: floored_pos.
  set P := product _ in e p *. have -> : (-2 * manip_of (svd (active_columns act J)))%coqR = (- manip_of (svd (active_columns act J)) + - manip_of (svd (active_columns act J)))%coqR by lra.
  rewrite Rpower_plus e expr2. rewrite -/(Rmult P P).
  rewrite /Rmin. have -> : P * P = (P * P)%coqR by []. case: (Rle_dec 1%coqR P) => h; case: (Rle_dec 1%coqR (P * P)%coqR) => h'; nra.
Qed.
Lemma mem_prod0 (sv : seq R) : product sv = 0 -> (0 : R) \in sv.
Proof.
  elim: sv => [|s sv IH]; rewrite /product /=; first by move/R1_neq_R0.
  move/Rmult_integral => [->|h]; rewrite inE ?eqxx //. by rewrite IH ?orbT.
Qed.
Lemma log_small sv : (forall s, s \in sv -> (s <= 1)%coqR) -> (log_abs_determinant sv <= 0)%coqR.
Proof.
  elim: sv => [|s sv IH] h; first by rewrite /log_abs_determinant /=; lra.
  rewrite /log_abs_determinant /= -/(log_abs_determinant sv).
  have h1 := IH (fun t (ht : t \in sv) => h t (mem_behead (s := s :: sv) ht)).
  have t1 : (tiny <= 1)%coqR.
    rewrite /tiny -Rinv_1. apply Rinv_le_contravar; [lra|]. rewrite -(pow1 1022). apply pow_incr; lra.
  have h2 : (Rmax s tiny <= 1)%coqR by apply Rmax_lub; [apply: h; exact: mem_head|exact t1].
  have p : (0 < Rmax s tiny)%coqR by have := Rmax_r s tiny; have := tiny_pos; lra.
  have := log_le p h2. have -> : log10 1%coqR = 0%coqR by rewrite /log10 ln_1; lra. lra.
Qed.
Lemma log_singular sv : (0 : R) \in sv -> (forall s, s \in sv -> (s <= 1)%coqR) -> (log_abs_determinant sv <= -307)%coqR.
Proof.
  elim: sv => [|s sv IH] // z h. rewrite /log_abs_determinant /= -/(log_abs_determinant sv).
  have hs := fun t (ht : t \in sv) => h t (mem_behead (s := s :: sv) ht).
  move: z; rewrite inE => /orP [/eqP e|z].
  - rewrite -e. have -> : Rmax (0 : R) tiny = tiny by apply Rmax_right; left; exact tiny_pos.
    have := log_small hs. have := tiny_log. lra.
  - have := IH z hs. have := @log_small [:: s]. rewrite /log_abs_determinant /= => q.
    have : (log10 (Rmax s tiny) + 0 <= 0)%coqR by apply: q => t; rewrite inE => /eqP ->; apply: h; exact: mem_head.
    lra.
Qed.
Lemma singular_value m n k (svd : 'M[R]_(m, k) -> seq R) (act : 'I_k -> 'I_n) (J : 'M[R]_(m, n)) : (m <= k)%N -> only_active act J ->
  singular_values (active_columns act J) (svd (active_columns act J)) ->
  (forall s, s \in svd (active_columns act J) -> (s <= 1)%coqR) ->
  \det (J *m J^T) = 0 -> (307 <= manip svd act J)%coqR.
Proof.
  move=> le oa SV small. rewrite (gram_active oa) (gram_det le SV) => /Rmult_integral d.
  have d0 : product (svd (active_columns act J)) = 0 by case: d.
  have := log_singular (mem_prod0 d0) small. rewrite /manip /manip_of => l.
  have := Rmax_l (- log_abs_determinant (svd (active_columns act J)))%coqR 0%coqR. lra.
Qed.

Lemma jacobian_quotient integ adp value x n J k : (forall y z, (forall j, y j = z j) -> value y = value z) ->
  (forall u v, (forall j, u j = v j) -> forall j, integ x u j = integ x v j) ->
  (k < n)%N ->
  manip_jacobian integ adp value x n J 0 k =
  (if adp k then let h := step (/ 10 ^ 8) k x in (value (integ x (unit_vec k h)) - value (integ x (unit_vec k (- h)))) / h / 2 else 0)%coqR.
Proof.
  move=> hv hi lt. rewrite /manip_jacobian FdProofs.robot_central; [|by move=> u v e i; apply: hv|exact hi].
  have -> : (k <? n)%nat = true by apply/Nat.ltb_lt; exact/ltP. by [].
Qed.
