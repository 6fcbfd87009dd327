(** The factor chosen by backtracking on affine constraints. *)
From Coq Require Import Reals ZArith Lra.
From mathcomp Require Import all_ssreflect all_algebra.
From Verif Require Import SolveModel LineModel LineProofs DescentModel DescentSpec DescentProofs RField RReal AffModel AffSpec AffProofs.
Set Implicit Arguments. Unset Strict Implicit. Unset Printing Implicit Defensive.
Import Order.TTheory GRing.Theory Num.Theory.
Delimit Scope R_scope with coqR.
Open Scope ring_scope.
Notation FR := R_realFieldType.

Section Count.
Variables (n : nat) (q : 'cV[FR]_n).
Lemma seg_sum r (e : 'cV[FR]_r) M sizes : forall iv m, seg_max e iv sizes m <= M ->
  \sum_(i < r | (iv <= i < iv + sumn sizes)%N) e i 0 ^+ 2 <= (size sizes)%:R * M.
Proof.
elim: sizes => [|nv t IH] iv m /=.
  by move=> _; rewrite addn0 mul0r big1 // => i /andP[h1 h2]; move: (leq_ltn_trans h1 h2); rewrite ltnn.
move=> h; rewrite (bigID (fun i : 'I_r => (i < iv + nv)%N)) /= [in X in _ <= X]mulrS mulrDl mul1r; apply: ler_add.
  apply: le_trans (_ : seg_norm e iv nv <= _); last by apply: le_trans h; apply: le_trans (seg_max_ge _ _ _ (Num.max m (seg_norm e iv nv))); rewrite le_maxr lexx orbT.
  rewrite /seg_norm le_eqVlt; apply/orP; left; apply/eqP; apply: eq_bigl => i.
  case: (leqP iv i) => //= _; case: (ltnP i (iv + nv)) => h'; rewrite ?andbF ?andbT //.
  by apply: leq_trans h' _; rewrite addnA leq_addr.
apply: le_trans (IH _ _ h); rewrite le_eqVlt; apply/orP; left; apply/eqP; apply: eq_bigl => i.
rewrite -leqNgt addnA andbC andbA; case: (leqP (iv + nv) i) => //= h'.
by rewrite (leq_trans (leq_addr nv iv) h').
Qed.
Definition total_error (ls : seq (alevel FR n)) : R := foldl (fun s l => s + norm2 (aerr l q)) 0 ls.
Definition constraints (ls : seq (alevel FR n)) : nat := sumn [seq size (al_sizes l) | l <- ls].
Lemma foldl_res_ge ls : forall m, m <= foldl (fun m l => seg_max (aerr l q) 0 (al_sizes l) m) m ls.
Proof. by elim: ls => [|l ls IH] m //=; exact: le_trans (seg_max_ge _ _ _ _) (IH _). Qed.
Lemma total_le ls : (forall l, List.In l ls -> sumn (al_sizes l) = al_rows l) -> (total_error ls : FR) <= (constraints ls)%:R * aresidual ls q.
Proof.
rewrite /total_error /aresidual => hc.
suff G (s m M : FR) : foldl (fun m l => seg_max (aerr l q) 0 (al_sizes l) m) m ls <= M -> foldl (fun s l => s + norm2 (aerr l q)) s ls <= s + (constraints ls)%:R * M.
  by rewrite -[X in _ <= X]add0r; apply: G (lexx _).
elim: ls hc s m => [|l ls IH] hc s m /= h; first by rewrite /constraints mul0r addr0.
rewrite /constraints /= natrD mulrDl addrA; apply: le_trans (IH _ _ _ h) _; first by move=> l' h'; apply: hc; right.
rewrite ler_add2r ler_add2l; have h1 : seg_max (aerr l q) 0 (al_sizes l) m <= M by apply: le_trans (foldl_res_ge _ _) h.
apply: le_trans (seg_sum h1); rewrite /norm2 le_eqVlt; apply/orP; left; apply/eqP; apply: eq_bigl => i.
by rewrite add0n (hc l (or_introl erefl)) ltn_ord.
Qed.
End Count.

Section Step.
Variables (n : nat) (ls : seq (alevel FR n)) (q d : 'cV[FR]_n).
Hypothesis Hd : forall l, List.In l ls -> al_A l *m d = - aerr l q.
Lemma slopeE : aslope ls q d = Ropp (total_error q ls).
Proof.
rewrite /aslope /total_error.
suff G (s : FR) : (forall l, List.In l ls -> al_A l *m d = - aerr l q) ->
  foldl (fun s l => s + ((al_A l *m d)^T *m aerr l q) 0 0) (- s) ls = - foldl (fun s l => s + norm2 (aerr l q)) s ls by have := G 0 Hd; rewrite oppr0.
elim: ls s => [|l t IH] s h //=; rewrite (h l (or_introl erefl)) -IH; last by move=> l' h'; apply: h; right.
congr (foldl _ _ _); rewrite opprD; congr (_ + _); rewrite mxE /norm2 -sumrN; apply: eq_bigr => i _.
by rewrite !mxE mulNr expr2.
Qed.
Lemma moved (a : R) : aresidual ls (q + a *: d) = ((1 - a) * (1 - a) * aresidual ls q)%coqR.
Proof. by rewrite (@residual_scale FR n ls q _ (1 - a)) ?expr2 // => l /Hd h; apply: aerr_step. Qed.
Notation S := (total_error q ls).
Notation f := (aresidual ls q).
Lemma accepts (a : R) : (0 < a)%coqR -> (- a * (2 * (1 / 1000) * aslope ls q d) <= f - aresidual ls (q + a *: d))%coqR <-> (S <= 500 * (2 - a) * f)%coqR.
Proof.
move=> ha; rewrite slopeE moved; set s := S; set r : R := f.
have -> : (- a * (2 * (1 / 1000) * - s) = a / 500 * s)%coqR by field.
have -> : (r - (1 - a) * (1 - a) * r = a / 500 * (500 * (2 - a) * r))%coqR by field.
by split=> [|h]; [apply: Rmult_le_reg_l; lra|apply: Rmult_le_compat_l => //; lra].
Qed.
Lemma total_ge0 : (0 <= S)%coqR.
Proof.
rewrite /total_error; suff G (s : FR) : 0 <= s -> 0 <= foldl (fun s l => s + norm2 (aerr l q)) s ls by apply/leR; apply: (G 0).
elim: ls s => [|l t IH] s h //=; apply: IH; apply: addr_ge0 => //; apply: sumr_ge0 => i _; exact: sqr_ge0.
Qed.
Definition factor (S f : R) : R :=
  (if Rle_dec S (500 * f) then 1 else if Rle_dec S (650 * f) then 7 / 10 else if Rle_dec S (755 * f) then 49 / 100 else
   if Rle_dec S (8285 / 10 * f) then 343 / 1000 else if Rle_dec S (87995 / 100 * f) then 2401 / 10000 else 2 / 10)%coqR.
Lemma back_exact St (s : St) : ls_backtracking ls s q d = Some (q + factor S f *: d, factor S f *: d, s).
Proof.
rewrite /ls_backtracking /bt_step; case: Rlt_dec => [h|_].
  exfalso; move: h; rewrite slopeE /=; have := total_ge0; lra.
have A a (e : R) : (0 < a)%coqR -> (500 * (2 - a) = e)%coqR -> (- a * (2 * (1 / 1000) * aslope ls q d) <= f - aresidual ls (q + a *: d))%coqR <-> (S <= e * f)%coqR.
  by move=> h <-; exact: accepts.
rewrite /= /vadd /vscale /factor.
do 5 (case: Rlt_dec => [_|]; last by lra). case: Rlt_dec => [|_]; first by lra.
have H1 := A 1%coqR 500%coqR ltac:(lra) ltac:(lra).
have H2 := A (1 * (7 / 10))%coqR 650%coqR ltac:(lra) ltac:(lra).
have H3 := A (1 * (7 / 10) * (7 / 10))%coqR 755%coqR ltac:(lra) ltac:(lra).
have H4 := A (1 * (7 / 10) * (7 / 10) * (7 / 10))%coqR (8285 / 10)%coqR ltac:(lra) ltac:(lra).
have H5 := A (1 * (7 / 10) * (7 / 10) * (7 / 10) * (7 / 10))%coqR (87995 / 100)%coqR ltac:(lra) ltac:(lra).
have E2 : (1 * (7 / 10) = 7 / 10)%coqR by field.
have E3 : (7 / 10 * (7 / 10) = 49 / 100)%coqR by field.
have E4 : (49 / 100 * (7 / 10) = 343 / 1000)%coqR by field.
have E5 : (343 / 1000 * (7 / 10) = 2401 / 10000)%coqR by field.
by repeat (case: Rle_dec => /= ?; try tauto); rewrite ?E2 ?E3 ?E4 ?E5.
Qed.
End Step.

Lemma natINR (k : nat) : (k%:R : FR) = INR k.
Proof. by elim: k => [|k IH] //; rewrite mulrS IH S_INR addrC. Qed.
Lemma back_full n St (ls : seq (alevel FR n)) (s : St) q d : (forall l, List.In l ls -> al_A l *m d = - aerr l q) ->
  (forall l, List.In l ls -> sumn (al_sizes l) = al_rows l) -> (constraints ls <= 500)%N -> ls_backtracking ls s q d = Some (q + d, d, s).
Proof.
move=> hd hc hn; rewrite back_exact // /factor; case: Rle_dec => [?|[]]; first by rewrite !scale1r.
apply/leR; apply: le_trans (total_le q hc) _; change (500 * aresidual ls q)%coqR with ((500%coqR : FR) * aresidual ls q).
apply: ler_wpmul2r; first exact: residual_ge0.
have -> : (500%coqR : FR) = 500%:R by rewrite natINR INR_IZR_INZ.
by rewrite ler_nat.
Qed.

(** all variables at 1, constraints q_i = 0 *)
Definition many (n : nat) : alevel FR n := mkal 1%:M 0 (nseq n 1%N).
Lemma many_err n (q : 'cV[FR]_n) : aerr (many n) q = q. Proof. by rewrite /aerr /= mul1mx subr0. Qed.
Lemma many_res n : (0 < n)%N -> aresidual [:: many n] (const_mx 1) = 1%coqR.
Proof.
move=> hn; rewrite /aresidual /= many_err.
have one iv : (iv < n)%N -> seg_norm (const_mx 1 : 'cV[FR]_n) iv 1 = 1.
  move=> h; rewrite /seg_norm (big_pred1 (Ordinal h)) ?mxE ?expr1n // => i; by rewrite addn1 ltnS -eqn_leq eq_sym.
suff G k : forall iv m, (iv + k <= n)%N -> 0 <= m <= (1 : FR) -> seg_max (const_mx 1 : 'cV[FR]_n) iv (nseq k 1%N) m = (if k is 0%N then m else 1).
  by rewrite G ?lexx ?ler01 ?add0n //; case: (n) hn.
elim: k => [|k IH] iv m //= h /andP[m0 m1]; rewrite one; last by apply: leq_trans h; rewrite -addn1 leq_add2l.
by rewrite max_r // IH ?lexx ?ler01 -?addnA //; case: (k).
Qed.
Lemma many_total n : total_error (const_mx 1) [:: many n] = INR n.
Proof. by rewrite /total_error /= add0r many_err /norm2 (eq_bigr (fun _ => 1)) ?sumr_const ?card_ord ?natINR // => i _; rewrite mxE expr1n. Qed.
Lemma back_many n St (s : St) : (500 < n)%N -> let q := const_mx 1 : 'cV[FR]_n in
  aerr (many n) (q + - q) = 0 /\
  exists a : R, (2 / 10 <= a <= 7 / 10)%coqR /\ ls_backtracking [:: many n] s q (- q) = Some (q + a *: - q, a *: - q, s) /\
   ((880 <= n)%N -> a = (2 / 10)%coqR).
Proof.
move=> hn q; split; first by rewrite many_err subrr.
exists (factor (total_error q [:: many n]) (aresidual [:: many n] q)).
rewrite back_exact; last by move=> l [<-|[]]; rewrite many_err /= mul1mx.
have n0 : (0 < n)%N by apply: leq_trans hn.
rewrite many_total many_res // /factor.
have h5 : (500 < INR n)%coqR by rewrite (_ : 500%coqR = INR 500); [apply: lt_INR; apply/ssrnat.ltP|rewrite INR_IZR_INZ].
split; first by repeat (case: Rle_dec => /= ?; try lra).
split=> // h8; have : (880 <= INR n)%coqR by rewrite (_ : 880%coqR = INR 880); [apply: le_INR; apply/ssrnat.leP|rewrite INR_IZR_INZ].
by move=> ?; repeat (case: Rle_dec => /= ?; try lra).
Qed.
Lemma moves_few n St (ls : seq (alevel FR n)) thr (descent : St -> 'cV[FR]_n -> 'cV[FR]_n * St) :
  (forall s q, descends thr [seq at_q l q | l <- ls ++ [::]] (descent s q).1) -> feasible ls ->
  (forall l, List.In l ls -> sumn (al_sizes l) = al_rows l) -> (sumn [seq size (al_sizes l) | l <- ls] <= 500)%N ->
  moves_by (F := FR) (@along FR n) (fun a (d : 'cV[R]_n) => (a : R) *: d) (fun _ => True) 1 descent
    (fun s q d => odflt (q, d, s) (ls_backtracking ls s q d)).
Proof.
move=> hd hf hc hn s q _; exists 1, (descent s q).1, (descent s q).2, (descent s q).2; split; first by case: (descent s q).
by rewrite (back_full _ (descends_zero (hd s q) hf) hc hn) /= /along !scale1r lexx.
Qed.
