From mathcomp Require Import all_ssreflect all_algebra.
From Verif Require Import DescentModel DescentSpec DescentProofs PinvModel PinvSpec PinvProofs PinvMain.
Set Implicit Arguments. Unset Strict Implicit. Unset Printing Implicit Defensive.
Import Order.TTheory GRing.Theory Num.Theory.
Open Scope ring_scope.

Section Stat.
Variable R : realFieldType.

Lemma tr_le n (M : 'M[R]_n) : `|\tr M| <= mnorm M.
Proof.
apply: le_trans (ler_norm_sum _ _ _) _; apply: ler_sum => i _.
by rewrite (bigD1 i) //= ler_addl; apply: sumr_ge0.
Qed.
Lemma nat_close (a b : nat) : `|a%:R - b%:R : R| < 1 -> a = b.
Proof.
move=> H; apply/eqP; rewrite eqn_leq; apply/andP; split; rewrite leqNgt; apply/negP => L.
  move: H; rewrite -natrB ?(ltnW L) // normr_nat => H.
  by move: H; rewrite -[1]/(1%:R) ltr_nat ltnS leqn0 subn_eq0 leqNgt L.
move: H; rewrite distrC -natrB ?(ltnW L) // normr_nat => H.
by move: H; rewrite -[1]/(1%:R) ltr_nat ltnS leqn0 subn_eq0 leqNgt L.
Qed.
Lemma tr_rank m n (A : 'M[R]_(m, n)) (D : svdf A) : \tr (A *m pseudoInverse D) = (\rank A)%:R.
Proof. by rewrite M_pinv mxtrace_mulC UU mxtrace1 rk_rank. Qed.

Section Path.
Variables (m n : nat) (A : R -> 'M[R]_(m, n)) (D : forall s, svdf (A s)) (t : R) (L : 'M[R]_(m, n)).
Local Notation B := (fun s => pseudoInverse (D s)).
Hypothesis dA : has_derivative A t L.
Lemma P s : penrose (A s) (B s).
Proof. exact: pinv_penrose. Qed.
Lemma bounded_rank : bounded_near B t -> near0 (fun h => \rank (A (t + h)) = \rank (A t)).
Proof.
move=> b; have dB := pinv_has_derivative P dA b.
have /der_lin /lin_null H := derM dA dB.
have h0 : (0 : R) < 2%:R^-1 by rewrite invr_gt0 ltr0n.
apply: near_imp (H _ h0) => h _ p; apply: nat_close.
rewrite -!(tr_rank (D _)) -raddfB; apply: le_lt_trans (tr_le _) _; apply: le_lt_trans p _.
by rewrite invf_lt1 ?ltr0n // ltr1n.
Qed.
Lemma differentiable_iff : (exists G, has_derivative B t G) <-> near0 (fun h => \rank (A (t + h)) = \rank (A t)).
Proof.
split=> [[G dB]|rA].
  apply: bounded_rank; have [K _ H] := lin_inc_bd (der_lin dB); by exists K.
eexists; apply: (pinv_has_derivative P dA); exact: rank_bounded dA rA.
Qed.
Lemma differentiable : near0 (fun h => \rank (A (t + h)) = \rank (A t)) -> has_derivative B t (pinv_der t A B L).
Proof. move=> rA; apply: (pinv_has_derivative P dA); exact: rank_bounded dA rA. Qed.
End Path.

Lemma jacobianTimes_along m k d (dphi : 'I_d -> 'M[R]_(m, k)) rhs q : jacobianTimes dphi rhs *m q = along dphi q *m rhs.
Proof.
apply/matrixP => i j; rewrite (ord1 j) /along mulmx_suml summxE !mxE; apply: eq_bigr => l _.
by rewrite mxE -scalemxAl [in RHS]mxE mulrC.
Qed.
Lemma jacobianTransposeTimes_along m k d (dphi : 'I_d -> 'M[R]_(m, k)) rhs q :
  jacobianTransposeTimes dphi rhs *m q = (along dphi q)^T *m rhs.
Proof.
apply/matrixP => i j; rewrite (ord1 j) /along [(\sum_k _)^T]linear_sum /= mulmx_suml summxE !mxE; apply: eq_bigr => l _.
by rewrite mxE linearZ /= -scalemxAl [in RHS]mxE mulrC; congr (_ * _); rewrite -[rhs in RHS]trmxK -trmx_mul [RHS]mxE.
Qed.
Lemma pinvJacobian_along m k (M : 'M[R]_(m, k)) (D : svdf M) d (dphi : 'I_d -> 'M[R]_(m, k)) rhs q :
  let B := pseudoInverse D in let L := along dphi q in
  pinvJacobian D dphi rhs *m q =
  (- (B *m L *m B) + B *m B^T *m L^T *m (1%:M - M *m B) + (1%:M - B *m M) *m L^T *m (B^T *m B)) *m rhs.
Proof.
rewrite /= /pinvJacobian kernel_E coker_E solve_pinv.
move: (pseudoInverse D) => B; move: (1%:M - M *m B) (1%:M - B *m M) => P Q.
rewrite !mulmxDl -!(mulmxA _ (jacobianTimes _ _)) -!(mulmxA _ (jacobianTransposeTimes _ _)).
by rewrite jacobianTimes_along !jacobianTransposeTimes_along !mulNmx -!mulmxA.
Qed.

Section Static.
Variables (m k d : nat) (Phi : R -> 'M[R]_(m, k)) (D : forall s, svdf (Phi s)) (t : R).
Variables (dphi : 'I_d -> 'M[R]_(m, k)) (q : 'cV[R]_d).
Hypothesis dPhi : has_derivative Phi t (along dphi q).
Hypothesis rPhi : near0 (fun h => \rank (Phi (t + h)) = \rank (Phi t)).
Lemma pinvJ_moving (b : R -> 'cV[R]_m) L : has_derivative b t L ->
  has_derivative (fun s => pseudoInverse (D s) *m b s) t (pinvJacobian (D t) dphi (b t) *m q + pseudoInverse (D t) *m L).
Proof. move=> db; rewrite pinvJacobian_along; exact: derM (differentiable D dPhi rPhi) db. Qed.
Lemma pinvJ rhs : has_derivative (fun s => pseudoInverse (D s) *m rhs) t (pinvJacobian (D t) dphi rhs *m q).
Proof. by have := pinvJ_moving (der_const t rhs); rewrite mulmx0 addr0. Qed.

Variables (gravity : 'cV[R]_m) (eps : R).
Local Notation u s := (stat_u (D s) gravity).
Lemma u_der : has_derivative (fun s => u s) t (pinvJacobian (D t) dphi (- gravity) *m q).
Proof. by apply: der_ext (pinvJ (- gravity)) => s; rewrite /stat_u solve_pinv. Qed.
Lemma pinvJ_opp rhs : pinvJacobian (D t) dphi (- rhs) *m q = - (pinvJacobian (D t) dphi rhs *m q).
Proof. by rewrite !pinvJacobian_along mulmxN. Qed.
Lemma stat2 : has_derivative (fun s => (stat_value (D s) gravity eps).2) t ((stat_jacobian (D t) dphi gravity eps).2 *m q).
Proof.
rewrite /= mulmxBl jacobianTimes_along -mulmxA -mulmxN -pinvJ_opp -[X in has_derivative _ _ X]add0r.
apply: derD; first exact: der_const.
exact: derM dPhi u_der.
Qed.

Lemma sign_near i : u t i 0 != 0 -> near0 (fun h => (0 <= u (t + h) i 0) = (0 <= u t i 0)).
Proof.
move=> ui; have := lin_null (der_lin u_der) => /(_ (`|u t i 0| / 2%:R)).
rewrite divr_gt0 ?normr_gt0 ?ltr0n // => /(_ isT); apply: near_imp => h _ p.
have p' : `|u (t + h) i 0 - u t i 0| < `|u t i 0|.
  apply: le_lt_trans (le_trans _ p) _; last by rewrite gtr_pmulr ?normr_gt0 // invf_lt1 ?ltr0n // ltr1n.
  by apply: le_trans (mnorm_entry _ i 0); rewrite !mxE.
case: (ltrgt0P (u t i 0)) ui p' => // s _; rewrite ltr_norml => /andP [p1 p2].
  by apply: ltW; move: p1; rewrite ltr_subr_addl subrr.
by apply/negbTE; rewrite -ltNge; move: p2; rewrite ltr_subl_addr addNr.
Qed.
Lemma near_forall (I : finType) (Q : I -> R -> Prop) : (forall i, near0 (Q i)) -> near0 (fun h => forall i, Q i h).
Proof.
move=> H; have : forall l : seq I, near0 (fun h => forall i, i \in l -> Q i h).
  elim=> [|a l IH]; first by apply: near_all.
  apply: near_imp2 (H a) IH _ => h _ p r i; rewrite inE => /orP [/eqP ->|] //; exact: r.
move=> /(_ (enum I)); apply: near_imp => h _ p i; apply: p; exact: mem_enum.
Qed.
Definition sgn : 'rV[R]_k := \row_i (if 0 <= u t i 0 then 0 else -1).
Hypothesis nz : forall i, u t i 0 != 0.
Lemma um_diag h : (forall i, (0 <= u (t + h) i 0) = (0 <= u t i 0)) -> uminus (u (t + h)) = diag_mx sgn *m u (t + h).
Proof.
move=> H; apply/matrixP => i j; rewrite (ord1 j) mul_diag_mx [LHS]mxE [RHS]mxE [sgn 0 i]mxE H.
by case: ifP; rewrite ?mul0r ?mulN1r.
Qed.
Lemma um_near : near0 (fun h => uminus (u (t + h)) = diag_mx sgn *m u (t + h)).
Proof. apply: near_imp (near_forall (fun i => sign_near (nz i))) => h _; exact: um_diag. Qed.
Lemma um_t : uminus (u t) = diag_mx sgn *m u t.
Proof. by have := @um_diag 0; rewrite addr0; apply. Qed.
Lemma um_der : has_derivative (fun s => uminus (u s)) t (diag_mx sgn *m (pinvJacobian (D t) dphi (- gravity) *m q)).
Proof.
apply: (@der_near _ _ _ _ (fun s => diag_mx sgn *m u s)); first exact: esym um_t.
  by apply: near_imp um_near => h _.
have := derM (der_const t (diag_mx sgn)) u_der; by rewrite mul0mx add0r.
Qed.
Lemma v_E s x : v_of (D s) x = x - pseudoInverse (D s) *m (Phi s *m x).
Proof. by rewrite /v_of !mulmxA -[V2 _ *m _]/(projectorOnKernel (D s) true) kernel_E mulmxBl mul1mx. Qed.
Lemma v_der : has_derivative (fun s => v_of (D s) (uminus (u s))) t
  (vdot_of (D t) dphi (uminus (u t)) sgn (pinvJacobian (D t) dphi (- gravity)) *m q).
Proof.
have E : forall s, uminus (u s) - pseudoInverse (D s) *m (Phi s *m uminus (u s)) = v_of (D s) (uminus (u s)) by move=> s; rewrite v_E.
apply: der_ext E _.
have := derD um_der (derN (pinvJ_moving (derM dPhi um_der))).
set X := (X in has_derivative _ _ X -> _); set Y := (X in _ -> has_derivative _ _ X); suff -> : X = Y by [].
rewrite /X /Y /vdot_of !mulmxBl -!(mulmxA _ _ q) jacobianTimes_along -addrA -addrA; congr (_ + _).
set J := diag_mx sgn *m _; rewrite (mulmxA (V1 _)) -pinv_M.
move: (pinvJacobian _ _ _ *m q) => p; move: (pseudoInverse _) => B.
rewrite mulmxDr -(mulmxA B); move: (B *m _) (B *m _) => x y.
by rewrite -!opprD [y + x]addrC addrCA [p + y]addrC.
Qed.
Lemma stat1 : 0 <= eps -> (forall i, 0 < u t i 0) \/ (exists i, u t i 0 < - eps) ->
  has_derivative (fun s => (stat_value (D s) gravity eps).1) t ((stat_jacobian (D t) dphi gravity eps).1 *m q).
Proof.
move=> e0 [pos|[i neg]].
  have zt s : (forall i, 0 <= u s i 0) -> is_zero eps (uminus (u s)).
    by move=> H; apply/forallP => j; rewrite mxE H normr0.
  rewrite /= zt; last by move=> i; exact: ltW.
  apply: der_near u_der; first by rewrite /= zt // => i; exact: ltW.
  apply: near_imp (near_forall (fun i => sign_near (nz i))) => h _ H.
  by rewrite /= zt // => i; rewrite H ltW.
have nt s : u s i 0 < - eps -> is_zero eps (uminus (u s)) = false.
  move=> H; apply/negbTE; rewrite negb_forall; apply/existsP; exists i; rewrite mxE -ltNge.
  have ui : u s i 0 < 0 by apply: lt_le_trans H _; rewrite oppr_le0.
  by rewrite leNgt ui /= normrN ltr0_norm // ltr_oppr.
rewrite /= nt // mulmxDl; apply: der_near (derD u_der v_der); first by rewrite /= nt.
have : near0 (fun h => u (t + h) i 0 < - eps).
  have := lin_null (der_lin u_der) => /(_ ((- eps - u t i 0) / 2%:R)).
  rewrite divr_gt0 ?subr_gt0 ?ltr0n // => /(_ isT); apply: near_imp => h _ p.
  have p' : `|u (t + h) i 0 - u t i 0| < - eps - u t i 0.
    apply: le_lt_trans (le_trans _ p) _; last by rewrite gtr_pmulr ?subr_gt0 // invf_lt1 ?ltr0n // ltr1n.
    by apply: le_trans (mnorm_entry _ i 0); rewrite !mxE.
  by move: p'; rewrite ltr_norml => /andP [_]; rewrite ltr_add2r.
by apply: near_imp => h _ H; rewrite /= nt.
Qed.
End Static.

(** meaning of the value *)
Section Value.
Variables (m k : nat) (M : 'M[R]_(m, k)) (D : svdf M) (g : 'cV[R]_m) (eps : R).
Lemma residual_E : (stat_value D g eps).2 = (1%:M - M *m pseudoInverse D) *m g.
Proof. by rewrite /= /stat_u solve_pinv !mulmxN mulmxA mulmxBl mul1mx. Qed.
Lemma residual_zero : (stat_value D g eps).2 = 0 <-> exists f, M *m f = - g.
Proof.
rewrite residual_E; split=> [|[f e]].
  rewrite mulmxBl mul1mx => /eqP; rewrite subr_eq0 => /eqP e; exists (- (pseudoInverse D *m g)).
  by rewrite mulmxN {2}e mulmxA.
have [P1 _ _ _] := pinv_penrose D.
by rewrite -[g]opprK -e mulmxN mulmxBl mul1mx mulmxA P1 subrr oppr0.
Qed.
Lemma residual_least f : norm2 (stat_value D g eps).2 <= norm2 (g + M *m f).
Proof.
have [P1 P2 P3 P4] := pinv_penrose D.
set r := (stat_value D g eps).2; have e : g + M *m f = r + M *m (f - stat_u D g).
  by rewrite /r /= mulmxBr [M *m f - _]addrC addrA addrK.
rewrite e -!sqn_norm2 sqn_add ?ler_addl ?sqn_ge0 // /r residual_E trmx_mul [(1%:M - _)^T]linearB /= trmx1 P3.
by rewrite -!mulmxA (mulmxA (1%:M - _)) mulmxBl mul1mx P1 subrr mul0mx mulmx0.
Qed.
Lemma force_balance : g + M *m (stat_value D g eps).1 = (stat_value D g eps).2.
Proof.
rewrite /=; case: ifP => // _; rewrite mulmxDr /v_of mulmxA M_V2 mul0mx addr0 //.
Qed.
End Value.
End Stat.
Section All.
Variable R : realFieldType.
Lemma pseudo_inverse_all m k (M : 'M[R]_(m, k)) (D : svdf M) :
  penrose M (pseudoInverse D) /\ (forall X, penrose M X -> X = pseudoInverse D) /\
  (forall full, projectorOnKernel D full = 1%:M - pseudoInverse D *m M) /\
  (forall full, projectorOnKernelOfInv D full = 1%:M - M *m pseudoInverse D) /\
  projectorOnSpan D = pseudoInverse D *m M /\ projectorOnSpanOfInv D = M *m pseudoInverse D.
Proof.
split; first exact: pinv_penrose.
split; first by move=> X HX; exact: penrose_unique HX (pinv_penrose D).
split; first exact: kernel_E.
split; first exact: coker_E.
by rewrite pinv_M M_pinv.
Qed.
Lemma static_value_all m k (M : 'M[R]_(m, k)) (D : svdf M) (g : 'cV[R]_m) eps :
  g + M *m (stat_value D g eps).1 = (stat_value D g eps).2 /\
  (forall f, norm2 (stat_value D g eps).2 <= norm2 (g + M *m f)) /\
  ((stat_value D g eps).2 = 0 <-> exists f, M *m f = - g).
Proof. split; [exact: force_balance|split; [move=> f; exact: residual_least|exact: residual_zero]]. Qed.
Lemma static_jacobian_all m k d (Phi : R -> 'M[R]_(m, k)) (D : forall s, svdf (Phi s)) t
  (dphi : 'I_d -> 'M[R]_(m, k)) (q : 'cV[R]_d) : has_derivative Phi t (along dphi q) ->
  near0 (fun h => \rank (Phi (t + h)) = \rank (Phi t)) -> forall g eps,
  has_derivative (fun s => (stat_value (D s) g eps).2) t ((stat_jacobian (D t) dphi g eps).2 *m q) /\
  ((forall i, stat_u (D t) g i 0 != 0) -> 0 <= eps ->
   (forall i, 0 < stat_u (D t) g i 0) \/ (exists i, stat_u (D t) g i 0 < - eps) ->
   has_derivative (fun s => (stat_value (D s) g eps).1) t ((stat_jacobian (D t) dphi g eps).1 *m q)).
Proof.
move=> dP rP g eps; split; first exact: (stat2 D dP rP).
move=> nz e0 H; exact: (stat1 dP rP nz e0 H).
Qed.
End All.
