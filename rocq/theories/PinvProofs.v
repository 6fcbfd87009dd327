From mathcomp Require Import all_ssreflect all_algebra.
From Verif Require Import DescentModel DescentProofs PinvModel PinvSpec.
Set Implicit Arguments. Unset Strict Implicit. Unset Printing Implicit Defensive.
Import Order.TTheory GRing.Theory Num.Theory.
Open Scope ring_scope.

Lemma aux1 (V : zmodType) (x y e b : V) : e - b = - (x - y) + (e - y) - (b - x).
Proof. by rewrite !opprB [y - x + _]addrC [e - y + (y - x)]addrA subrK addrA subrK. Qed.
Lemma aux2 (V : zmodType) (x1 x2 x3 y1 y2 y3 : V) : - (x1 - y1) + (x2 - y2) + (x3 - y3) = (- x1 + x2 + x3) - (- y1 + y2 + y3).
Proof. by rewrite !opprD !opprK [- x1 + y1 + _]addrACA addrACA. Qed.
Lemma aux3 (V : zmodType) (c a b : V) : - (a - b) = c - a - (c - b).
Proof. by rewrite !opprB [RHS]addrC addrA subrK. Qed.
Section Algebra.
Variable R : realFieldType.
Section OneSvd.
Variables (m k : nat) (M : 'M[R]_(m, k)) (D : svdf M).
Local Notation B := (pseudoInverse D).
Lemma M_pinv : M *m B = U D *m (U D)^T.
Proof.
rewrite {1}(svdE D) /pseudoInverse !mulmxA -(mulmxA _ (V1 D)^T) V11 mulmx1.
by rewrite -(mulmxA (U D)) (diag_inv (@S_pos _ _ _ _ D)) mulmx1.
Qed.
Lemma pinv_M : B *m M = V1 D *m (V1 D)^T.
Proof.
rewrite {2}(svdE D) /pseudoInverse !mulmxA -(mulmxA _ (U D)^T) UU mulmx1.
by rewrite -(mulmxA (V1 D)) (diag_inv' (@S_pos _ _ _ _ D)) mulmx1.
Qed.
Lemma pinv_penrose : penrose M B.
Proof.
split.
- rewrite M_pinv (congr1 (mulmx (U D *m (U D)^T)) (svdE D)).
  rewrite !mulmxA -(mulmxA (U D) (U D)^T) UU mulmx1; exact: esym (svdE D).
- by rewrite pinv_M /pseudoInverse !mulmxA -(mulmxA (V1 D) (V1 D)^T) V11 mulmx1.
- by rewrite M_pinv trmx_mul trmxK.
- by rewrite pinv_M trmx_mul trmxK.
Qed.
Lemma solve_pinv b : solve D b = B *m b.
Proof. by rewrite /solve /pseudoInverse. Qed.
Lemma kernel_E full : projectorOnKernel D full = 1%:M - B *m M.
Proof. by rewrite /projectorOnKernel pinv_M; case: full; [rewrite -(V_full D) addrAC subrr add0r|rewrite addrC]. Qed.
Lemma coker_E full : projectorOnKernelOfInv D full = 1%:M - M *m B.
Proof. by rewrite /projectorOnKernelOfInv M_pinv; case: full; [rewrite -(U_full D) addrAC subrr add0r|rewrite addrC]. Qed.
End OneSvd.

Lemma penrose_unique m k (A : 'M[R]_(m, k)) B C : penrose A B -> penrose A C -> B = C.
Proof.
case=> B1 B2 B3 B4 [C1 C2 C3 C4].
have E1 : A *m B = A *m C.
  rewrite -{1}C1 -(mulmxA (A *m C)) -C3 -B3 -trmx_mul.
  by rewrite mulmxA B1.
have E2 : B *m A = C *m A.
  rewrite -{1}C1 -(mulmxA A) (mulmxA B) -B4 -C4 -trmx_mul.
  by rewrite -mulmxA (mulmxA A) B1.
by rewrite -B2 E2 -mulmxA E1 mulmxA C2.
Qed.
(** exact difference of two pseudo-inverses *)
Lemma wedin m k (A C : 'M[R]_(m, k)) B E : penrose A B -> penrose C E ->
  E - B = - (E *m (C - A) *m B) + E *m E^T *m (C - A)^T *m (1%:M - A *m B) + (1%:M - E *m C) *m (C - A)^T *m (B^T *m B).
Proof.
case=> B1 B2 B3 B4 [E1 E2 E3 E4].
have H1 : E *m E^T *m C^T = E by rewrite -mulmxA -trmx_mul E3 mulmxA.
have H2 : A^T *m (1%:M - A *m B) = 0 by rewrite mulmxBr mulmx1 -B3 -trmx_mul B1 subrr.
have H3 : (1%:M - E *m C) *m C^T = 0 by rewrite mulmxBl mul1mx -E4 -trmx_mul mulmxA E1 subrr.
have H4 : A^T *m (B^T *m B) = B by rewrite mulmxA -trmx_mul B4.
have -> : E *m E^T *m (C - A)^T *m (1%:M - A *m B) = E - E *m A *m B.
  rewrite [(C - A)^T]linearB /= [E *m E^T *m (_ - _)]mulmxBr H1 mulmxBl -!(mulmxA _ A^T) H2 !mulmx0 subr0.
  by rewrite mulmxBr mulmx1 mulmxA.
have -> : (1%:M - E *m C) *m (C - A)^T *m (B^T *m B) = - (B - E *m C *m B).
  rewrite [(C - A)^T]linearB /= [_ *m (C^T - _)]mulmxBr H3 sub0r mulNmx -mulmxA H4.
  by rewrite mulmxBl mul1mx.
rewrite mulmxBr mulmxBl; exact: aux1.
Qed.
End Algebra.

(** * Small functions of a parameter *)
Section Analysis.
Variable R : realFieldType.
Lemma mnorm_ge0 m n (A : 'M[R]_(m, n)) : 0 <= mnorm A.
Proof. by apply: sumr_ge0 => i _; apply: sumr_ge0 => j _; exact: normr_ge0. Qed.
Lemma mnormD m n (A B : 'M[R]_(m, n)) : mnorm (A + B) <= mnorm A + mnorm B.
Proof.
rewrite /mnorm -big_split /=; apply: ler_sum => i _; rewrite -big_split /=.
by apply: ler_sum => j _; rewrite mxE; exact: ler_norm_add.
Qed.
Lemma mnormN m n (A : 'M[R]_(m, n)) : mnorm (- A) = mnorm A.
Proof. by apply: eq_bigr => i _; apply: eq_bigr => j _; rewrite mxE normrN. Qed.
Lemma mnorm0 m n : mnorm (0 : 'M[R]_(m, n)) = 0.
Proof. by apply: big1 => i _; apply: big1 => j _; rewrite mxE normr0. Qed.
Lemma mnormZ m n a (A : 'M[R]_(m, n)) : mnorm (a *: A) = `|a| * mnorm A.
Proof. by rewrite /mnorm mulr_sumr; apply: eq_bigr => i _; rewrite mulr_sumr; apply: eq_bigr => j _; rewrite mxE normrM. Qed.
Lemma mnormT m n (A : 'M[R]_(m, n)) : mnorm A^T = mnorm A.
Proof. by rewrite /mnorm exchange_big; apply: eq_bigr => i _; apply: eq_bigr => j _; rewrite mxE. Qed.
Lemma mnorm_entry m n (A : 'M[R]_(m, n)) i j : `|A i j| <= mnorm A.
Proof.
rewrite /mnorm (bigD1 i) //= (bigD1 j) //= -addrA ler_addl addr_ge0 //.
  by apply: sumr_ge0 => ? _.
by apply: sumr_ge0 => ? _; apply: sumr_ge0 => ? _.
Qed.
Lemma mnormM m n p (A : 'M[R]_(m, n)) (B : 'M[R]_(n, p)) : mnorm (A *m B) <= mnorm A * mnorm B.
Proof.
rewrite {1 2}/mnorm mulr_suml; apply: ler_sum => i _.
apply: (@le_trans _ _ (\sum_j \sum_k `|A i k| * `|B k j|)).
  apply: ler_sum => j _; rewrite mxE; apply: le_trans (ler_norm_sum _ _ _) _.
  by apply: ler_sum => k _; rewrite normrM.
rewrite exchange_big /= mulr_suml; apply: ler_sum => k _.
rewrite -mulr_sumr; apply: ler_wpmul2l => //.
by rewrite /mnorm (bigD1 k) //= ler_addl; apply: sumr_ge0 => ? _; apply: sumr_ge0 => ? _.
Qed.

Lemma near_all (P : R -> Prop) : (forall h, h != 0 -> P h) -> near0 P.
Proof. by move=> H; exists 1; rewrite ?ltr01 // => h h0 _; exact: H. Qed.
Lemma near_imp (P Q : R -> Prop) : (forall h, h != 0 -> P h -> Q h) -> near0 P -> near0 Q.
Proof. by move=> H [e e0 He]; exists e => // h h0 he; apply: H => //; exact: He. Qed.
Lemma near_and (P Q : R -> Prop) : near0 P -> near0 Q -> near0 (fun h => P h /\ Q h).
Proof.
move=> [e e0 He] [f f0 Hf]; exists (Num.min e f); first by rewrite lt_minr e0.
by move=> h h0; rewrite lt_minr => /andP [h1 h2]; split; [exact: He|exact: Hf].
Qed.
Lemma near_imp2 (P Q S : R -> Prop) : near0 P -> near0 Q -> (forall h, h != 0 -> P h -> Q h -> S h) -> near0 S.
Proof. by move=> p q H; apply: near_imp (near_and p q) => h h0 [] /(H h h0). Qed.

Definition small m n (F : R -> 'M[R]_(m, n)) := forall e, 0 < e -> near0 (fun h => mnorm (F h) <= e * `|h|).
Definition lin m n (F : R -> 'M[R]_(m, n)) := exists2 K, 0 < K & near0 (fun h => mnorm (F h) <= K * `|h|).
Definition bd m n (F : R -> 'M[R]_(m, n)) := exists2 K, 0 < K & near0 (fun h => mnorm (F h) <= K).
Definition null m n (F : R -> 'M[R]_(m, n)) := forall e, 0 < e -> near0 (fun h => mnorm (F h) <= e).

Lemma small_eq m n (F G : R -> 'M[R]_(m, n)) : near0 (fun h => F h = G h) -> small F -> small G.
Proof. by move=> E H e e0; apply: near_imp2 E (H e e0) _ => h _ ->. Qed.
Lemma small_ext m n (F G : R -> 'M[R]_(m, n)) : (forall h, F h = G h) -> small F -> small G.
Proof. by move=> E; apply: small_eq; apply: near_all. Qed.
Lemma half_gt0 (e : R) : 0 < e -> 0 < e / 2%:R.
Proof. by move=> e0; rewrite divr_gt0 // ltr0n. Qed.
Lemma halfD (e : R) : e / 2%:R + e / 2%:R = e.
Proof. by rewrite -splitr. Qed.
Lemma smallD m n (F G : R -> 'M[R]_(m, n)) : small F -> small G -> small (fun h => F h + G h).
Proof.
move=> f g e e0; apply: near_imp2 (f _ (half_gt0 e0)) (g _ (half_gt0 e0)) _ => h _ p q.
by apply: le_trans (mnormD _ _) _; rewrite -[e in e * _]halfD mulrDl ler_add.
Qed.
Lemma smallN m n (F : R -> 'M[R]_(m, n)) : small F -> small (fun h => - F h).
Proof. by move=> f e e0; apply: near_imp (f e e0) => h _; rewrite mnormN. Qed.
Lemma smallT m n (F : R -> 'M[R]_(m, n)) : small F -> small (fun h => (F h)^T).
Proof. by move=> f e e0; apply: near_imp (f e e0) => h _; rewrite mnormT. Qed.
Lemma bd_small m n p (F : R -> 'M[R]_(m, n)) (G : R -> 'M[R]_(n, p)) : bd F -> small G -> small (fun h => F h *m G h).
Proof.
move=> [K K0 f] g e e0; apply: near_imp2 f (g (e / K) (divr_gt0 e0 K0)) _ => h _ a b.
apply: le_trans (mnormM _ _) _; apply: le_trans (ler_pmul (mnorm_ge0 _) (mnorm_ge0 _) a b) _.
by rewrite mulrA [K * _]mulrC divfK // gt_eqF.
Qed.
Lemma small_bd m n p (F : R -> 'M[R]_(m, n)) (G : R -> 'M[R]_(n, p)) : small F -> bd G -> small (fun h => F h *m G h).
Proof.
move=> f [K K0 g] e e0; apply: near_imp2 g (f (e / K) (divr_gt0 e0 K0)) _ => h _ a b.
apply: le_trans (mnormM _ _) _; apply: le_trans (ler_pmul (mnorm_ge0 _) (mnorm_ge0 _) b a) _.
by rewrite mulrAC divfK // gt_eqF.
Qed.
Lemma null_lin m n p (F : R -> 'M[R]_(m, n)) (G : R -> 'M[R]_(n, p)) : null F -> lin G -> small (fun h => F h *m G h).
Proof.
move=> f [K K0 g] e e0; apply: near_imp2 (f (e / K) (divr_gt0 e0 K0)) g _ => h _ a b.
apply: le_trans (mnormM _ _) _; apply: le_trans (ler_pmul (mnorm_ge0 _) (mnorm_ge0 _) a b) _.
by rewrite mulrA divfK // gt_eqF.
Qed.
Lemma bd_const m n (A : 'M[R]_(m, n)) : bd (fun _ => A).
Proof.
exists (mnorm A + 1); first by apply: ltr_paddl (mnorm_ge0 _) ltr01.
by apply: near_all => h _; rewrite ler_addl ler01.
Qed.
Lemma bdM m n p (F : R -> 'M[R]_(m, n)) (G : R -> 'M[R]_(n, p)) : bd F -> bd G -> bd (fun h => F h *m G h).
Proof.
move=> [K K0 f] [L L0 g]; exists (K * L); first exact: mulr_gt0.
apply: near_imp2 f g _ => h _ a b; apply: le_trans (mnormM _ _) _; exact: ler_pmul (mnorm_ge0 _) (mnorm_ge0 _) a b.
Qed.
Lemma bdD m n (F G : R -> 'M[R]_(m, n)) : bd F -> bd G -> bd (fun h => F h + G h).
Proof.
move=> [K K0 f] [L L0 g]; exists (K + L); first exact: addr_gt0.
apply: near_imp2 f g _ => h _ a b; apply: le_trans (mnormD _ _) _; exact: ler_add a b.
Qed.
Lemma bdT m n (F : R -> 'M[R]_(m, n)) : bd F -> bd (fun h => (F h)^T).
Proof. by move=> [K K0 f]; exists K => //; apply: near_imp f => h _; rewrite mnormT. Qed.
Lemma bdN m n (F : R -> 'M[R]_(m, n)) : bd F -> bd (fun h => - F h).
Proof. by move=> [K K0 f]; exists K => //; apply: near_imp f => h _; rewrite mnormN. Qed.
Lemma bd_lin m n p (F : R -> 'M[R]_(m, n)) (G : R -> 'M[R]_(n, p)) : bd F -> lin G -> lin (fun h => F h *m G h).
Proof.
move=> [K K0 f] [L L0 g]; exists (K * L); first exact: mulr_gt0.
apply: near_imp2 f g _ => h _ a b; apply: le_trans (mnormM _ _) _.
by rewrite -mulrA; exact: ler_pmul (mnorm_ge0 _) (mnorm_ge0 _) a b.
Qed.
Lemma lin_bd m n p (F : R -> 'M[R]_(m, n)) (G : R -> 'M[R]_(n, p)) : lin F -> bd G -> lin (fun h => F h *m G h).
Proof.
move=> [K K0 f] [L L0 g]; exists (K * L); first exact: mulr_gt0.
apply: near_imp2 f g _ => h _ a b; apply: le_trans (mnormM _ _) _.
by rewrite mulrAC; exact: ler_pmul (mnorm_ge0 _) (mnorm_ge0 _) a b.
Qed.
Lemma linD m n (F G : R -> 'M[R]_(m, n)) : lin F -> lin G -> lin (fun h => F h + G h).
Proof.
move=> [K K0 f] [L L0 g]; exists (K + L); first exact: addr_gt0.
by apply: near_imp2 f g _ => h _ a b; apply: le_trans (mnormD _ _) _; rewrite mulrDl; exact: ler_add a b.
Qed.
Lemma linN m n (F : R -> 'M[R]_(m, n)) : lin F -> lin (fun h => - F h).
Proof. by move=> [K K0 f]; exists K => //; apply: near_imp f => h _; rewrite mnormN. Qed.
Lemma linT m n (F : R -> 'M[R]_(m, n)) : lin F -> lin (fun h => (F h)^T).
Proof. by move=> [K K0 f]; exists K => //; apply: near_imp f => h _; rewrite mnormT. Qed.
Lemma lin_ext m n (F G : R -> 'M[R]_(m, n)) : (forall h, F h = G h) -> lin F -> lin G.
Proof. by move=> E [K K0 f]; exists K => //; apply: near_imp f => h _; rewrite E. Qed.
Lemma lin_null m n (F : R -> 'M[R]_(m, n)) : lin F -> null F.
Proof.
move=> [K K0 [d d0 f]] e e0; exists (Num.min d (e / K)); first by rewrite lt_minr d0 divr_gt0.
move=> h h0; rewrite lt_minr => /andP [h1 h2]; apply: le_trans (f h h0 h1) _.
by rewrite mulrC -ler_pdivl_mulr // ltW.
Qed.

(** derivatives *)
Section Der.
Variable t : R.
Definition inc m n (F : R -> 'M[R]_(m, n)) (h : R) := F (t + h) - F t.
Lemma der_small m n (F : R -> 'M[R]_(m, n)) L : has_derivative F t L <-> small (fun h => inc F h - h *: L).
Proof. by []. Qed.
Lemma der_lin m n (F : R -> 'M[R]_(m, n)) L : has_derivative F t L -> lin (inc F).
Proof.
move=> H; exists (1 + mnorm L); first by apply: ltr_paddr (mnorm_ge0 _) ltr01.
apply: near_imp (H 1 ltr01) => h _ p; rewrite -[inc F h](subrK (h *: L)).
apply: le_trans (mnormD _ _) _; rewrite mnormZ mulrDl [_ * mnorm L]mulrC; exact: ler_add p (lexx _).
Qed.
Lemma lin_inc_bd m n (F : R -> 'M[R]_(m, n)) : lin (inc F) -> bd (fun h => F (t + h)).
Proof.
move=> /lin_null /(_ 1 ltr01) H; exists (1 + mnorm (F t)); first by apply: ltr_paddr (mnorm_ge0 _) ltr01.
apply: near_imp H => h _ p; rewrite -[F (t + h)](subrK (F t)).
by apply: le_trans (mnormD _ _) _; rewrite ler_add2r.
Qed.
Lemma der_ext m n (F G : R -> 'M[R]_(m, n)) L : (forall s, F s = G s) -> has_derivative F t L -> has_derivative G t L.
Proof. by move=> E; apply: small_ext => h; rewrite !E. Qed.
Lemma der_near m n (F G : R -> 'M[R]_(m, n)) L : F t = G t -> near0 (fun h => F (t + h) = G (t + h)) -> has_derivative F t L -> has_derivative G t L.
Proof. by move=> E N; apply: small_eq; apply: near_imp N => h _; rewrite E => ->. Qed.
Lemma der_const m n (A : 'M[R]_(m, n)) : has_derivative (fun _ => A) t 0.
Proof. by move=> e e0; apply: near_all => h _; rewrite subrr scaler0 subr0 mnorm0 mulr_ge0 // ltW. Qed.
Lemma derD m n (F G : R -> 'M[R]_(m, n)) L K : has_derivative F t L -> has_derivative G t K -> has_derivative (fun s => F s + G s) t (L + K).
Proof.
move=> f g; apply: small_ext (smallD f g) => h.
by rewrite scalerDr !opprD [LHS]addrACA; congr (_ + _); exact: addrACA.
Qed.
Lemma derN m n (F : R -> 'M[R]_(m, n)) L : has_derivative F t L -> has_derivative (fun s => - F s) t (- L).
Proof. by move=> f; apply: small_ext (smallN f) => h; rewrite scalerN !opprD !opprK. Qed.
(** a continuous factor and an increment *)
Lemma cont_inc m n p (X : R -> 'M[R]_(m, n)) (Y : R -> 'M[R]_(n, p)) X0 L :
  null (fun h => X h - X0) -> has_derivative Y t L -> small (fun h => X h *m inc Y h - h *: (X0 *m L)).
Proof.
move=> x y; have s1 := null_lin x (der_lin y); have s2 := bd_small (bd_const X0) y.
apply: small_ext (smallD s1 s2) => h; rewrite -/(inc Y h) mulmxBl [X0 *m (_ - h *: L)]mulmxBr -scalemxAr addrA.
by rewrite subrK.
Qed.
Lemma derM m n p (F : R -> 'M[R]_(m, n)) (G : R -> 'M[R]_(n, p)) L K :
  has_derivative F t L -> has_derivative G t K -> has_derivative (fun s => F s *m G s) t (L *m G t + F t *m K).
Proof.
move=> f g.
have s1 := cont_inc (lin_null (der_lin f)) g.
have s2 : small (fun h => (inc F h - h *: L) *m G t) by apply: small_bd f (bd_const _).
apply: small_ext (smallD s2 s1) => h; rewrite /inc.
rewrite mulmxBl mulmxBr mulmxBl -scalemxAl scalerDr opprD.
set a := F (t + h) *m G (t + h); set b := F (t + h) *m G t; set c := F t *m G t.
rewrite [LHS]addrACA; congr (_ + _); rewrite addrC addrA subrK //.
Qed.
Lemma derT m n (F : R -> 'M[R]_(m, n)) L : has_derivative F t L -> has_derivative (fun s => (F s)^T) t L^T.
Proof. by move=> f; apply: small_ext (smallT f) => h; rewrite !linearB /= linearZ. Qed.

(** * pseudo-inverse *)
Section Pi.
Variables (m n : nat) (A : R -> 'M[R]_(m, n)) (B : R -> 'M[R]_(n, m)) (L : 'M[R]_(m, n)).
Hypothesis P : forall s, penrose (A s) (B s).
Hypothesis dA : has_derivative A t L.
Hypothesis bB : bounded_near B t.
Lemma bB' : bd (fun h => B (t + h)).
Proof.
case: bB => K H; exists (Num.max K 1); first by rewrite lt_maxr ltr01 orbT.
by apply: near_imp H => h _ p; rewrite le_maxr p.
Qed.
Lemma B_lin : lin (inc B).
Proof.
apply: (lin_ext (fun h => esym (wedin (P t) (P (t + h))))).
have lA := der_lin dA; have b := bB'.
have bQ : bd (fun h => 1%:M - B (t + h) *m A (t + h)).
  by apply: bdD (bd_const _) (bdN (bdM b (lin_inc_bd lA))).
apply: linD; first apply: linD.
- apply: linN; apply: lin_bd (bd_const _); exact: bd_lin b lA.
- apply: lin_bd (bd_const _); apply: bd_lin (linT lA); exact: bdM b (bdT b).
- apply: lin_bd (bd_const _); apply: bd_lin (linT lA); exact: bQ.
Qed.
Definition pinv_der : 'M[R]_(n, m) :=
  - (B t *m L *m B t) + B t *m (B t)^T *m L^T *m (1%:M - A t *m B t) + (1%:M - B t *m A t) *m L^T *m ((B t)^T *m B t).
Lemma pinv_has_derivative : has_derivative B t pinv_der.
Proof.
have lA := der_lin dA; have lB := B_lin; have b := bB'.
have dAT := derT dA.
have s1 : small (fun h => B (t + h) *m inc A h - h *: (B t *m L)) by apply: cont_inc (lin_null lB) dA.
have l2 : lin (fun h => B (t + h) *m (B (t + h))^T - B t *m (B t)^T).
  apply: (@lin_ext _ _ (fun h => inc B h *m (B (t + h))^T + B t *m (inc B h)^T)) => [h|].
    by rewrite /inc linearB /= mulmxBl mulmxBr addrA subrK.
  by apply: linD; [apply: lin_bd lB (bdT b)|apply: bd_lin (bd_const _) (linT lB)].
have l3 : lin (fun h => (1%:M - B (t + h) *m A (t + h)) - (1%:M - B t *m A t)).
  apply: (@lin_ext _ _ (fun h => - (inc B h *m A (t + h) + B t *m inc A h))) => [h|].
    rewrite /inc mulmxBl mulmxBr addrA subrK; exact: aux3.
  by apply: linN; apply: linD; [apply: lin_bd lB (lin_inc_bd lA)|apply: bd_lin (bd_const _) lA].
have s2 := cont_inc (lin_null l2) dAT.
have s3 := cont_inc (lin_null l3) dAT.
have r1 := smallN (small_bd s1 (bd_const (B t))).
have r2 := small_bd s2 (bd_const (1%:M - A t *m B t)).
have r3 := small_bd s3 (bd_const ((B t)^T *m B t)).
apply: small_ext (smallD (smallD r1 r2) r3) => h.
have W := wedin (P t) (P (t + h)); rewrite W /pinv_der /inc -!linearB /=.
rewrite !scalerDr scalerN !(mulmxBl (B (t + h) *m _)) !scalemxAl.
rewrite (mulmxBl (B (t + h) *m (B (t + h))^T *m _)) (mulmxBl ((1%:M - B (t + h) *m A (t + h)) *m _)).
exact: aux2.
Qed.
End Pi.
End Der.
End Analysis.
