(** Every matrix over the reals has a singular value decomposition. *)
From Coq Require Import Reals Lra Lia.
From mathcomp Require Import all_ssreflect all_algebra.
From Verif Require Import RField RReal DescentModel DescentSpec DescentProofs DescentMain SvdBox.
Set Implicit Arguments. Unset Strict Implicit. Unset Printing Implicit Defensive.
Import Order.TTheory GRing.Theory Num.Theory.
Open Scope ring_scope.
Notation FR := R_realFieldType.

Definition vec n (x : nat -> R) : 'cV[FR]_n := \col_i x (nat_of_ord i).
Lemma good_sum n k (f : 'I_k -> (nat -> R) -> R) : (forall i, good n (f i)) -> good n (fun x => (\sum_(i < k) f i x : FR)).
Proof.
elim: k f => [|k IH] f h; first by apply: (@good_ext _ (fun _ => R0)) (good_const n R0) => x; rewrite big_ord0.
apply: (@good_ext _ (fun x => Rplus (\sum_(i < k) f (widen_ord (leqnSn k) i) x : FR) (f ord_max x))); first by move=> x; rewrite big_ord_recr.
by apply: good_add => //; apply: IH => i; exact: h.
Qed.
Lemma good_image n m (A : 'M[FR]_(m, n)) : good n (fun x => sqn (A *m vec n x)).
Proof.
apply: (@good_ext _ (fun x => \sum_(i < m) Rmult (\sum_(j < n) Rmult (A i j) (x (nat_of_ord j)) : FR) (\sum_(j < n) Rmult (A i j) (x (nat_of_ord j)) : FR) : FR)).
  move=> x; rewrite sqn_norm2 /norm2; apply: eq_bigr => i _; rewrite expr2 !mxE.
  by rewrite (eq_bigr (fun j : 'I_n => A i j * vec n x j 0)) // => j _; rewrite mxE.
apply: good_sum => i; have h : good n (fun x => \sum_(j < n) Rmult (A i j) (x (nat_of_ord j)) : FR).
  by apply: good_sum => j; apply: good_mul; [exact: good_const|apply: good_coord; exact/ssrnat.ltP].
exact: good_mul.
Qed.
Lemma good_norm n : good n (fun x => sqn (vec n x)).
Proof. by apply: (@good_ext n _ _ _ (good_image (1%:M : 'M[FR]_n))) => x; rewrite mul1mx. Qed.
Lemma sqn_entry n (y : 'cV[FR]_n) i : y i 0 ^+ 2 <= sqn y.
Proof. by rewrite sqn_norm2 /norm2 (bigD1 i) //= ler_addl sumr_ge0 // => j _; exact: sqr_ge0. Qed.

Lemma eD k l (X Y : 'M[FR]_(k, l)) i j : (X + Y) i j = X i j + Y i j. Proof. by rewrite mxE. Qed.
Lemma eB k l (X Y : 'M[FR]_(k, l)) i j : (X - Y) i j = X i j - Y i j. Proof. by rewrite !mxE. Qed.
Lemma eZ k l (a : FR) (X : 'M[FR]_(k, l)) i j : (a *: X) i j = a * X i j. Proof. by rewrite mxE. Qed.
Lemma expand_quad n (B : 'M[FR]_n) (v w : 'cV[FR]_n) t : ((v + t *: w)^T *m B *m (v + t *: w)) 0 0 =
  (v^T *m B *m v) 0 0 + t * (v^T *m B *m w) 0 0 + (t * (w^T *m B *m v) 0 0 + t * (t * (w^T *m B *m w) 0 0)).
Proof.
have -> : (v + t *: w)^T = v^T + t *: w^T by apply/matrixP => i j; rewrite !mxE.
by rewrite mulmxDl mulmxDl !mulmxDr -!scalemxAl -!scalemxAr !eD !eZ.
Qed.
Lemma cross (a b c d : R) : Rlt R0 b -> Rlt R0 d -> Rle (Rmult a (Rinv b)) (Rmult c (Rinv d)) -> Rle (Rmult a d) (Rmult c b).
Proof.
move=> b0 d0 h.
have -> : Rmult a d = Rmult (Rmult a (Rinv b)) (Rmult b d) by field; apply: Rgt_not_eq.
have -> : Rmult c b = Rmult (Rmult c (Rinv d)) (Rmult b d) by field; apply: Rgt_not_eq.
by apply: Rmult_le_compat_r => //; apply: Rlt_le; exact: Rmult_lt_0_compat.
Qed.

Section Rayleigh.
Variables (n m : nat) (A : 'M[FR]_(m, n)).
Let N (y : 'cV[FR]_n) : FR := sqn (A *m y).
Lemma face (i : 'I_n) : exists v : 'cV[FR]_n, 0 < sqn v /\
  forall y : 'cV[FR]_n, y i 0 = 1 -> (forall j, -1 <= y j 0 <= 1) -> N y * sqn v <= N v * sqn y.
Proof.
have hi : (i < n)%coq_nat by exact/ssrnat.ltP.
have one x : 1 <= sqn (vec n (upd x i R1)).
  by apply: le_trans (sqn_entry _ i); rewrite mxE /upd; case: PeanoNat.Nat.eq_dec => // _; rewrite expr1n.
have g : good n (fun x => Rmult (N (vec n (upd x i R1))) (Rinv (sqn (vec n (upd x i R1))))).
  apply: good_mul; first by apply: (@good_face _ (fun x => N (vec n x))); exact: good_image.
  apply: good_inv; first by apply: (@good_face _ (fun x => sqn (vec n x))); exact: good_norm.
  by move=> x _; apply/leR.
have [x [hx h]] := attained _ _ g.
have hp z : 0 < sqn (vec n (upd z i R1)) by apply: lt_le_trans (one z).
exists (vec n (upd x i R1)); split=> // y yi yb.
pose z k : R := if insub k is Some j then y j 0 else 0.
have zE (j : 'I_n) : z j = y j 0 by rewrite /z valK.
have ze : vec n (upd z i R1) = y.
  apply/matrixP => j k; rewrite ord1 mxE /upd; case: PeanoNat.Nat.eq_dec => [e|_]; last exact: zE.
  by transitivity (y i 0); [rewrite yi|congr (y _ _); apply/val_inj].
have zb : box n z.
  move=> k /ssrnat.ltP hk; have := yb (Ordinal hk); rewrite -zE /= => /andP[/leR a /leR b].
  by split; [exact: a|exact: b].
have := hp z; rewrite ze => /ltR y0; have /ltR x0 := hp x.
by have := h z zb; rewrite ze => h'; apply/leR; exact: cross h'.
Qed.
Lemma faces k : (0 < n)%N -> (k <= n)%N -> exists v : 'cV[FR]_n, 0 < sqn v /\
  forall i : 'I_n, (i < k)%N -> forall y : 'cV[FR]_n, y i 0 = 1 -> (forall j, -1 <= y j 0 <= 1) -> N y * sqn v <= N v * sqn y.
Proof.
move=> n0; elim: k => [|k IH] hk.
  exists (const_mx 1); split=> //; have := sqn_entry (const_mx 1 : 'cV[FR]_n) (Ordinal n0); rewrite mxE expr1n; exact: lt_le_trans ltr01.
have [v [v0 hv]] := IH (ltnW hk); have [w [w0 hw]] := face (Ordinal hk).
have ge0 (y : 'cV[FR]_n) : 0 <= sqn y := sqn_ge0 y.
have tr (a b y : 'cV[FR]_n) : 0 < sqn a -> 0 < sqn b -> N a * sqn b <= N b * sqn a -> N y * sqn a <= N a * sqn y -> N y * sqn b <= N b * sqn y.
  move=> a0 b0 h1 h2; rewrite -(ler_pmul2r a0) mulrAC.
  apply: le_trans (_ : N a * sqn y * sqn b <= _); first by rewrite ler_wpmul2r // ltW.
  by rewrite -mulrA (mulrC (sqn y)) mulrA -[X in _ <= X]mulrA (mulrC (sqn y) (sqn a)) mulrA ler_wpmul2r.
case: (leP (N v * sqn w) (N w * sqn v)) => c.
  exists w; split=> // i; rewrite ltnS leq_eqVlt => /orP[/eqP e|l] y yi yb; last exact: (tr v w y v0 w0 c (hv i l y yi yb)).
  by apply: hw => //; rewrite -yi; congr (y _ _); apply/val_inj.
exists v; split=> // i; rewrite ltnS leq_eqVlt => /orP[/eqP e|l] y yi yb; last exact: hv yi yb.
apply: (tr w v y w0 v0 (ltW c)); apply: hw => //; rewrite -yi; congr (y _ _); exact/val_inj.
Qed.
Lemma sqn_scale k (a : FR) (x : 'cV[FR]_k) : sqn (a *: x) = a ^+ 2 * sqn x.
Proof. by rewrite !sqn_norm2 norm2_scale. Qed.
Lemma rayleigh : (0 < n)%N -> exists v : 'cV[FR]_n, 0 < sqn v /\ forall y, N y * sqn v <= N v * sqn y.
Proof.
move=> n0; have [v [v0 hv]] := faces n0 (leqnn n); exists v; split=> // y.
pose i := [arg max_(i > Ordinal n0 : 'I_n) `|y i 0|]%O.
have hi j : `|y j 0| <= `|y i 0| by rewrite /i; case: arg_maxP => // k _ h; exact: h.
case: (eqVneq (y i 0) 0) => [yi|yi].
  have -> : y = 0.
    apply/matrixP => j k; rewrite ord1 mxE; apply/eqP; rewrite -normr_eq0 eq_le normr_ge0 andbT.
    by have := hi j; rewrite yi normr0.
  by rewrite /N mulmx0 !sqn0 mulr0 mul0r.
pose z := (y i 0)^-1 *: y.
have hz : N z * sqn v <= N v * sqn z.
  apply: (hv i) => //; first by rewrite mxE mulVf.
  move=> j; rewrite -ler_norml mxE normrM normfV mulrC ler_pdivr_mulr ?normr_gt0 // mul1r; exact: hi.
rewrite /N /z -scalemxAr !sqn_scale -/(N y) in hz.
have p : 0 < (y i 0)^-1 ^+ 2 by rewrite exprn_even_gt0 // invr_eq0 yi orbT.
by rewrite -(ler_pmul2l p) mulrA (mulrCA _ (N v)).
Qed.
(** the maximum is an eigenvector *)
Lemma eigen (v : 'cV[FR]_n) : 0 < sqn v -> (forall y, N y * sqn v <= N v * sqn y) -> A^T *m (A *m v) = (N v / sqn v) *: v.
Proof.
move=> v0 h; pose B := sqn v *: (A^T *m A) - N v *: 1%:M.
have symB : B^T = B by rewrite /B linearB /= !linearZ /= trmx1 trmx_mul trmxK.
have quadB y : (y^T *m B *m y) 0 0 = sqn v * N y - N v * sqn y.
  rewrite /B mulmxBr mulmxBl -!scalemxAr -!scalemxAl mulmx1 /N /sqn !trmx_mul !mulmxA.
  by rewrite eB !eZ.
have w0 : B *m v = 0.
  pose w := B *m v; have wv : (w^T *m B *m v) 0 0 = sqn w by rewrite -mulmxA.
  have vw : (v^T *m B *m w) 0 0 = sqn w by rewrite -{1}symB -trmx_mul.
  apply: sqn_eq0; rewrite -/w; apply: (@quad_zero _ ((w^T *m B *m w) 0 0)); first by apply/leR; exact: sqn_ge0.
  move=> t /ltR t0; apply/leR; have := h (v + t *: w); rewrite mulrC -subr_le0 -quadB.
  have vBv : (v^T *m B *m v) 0 0 = 0 by rewrite quadB mulrC subrr.
  rewrite expand_quad vw wv vBv add0r -!mulrDr addrA; exact: id.
have h1 : sqn v *: (A^T *m (A *m v)) = N v *: v.
  by apply/eqP; rewrite -subr_eq0 -{}w0 /B mulmxBl -!scalemxAl mul1mx mulmxA.
by apply: (@scalerI _ _ (sqn v)); rewrite ?gt_eqF // h1 scalerA mulrCA divff ?gt_eqF // mulr1.
Qed.
End Rayleigh.

(** a unit vector is the first column of an orthogonal matrix *)
Lemma complement k (v : 'cV[FR]_(1 + k)) : sqn v = 1 -> exists W : 'M[FR]_(1 + k, k),
  W^T *m W = 1%:M /\ v^T *m W = 0 /\ v *m v^T + W *m W^T = 1%:M.
Proof.
move=> v1; have vv : v^T *m v = 1%:M by apply/matrixP => i j; rewrite !ord1 [RHS]mxE /= -v1.
suff [H [HH He]] : exists H : 'M[FR]_(1 + k), H^T *m H = 1%:M /\ lsubmx H = v.
  have HE : H = row_mx v (rsubmx H) by rewrite -He hsubmxK.
  exists (rsubmx H); have := HH; rewrite {1 2}HE tr_row_mx mul_col_row vv scalar_mx_block => /eq_block_mx[_ -> _ ->]; split=> //; split=> //.
  by rewrite -scalar_mx_block -mul_row_col -tr_row_mx -HE; exact: mulmx1C.
pose e : 'cV[FR]_(1 + k) := delta_mx (lshift k 0) 0; pose u := e - v.
have ee : e^T *m e = 1%:M by rewrite trmx_delta mul_delta_mx; apply/matrixP => i j; rewrite !ord1 !mxE.
case: (eqVneq u 0) => [/eqP|u0].
  rewrite subr_eq0 => /eqP ev; exists 1%:M; rewrite trmx1 mulmx1; split=> //.
  by apply/matrixP => i j; rewrite -ev !mxE ord1 eqxx andbT.
have s0 : sqn u != 0 by apply: contraNneq u0 => /sqn_eq0 ->.
have uu : u^T *m u = (sqn u)%:M by apply/matrixP => i j; rewrite !ord1 [RHS]mxE.
pose c := 2%:R / sqn u; pose H := 1%:M - c *: (u *m u^T).
have cs : c * sqn u = 2%:R by rewrite /c divfK.
have HT : H^T = H by rewrite /H linearB /= linearZ /= trmx1 trmx_mul trmxK.
exists H; split.
  rewrite HT {1}/H mulmxBl mul1mx -scalemxAl /H mulmxBr mulmx1 -scalemxAr.
  rewrite mulmxA -(mulmxA u) uu mul_mx_scalar -scalemxAl scalerA.
  rewrite [c *: (_ - _)]scalerBr scalerA mulrA -mulrA cs.
  by rewrite mulr_natr mulr2n scalerDl; set X := c *: _; rewrite opprD (addrA X) subrr sub0r opprK subrK.
have -> : lsubmx H = H *m e.
  by rewrite /e -colE; apply/matrixP => i j; rewrite [LHS]mxE [RHS]mxE ord1.
have ev : (v^T *m e) 0 0 = (e^T *m v) 0 0 by rewrite -[in RHS](trmxK v) -trmx_mul [RHS]mxE.
have ue : u^T *m e = (sqn u / 2%:R)%:M.
  apply/matrixP => i j; rewrite !ord1 [RHS]mxE mulr1n; apply/eqP.
  rewrite eq_sym -subr_eq0; apply/eqP.
  have -> : sqn u = 2%:R * (u^T *m e) 0 0; last by rewrite mulrAC divff ?mul1r ?subrr // pnatr_eq0.
  have uT : u^T = e^T - v^T by apply/matrixP => a b; rewrite !mxE.
  rewrite /sqn uT /u mulmxBr !mulmxBl ee vv !eB -ev.
  by rewrite opprB mulr_natl mulr2n.
rewrite /H mulmxBl mul1mx -scalemxAl -mulmxA ue mul_mx_scalar scalerA /c.
by rewrite mulrA divfK // divff ?pnatr_eq0 // scale1r /u opprB addrC subrK.
Qed.

Lemma svd_zero m k : inhabited (svd (0 : 'M[FR]_(m, k))).
Proof.
constructor; apply: (@mksvd _ _ _ _ 0 k (0 : 'M[FR]_(m, 0)) (0 : 'rV[FR]_0) (0 : 'M[FR]_(k, 0)) 1%:M).
- by rewrite !mul0mx.
- by case.
- by apply/matrixP; case.
- by apply/matrixP; case.
- by rewrite trmx1 mulmx1.
- by apply/matrixP; case.
- by rewrite mul0mx add0r trmx1 mulmx1.
- by [].
Qed.

Theorem svd_exists m k (M : 'M[FR]_(m, k)) : inhabited (svd M).
Proof.
elim: k M => [|k IH] M; first by rewrite (_ : M = 0); [exact: svd_zero|apply/matrixP => i; case].
have [v0 [p0 hv0]] := rayleigh M (ltn0Sn k).
have rp : Rlt R0 (sqn v0) by apply/ltR.
pose s : FR := sqrt (sqn v0); have ss : s ^+ 2 = sqn v0 by rewrite expr2; exact: sqrt_sqrt (Rlt_le _ _ rp).
have s0 : 0 < s by apply/ltR; exact: sqrt_lt_R0.
pose v : 'cV[FR]_(1 + k) := s^-1 *: v0.
have v1 : sqn v = 1 by rewrite /v sqn_scale exprVn ss mulVf // gt_eqF.
have hv y : sqn (M *m y) * sqn v <= sqn (M *m v) * sqn y.
  by rewrite v1 mulr1 /v -scalemxAr sqn_scale exprVn ss -mulrA [X in _ <= X]mulrC ler_pdivl_mulr.
pose l := sqn (M *m v).
have hl : M^T *m (M *m v) = l *: v by have := eigen _ hv; rewrite v1 divr1; apply; exact: ltr01.
case: (eqVneq l 0) => [l0|l0].
  have -> : M = 0.
    apply/matrixP => i j; rewrite mxE.
    have := hv (delta_mx j 0); rewrite v1 mulr1 -/l l0 mul0r => h.
    have /sqn_eq0 h' : sqn (M *m (delta_mx j 0 : 'cV[FR]_(1 + k))) = 0 by apply/eqP; rewrite eq_le h sqn_ge0.
    by have := congr1 (fun X : 'cV[FR]_m => X i 0) h'; rewrite -colE !mxE.
  exact: svd_zero.
have lp : 0 < l by rewrite lt_neqAle eq_sym l0 sqn_ge0.
have rl : Rlt R0 l by apply/ltR.
pose t : FR := sqrt l; have tt : t ^+ 2 = l by rewrite expr2; exact: sqrt_sqrt (Rlt_le _ _ rl).
have t0 : 0 < t by apply/ltR; exact: sqrt_lt_R0.
have tn : t != 0 by rewrite gt_eqF.
have [W [WW [vW full]]] := complement v1.
have vv : v^T *m v = 1%:M by apply/matrixP => i j; rewrite !ord1 [RHS]mxE /= -v1.
pose u : 'cV[FR]_m := t^-1 *: (M *m v).
have uu : u^T *m u = 1%:M.
  by apply/matrixP => i j; rewrite !ord1 [RHS]mxE /= -/(sqn u) /u sqn_scale exprVn tt mulVf.
have uMW : u^T *m (M *m W) = 0.
  by rewrite /u linearZ /= -scalemxAl trmx_mul mulmxA -(mulmxA v^T) -[M^T *m M]trmxK trmx_mul trmxK -trmx_mul -mulmxA hl linearZ /= -scalemxAl vW !scaler0.
have [D] := IH (M *m W).
have uU : u^T *m U D = 0.
  have h := uMW; rewrite (svdE D) in h.
  have : u^T *m (U D *m diag_mx (S D) *m (V1 D)^T) *m V1 D *m diag_mx (\row_i (S D 0 i)^-1) = 0 by rewrite h !mul0mx.
  by rewrite -!mulmxA (mulmxA (V1 D)^T) V11 mul1mx diag_inv ?mulmx1 //; exact: S_pos.
have vWV p (X : 'M[FR]_(k, p)) : v^T *m (W *m X) = 0 by rewrite mulmxA vW mul0mx.
have WvT p (X : 'M[FR]_(k, p)) : (W *m X)^T *m v = 0 by rewrite -[RHS]trmx0 -(vWV _ X) [in RHS]trmx_mul trmxK.
constructor; apply: (@mksvd _ _ _ _ (1 + rk D) (rk2 D) (row_mx u (U D)) (row_mx (const_mx t) (S D)) (row_mx v (W *m V1 D)) (W *m V2 D)).
- have -> : diag_mx (row_mx (const_mx t : 'rV[FR]_1) (S D)) = block_mx t%:M 0 0 (diag_mx (S D)).
    apply/matrixP => i j; rewrite [LHS]mxE; case: (split_ordP i) => i' ->; case: (split_ordP j) => j' ->.
    + by rewrite row_mxEl block_mxEul [RHS]mxE !ord1 mxE !eqxx.
    + by rewrite eq_lrshift block_mxEur [RHS]mxE mulr0n.
    + by rewrite eq_rlshift block_mxEdl [RHS]mxE mulr0n.
    + by rewrite row_mxEr eq_rshift block_mxEdr [RHS]mxE.
  rewrite mul_row_block !mulmx0 add0r addr0 tr_row_mx mul_row_col mul_mx_scalar trmx_mul mulmxA -(svdE D).
  rewrite /u scalerA mulfV // scale1r -!mulmxA -mulmxDr -[in LHS](mulmx1 M) -full.
  by [].
- by move=> i; case: (split_ordP i) => i' ->; rewrite ?row_mxEl ?row_mxEr ?mxE //; exact: S_pos.
- rewrite tr_row_mx mul_col_row uu uU UU (_ : (U D)^T *m u = 0) ?scalar_mx_block //.
  by rewrite -[RHS]trmx0 -uU trmx_mul trmxK.
- rewrite tr_row_mx mul_col_row vv vWV WvT scalar_mx_block; congr block_mx.
  by rewrite trmx_mul mulmxA -(mulmxA _ W^T) WW mulmx1 V11.
- by rewrite trmx_mul mulmxA -(mulmxA _ W^T) WW mulmx1 V22.
- rewrite tr_row_mx mul_col_mx vWV trmx_mul mulmxA -(mulmxA _ W^T) WW mulmx1 V12.
  by apply/matrixP => i j; rewrite !mxE; case: split_ordP => i' _; rewrite !mxE.
- rewrite tr_row_mx mul_row_col !trmx_mul -addrA !mulmxA -(mulmxA W (V1 D)) -(mulmxA W (V2 D)) -mulmxDl -mulmxDr V_full mulmx1.
  exact: full.
- by rewrite -addnA rk_sum.
Qed.
