From Coq Require Import ZArith Lia.
From mathcomp Require Import all_ssreflect all_algebra.
From Verif Require Import SolveModel SolveSpec SolveProofs DescentModel DescentSpec DescentProofs DescentMain AffModel AffSpec.
Set Implicit Arguments. Unset Strict Implicit. Unset Printing Implicit Defensive.
Import Order.TTheory GRing.Theory Num.Theory.
Open Scope ring_scope.

Section Res.
Variables (F : realFieldType).
Lemma seg_norm_scale r (e : 'cV[F]_r) c iv nv : seg_norm (c *: e) iv nv = c ^+ 2 * seg_norm e iv nv.
Proof. by rewrite /seg_norm mulr_sumr; apply: eq_bigr => i _; rewrite mxE exprMn. Qed.
Lemma seg_norm_ge0 r (e : 'cV[F]_r) iv nv : 0 <= seg_norm e iv nv.
Proof. by apply: sumr_ge0 => i _; apply: sqr_ge0. Qed.
Lemma seg_norm_le r (e : 'cV[F]_r) iv nv : seg_norm e iv nv <= norm2 e.
Proof. by rewrite /norm2 (bigID (fun i : 'I_r => (iv <= i < iv + nv)%N)) /= -/(seg_norm e iv nv) ler_addl; apply: sumr_ge0 => i _; apply: sqr_ge0. Qed.
Lemma seg_max_scale r (e : 'cV[F]_r) c sizes : forall iv m, seg_max (c *: e) iv sizes (c ^+ 2 * m) = c ^+ 2 * seg_max e iv sizes m.
Proof. by elim: sizes => [|nv t IH] iv m //=; rewrite seg_norm_scale -maxr_pmulr ?sqr_ge0 // IH. Qed.
Lemma seg_max_ge r (e : 'cV[F]_r) sizes : forall iv m, m <= seg_max e iv sizes m.
Proof. by elim: sizes => [|nv t IH] iv m //=; apply: le_trans (IH _ _); rewrite le_maxr lexx. Qed.
Lemma seg_max_le r (e : 'cV[F]_r) B sizes : norm2 e <= B -> forall iv m, m <= B -> seg_max e iv sizes m <= B.
Proof.
by move=> H; elim: sizes => [|nv t IH] iv m //= Hm; apply: IH; rewrite le_maxl Hm /=; apply: le_trans H; apply: seg_norm_le.
Qed.
Variable n : nat.
Implicit Types (req : seq (alevel F n)) (q : 'cV[F]_n).
Lemma residual_ge0 req q : 0 <= aresidual req q.
Proof.
suff G m : 0 <= m -> 0 <= foldl (fun m l => seg_max (aerr l q) 0 (al_sizes l) m) m req by apply: G.
by elim: req m => [|l req IH] m //= Hm; apply: IH; apply: le_trans Hm _; apply: seg_max_ge.
Qed.
Lemma residual_le req q B : 0 <= B -> (forall l, List.In l req -> norm2 (aerr l q) <= B) -> aresidual req q <= B.
Proof.
move=> B0; suff G m : m <= B -> (forall l, List.In l req -> norm2 (aerr l q) <= B) -> foldl (fun m l => seg_max (aerr l q) 0 (al_sizes l) m) m req <= B by apply: G.
elim: req m => [|l req IH] m //= Hm H.
apply: IH; last by move=> l' Hl; apply: H; right.
by apply: seg_max_le => //; apply: H; left.
Qed.
Lemma residual_scale req q q' c : (forall l, List.In l req -> aerr l q' = c *: aerr l q) ->
  aresidual req q' = c ^+ 2 * aresidual req q.
Proof.
move=> H0; suff G m : (forall l, List.In l req -> aerr l q' = c *: aerr l q) ->
  foldl (fun m l => seg_max (aerr l q') 0 (al_sizes l) m) (c ^+ 2 * m) req = c ^+ 2 * foldl (fun m l => seg_max (aerr l q) 0 (al_sizes l) m) m req.
  by have := G 0 H0; rewrite mulr0.
elim: req m {H0} => [|l req IH] m //= H.
rewrite (H l (or_introl _ erefl)) seg_max_scale; apply: IH => l' Hl; apply: H; by right.
Qed.

(** directions *)
Lemma cost_ge0 (p : problem F n) x : 0 <= cost p x.
Proof. by rewrite /cost -sqn_norm2; apply: sqn_ge0. Qed.
Lemma foldl_zero (ps : seq (problem F n)) : forall (A : 'cV[F]_n -> Prop) x, A x -> (forall p, List.In p ps -> cost p x = 0) ->
  forall r, foldl (@best F n) A ps r -> forall p, List.In p ps -> cost p r = 0.
Proof.
elim: ps => [|p ps IH] A x Ax H r //= Hr p' Hp'.
have Hx : best A p x by split=> // y _; rewrite (H p (or_introl _ erefl)); apply: cost_ge0.
case: Hp' => [<-|Hp']; last by apply: (IH _ x Hx _ r Hr) => // p2 H2; apply: H; right.
have [_ Hle] := @foldl_sub F n ps _ _ Hr.
apply/eqP; rewrite eq_le cost_ge0 andbT; apply: le_trans (Hle x Ax) _.
by rewrite (H p (or_introl _ erefl)).
Qed.
Lemma foldl_cat (ps qs : seq (problem F n)) A r : foldl (@best F n) A (ps ++ qs) r -> foldl (@best F n) A ps r.
Proof. by rewrite foldl_cat; apply: foldl_sub. Qed.
Definition prob1 (l : level F n) : problem F n := mkproblem (jac l) (err l).
Lemma descends_lex thr ls r : descends thr ls r -> lex [seq prob1 l | l <- ls] r.
Proof.
case=> [l D mr -> ->|lms stale mrs ok -> H]; first by have [] := single D mr.
by rewrite -map_comp; apply: lexicographic H.
Qed.
Lemma in_map (A B : Type) (f : A -> B) l x : List.In x l -> List.In (f x) (map f l).
Proof. by elim: l => //= a l IH [->|H]; [left|right; apply: IH]. Qed.
Lemma in_map_inv (A B : Type) (f : A -> B) l y : List.In y (map f l) -> exists x, y = f x /\ List.In x l.
Proof.
elim: l => //= a l IH [<-|H]; first by exists a; split=> //; left.
by have [x [-> Hx]] := IH H; exists x; split=> //; right.
Qed.
Lemma descends_zero thr req opt q d : descends thr [seq at_q l q | l <- req ++ opt] d -> feasible req ->
  forall l, List.In l req -> al_A l *m d = - aerr l q.
Proof.
move=> /descends_lex; rewrite map_cat map_cat => /foldl_cat H [x Hx] l Hl.
have C : cost (prob1 (at_q l q)) d = 0.
  apply: (@foldl_zero _ (fun _ => True) (x - q) I _ d H).
    move=> pb Hb; have [l1 [E1 H1]] := @in_map_inv _ _ _ _ _ Hb; have [l2 [E2 H2]] := @in_map_inv _ _ _ _ _ H1.
    by rewrite E1 E2 /cost /= /aerr mulmxBr (Hx _ H2) addrA subrK subrr -sqn_norm2 sqn0.
  by apply: in_map; apply: in_map.
have /sqn_eq0 : sqn (al_A l *m d + aerr l q) = 0 by rewrite sqn_norm2.
by move/eqP; rewrite addr_eq0 => /eqP.
Qed.
Lemma aerr_step l q d a : al_A l *m d = - aerr l q -> aerr l (q + a *: d) = (1 - a) *: aerr l q.
Proof. by move=> H; rewrite /aerr mulmxDr -scalemxAr H scalerBl scale1r scalerN addrAC. Qed.
End Res.

Section Hier.
Variables (F : realFieldType) (n : nat) (St : Type) (req opt : seq (alevel F n)) (I : St -> Prop) (m L dmin thr thr' inf : F) (maxit rdim : Z).
Variables (descent : St -> 'cV[F]_n -> 'cV[F]_n * St) (lsearch : St -> 'cV[F]_n -> 'cV[F]_n -> 'cV[F]_n * 'cV[F]_n * St).
Hypothesis Feas : feasible req.
Hypothesis Desc : forall s q, descends thr' [seq at_q l q | l <- req ++ opt] (descent s q).1.
Hypothesis Mv : moves_by (@along F n) (fun a d => a *: d) I m descent lsearch.
Variable p : St * 'cV[F]_n.
Hypothesis Ip : I p.1.
Notation it := (iterate descent lsearch).
Lemma step_err k l : I (it k p).1 -> List.In l req ->
  exists2 a, m <= a <= 1 & (it k.+1 p).2 = (it k p).2 + a *: (descent (it k p).1 (it k p).2).1 /\ aerr l (it k.+1 p).2 = (1 - a) *: aerr l (it k p).2.
Proof.
move=> Ik Hl. have [a [d [s1 [s2 [E1 [E2 [Ha I2]]]]]]] := @Mv (it k p).1 (it k p).2 Ik.
exists a => //; rewrite /= /next E1 E2 /=; split=> //; rewrite /along; apply: aerr_step.
by have := descends_zero (Desc (it k p).1 (it k p).2) Feas Hl; rewrite E1.
Qed.
Lemma inv_it k : I (it k p).1.
Proof.
elim: k => [|k IH] //=; rewrite /next. have [a [d [s1 [s2 [E1 [E2 [Ha I2]]]]]]] := @Mv (it k p).1 (it k p).2 IH.
by rewrite E1 E2.
Qed.
Lemma step_all k : exists a, [/\ m <= a <= 1, (it k.+1 p).2 = (it k p).2 + a *: (descent (it k p).1 (it k p).2).1 &
  forall l, List.In l req -> aerr l (it k.+1 p).2 = (1 - a) *: aerr l (it k p).2].
Proof.
have [a [d [s1 [s2 [E1 [E2 [Ha I2]]]]]]] := @Mv (it k p).1 (it k p).2 (inv_it k).
exists a; rewrite /= /next E1 E2 /= /along; split=> // l Hl; apply: aerr_step.
by have := descends_zero (Desc (it k p).1 (it k p).2) Feas Hl; rewrite E1.
Qed.
Hypothesis m_pos : 0 < m.
Lemma res_step k : exists a, [/\ m <= a, a <= 1 & aresidual req (it k.+1 p).2 = (1 - a) ^+ 2 * aresidual req (it k p).2].
Proof. by have [a [/andP[H1 H2] _ H]] := step_all k; exists a; split=> //; apply: residual_scale. Qed.
Lemma m_le1 : m <= 1. Proof. by have [a [H1 H2 _]] := res_step 0; apply: le_trans H1 H2. Qed.
Lemma err_it k : exists c, [/\ 0 <= c, c <= (1 - m) ^+ k & forall l, List.In l req -> aerr l (it k p).2 = c *: aerr l p.2].
Proof.
elim: k => [|k [c [c0 c1 IH]]]; first by exists 1; split=> //= l _; rewrite scale1r.
have [a [/andP[H1 H2] _ H]] := step_all k. exists ((1 - a) * c). split.
- by apply: mulr_ge0 => //; rewrite subr_ge0.
- by rewrite exprS; apply: ler_pmul => //; rewrite ?subr_ge0 ?ler_add2l ?ler_opp2.
- by move=> l Hl; rewrite H // IH // scalerA.
Qed.
Lemma res_it k : aresidual req (it k p).2 <= (1 - m) ^+ (2 * k) * aresidual req p.2.
Proof.
have [c [c0 c1 H]] := err_it k. rewrite (residual_scale H) mulnC exprM; apply: ler_wpmul2r; first exact: residual_ge0.
by rewrite ler_sqr // nnegrE exprn_ge0 // subr_ge0 m_le1.
Qed.
Lemma res_dec k : 0 < aresidual req (it k p).2 -> aresidual req (it k.+1 p).2 < aresidual req (it k p).2.
Proof.
move=> H. have [a [H1 H2 ->]] := res_step k. rewrite -{2}(mul1r (aresidual _ _)) ltr_pmul2r //.
by rewrite exprn_ilt1 // ?subr_ge0 // gtr_addl oppr_lt0; apply: lt_le_trans H1.
Qed.
Hypothesis Str : stretch req L.
Hypothesis Scale : L * dmin <= thr.
Lemma no_small_step k : thr < aresidual req (it k p).2 -> sqn (descent (it k p).1 (it k p).2).1 < dmin -> False.
Proof.
move=> H1 H2; move: H1; apply/negP; rewrite -leNgt; apply: le_trans Scale.
have [L0 HL] := Str. apply: le_trans (ler_wpmul2l L0 (ltW H2)). rewrite sqn_norm2.
apply: residual_le; first by rewrite -sqn_norm2 mulr_ge0 // sqn_ge0.
move=> l Hl. have := HL l (descent (it k p).1 (it k p).2).1 Hl. rewrite (descends_zero (Desc _ _) Feas Hl).
by rewrite -!sqn_norm2 sqn_opp.
Qed.
Lemma affine_success fuel : (Z.to_nat maxit <= fuel)%N -> rdim <> Z0 -> (1 - m) ^+ (2 * Z.to_nat maxit) * aresidual req p.2 <= thr ->
  exists k, asolve req descent lsearch dmin thr inf maxit rdim fuel p.1 p.2 =
      Some (Some SUCCESS, (it k p).2, [seq (it j p).2 | j <- rev (iota 0 k)], Z.of_nat k) /\
    (k <= Z.to_nat maxit)%N /\ aresidual req (it k p).2 <= thr /\ (forall j, (j < k)%N -> thr < aresidual req (it j p).2) /\
    exists c, 0 <= c <= (1 - m) ^+ k /\ forall l, List.In l req -> aerr l (it k p).2 = c *: aerr l p.2.
Proof.
move=> /ssrnat.leP Hf Hr Hn.
have thr0 : 0 <= thr by apply: le_trans Hn; rewrite mulr_ge0 ?residual_ge0 // exprn_ge0 // subr_ge0 m_le1.
have [k [st [Es [Hk [Hs Hrest]]]]] := @hsolve_spec _ _ _ _ (fun a b : F => a < b) (aresidual req) descent (@sqn F n) dmin thr maxit rdim lsearch inf p fuel Hf.
case: Hrest => [[_ [H0 _]]|[_ [Hstop [Hfirst _]]]]; first by case: Hr.
have Hbelow : ~ above (fun a b : F => a < b) (aresidual req) descent lsearch thr p k.
  move=> Hab. case: Hstop => [//|[[H3 Hdec]|[Hmax|Hsm]]].
  - case: k Hab H3 Hdec {Es Hk Hs Hfirst} => [|[|[|k]]] Hab H3 Hdec; try by lia.
    have : decreased (fun a b : F => a < b) (aresidual req) descent lsearch inf p k.+2 = false by apply: Hdec; lia.
    rewrite /decreased {1}/reference. have := res_dec (k := k.+2); rewrite -/(it _ _) => Hd.
    suff -> : aresidual req (it k.+3 p).2 < aresidual req (it k.+2 p).2 by [].
    apply: Hd. have [a [H1 H2 E]] := res_step k.+2. move: Hab; rewrite /above E => Hab.
    rewrite lt_neqAle residual_ge0 andbT; apply/eqP => Z; move: Hab; rewrite -Z mulr0 => Hab.
    by have := lt_le_trans Hab thr0; rewrite ltxx.
  - move: Hab; rewrite /above; apply/negP; rewrite -leNgt; apply: le_trans Hn.
    apply: le_trans (res_it k) _; apply: ler_wpmul2r; first exact: residual_ge0.
    apply: ler_wiexpn2l; rewrite ?subr_ge0 ?m_le1 ?ler_subl_addr ?ler_addl ?(ltW m_pos) //.
    by rewrite leq_mul2l /=; apply/ssrnat.leP; lia.
  - exact: (no_small_step (k := k)).
exists k. rewrite /asolve Es (proj2 Hs Hbelow). split; last split; last split; last split.
- congr (Some (_, _, _, _)). have -> : List.seq 0 k = iota 0 k by elim: k 0%N {Es Hk Hs Hstop Hfirst Hbelow} => //= k IH o; rewrite IH.
  have -> (T : Type) (l : seq T) : List.rev l = rev l by elim: l => //= x l ->; rewrite rev_cons -cats1.
  by elim: (rev _) => //= x l ->.
- by apply/ssrnat.leP; lia.
- by move: Hbelow; rewrite /above => /negP; rewrite -leNgt.
- move=> j /ssrnat.ltP Hj. have := Hfirst j Hj; rewrite /stops /above => H.
  case E : (thr < aresidual req (it j p).2) => //. case: H; left. by rewrite E.
- by have [c [c0 c1 H]] := err_it k; exists c; rewrite c0 c1.
Qed.
End Hier.
