From Coq Require Import ZArith Lia.
From mathcomp Require Import all_ssreflect all_algebra.
From Verif Require Import SolveModel DescentModel DescentSpec DescentProofs DescentMain AffModel AffSpec AffProofs.
Set Implicit Arguments. Unset Strict Implicit. Unset Printing Implicit Defensive.
Import Order.TTheory GRing.Theory Num.Theory.
Open Scope ring_scope.

Section BySub.
Variables (F : realFieldType) (n p : nat) (St : Type) (req opt : seq (blevel F n p)) (G : 'M[F]_(p, n)) (h : 'cV[F]_p).
Variables (I : St -> Prop) (m L dmin thr thr' : F) (maxit rdim : Z).
Variables (descent : St -> conf F n p -> 'cV[F]_n * St) (lsearch : St -> conf F n p -> 'cV[F]_n -> option (conf F n p * 'cV[F]_n * St)).
Hypothesis Feas : exists c, bsolution G h req c.
Hypothesis Desc : forall s c, computed G h c -> descends thr' [seq at_c G l c | l <- req ++ opt] (descent s c).1.
Hypothesis Mv : bmoves_by G h I m descent lsearch.
Hypothesis m_pos : 0 < m.
Hypothesis Str : bstretch G req L.
Hypothesis Scale : L * dmin <= 4%:R^-1 * thr.
Hypothesis thr0 : 0 <= thr.
Notation E := (bresidual req).

(** equations in x alone *)
Definition red (l : blevel F n p) : alevel F n := mkal (bl_A l + bl_B l *m G) (bl_b l - bl_B l *m h) (bl_sizes l).
Lemma berr_red l c : computed G h c -> berr l c = aerr (red l) c.1.
Proof.
rewrite /computed => H. rewrite /berr /aerr /= H mulmxDl mulmxDr mulmxA opprB. by rewrite addrA -!addrA.
Qed.
Lemma bres_red c : computed G h c -> E c = aresidual [seq red l | l <- req] c.1.
Proof.
move=> H; rewrite /bresidual /aresidual. elim: (req) 0 => [|l r IH] x //=. by rewrite berr_red // IH.
Qed.
Lemma at_red c l : computed G h c -> at_c G l c = at_q (red l) c.1.
Proof. by move=> H; rewrite /at_c /at_q berr_red. Qed.
Lemma desc_red s c : computed G h c -> descends thr' [seq at_q l c.1 | l <- [seq red l | l <- req] ++ [seq red l | l <- opt]] (descent s c).1.
Proof.
move=> H. have := Desc s H. rewrite -map_cat -map_comp. congr (descends _ _ _). by apply: eq_map => l; apply: at_red.
Qed.
Lemma feas_red : feasible [seq red l | l <- req].
Proof.
have [c [Hc H]] := Feas. exists c.1 => l Hl. have [l' [-> Hl']] := @in_map_inv _ _ _ _ _ Hl.
rewrite /= -(H _ Hl') Hc mulmxDl mulmxDr mulmxA. by rewrite addrA addrK.
Qed.
Lemma bstep s c a : computed G h c -> forall l, List.In l req ->
  berr l (c.1 + a *: (descent s c).1, G *m (c.1 + a *: (descent s c).1) + h) = (1 - a) *: berr l c.
Proof.
move=> Hc l Hl. rewrite !berr_red //=. apply: (@aerr_step _ _ (red l)). apply: (descends_zero (desc_red s Hc) feas_red). exact: in_map.
Qed.
Lemma bresidual_ge0 c : computed G h c -> 0 <= E c.
Proof. by move=> H; rewrite bres_red //; apply: residual_ge0. Qed.
Lemma bresidual_scale c c' a : computed G h c -> computed G h c' -> (forall l, List.In l req -> berr l c' = a *: berr l c) -> E c' = a ^+ 2 * E c.
Proof.
move=> H H' Hl. rewrite !bres_red //. apply: residual_scale => l Hin. have [l' [-> Hl']] := @in_map_inv _ _ _ _ _ Hin.
by rewrite -!berr_red // Hl.
Qed.
Lemma bno_small s c : computed G h c -> 4%:R^-1 * thr < E c -> sqn (descent s c).1 < dmin -> False.
Proof.
move=> Hc H1 H2; move: H1; apply/negP; rewrite -leNgt; apply: le_trans Scale.
have [L0 HL] := Str. apply: le_trans (ler_wpmul2l L0 (ltW H2)). rewrite sqn_norm2 bres_red //.
apply: residual_le; first by rewrite -sqn_norm2 mulr_ge0 // sqn_ge0.
move=> l Hin. have [l' [El Hl']] := @in_map_inv _ _ _ _ _ Hin.
have := HL l' (descent s c).1 Hl'. rewrite mulmxA -mulmxDl.
have := descends_zero (desc_red s Hc) feas_red Hin. rewrite El /= => ->. by rewrite -!sqn_norm2 sqn_opp.
Qed.

Variables (c1 : conf F n p) (it0 : Z).
Hypothesis C1 : computed G h c1.
Notation bstate := (@bst (conf F n p) 'cV[F]_n St F).
Notation Bl := (bloop (fun a b : F => a < b) E descent (@sqn F n) dmin thr maxit E lsearch (explicit_solve G h)
    (fun x => 4%:R^-1 * x) (fun x => x / 2%:R) (fun x => x * 2%:R) (fun x => x < 2%:R^-1) (fun d x => x *: d) (fun d x => x^-1 *: d) false).
Definition binv (b : bstate) : Prop :=
  computed G h (b_arg b) /\ b_sn b = E (b_arg b) /\ I (b_s b) /\ b_only b = false /\ b_above b = (4%:R^-1 * thr < b_sn b) /\ b_ed b = Zpos 3 /\
  exists j a, b_iter b = Z.add it0 (Z.of_nat j) /\ 0 <= a <= (1 - m) ^+ j /\ (j = 0%N -> b_arg b = c1) /\
    forall l, List.In l req -> berr l (b_arg b) = a *: berr l c1.
Lemma m1_le : m <= 1 -> 0 <= 1 - m. Proof. by rewrite subr_ge0. Qed.
Lemma bloop_inv : forall fuel (b : bstate), binv b -> (Z.to_nat (Z.sub maxit (b_iter b)) <= fuel)%coq_nat ->
  exists st b', Bl fuel SUCCESS b = Bend st b' /\ binv b' /\ (b_above b' = false -> st = SUCCESS) /\ (b_above b' -> Z.le maxit (b_iter b')).
Proof.
elim=> [|fuel IH] b Hb Hf.
- have [Hc [Hsn [Is [Ho [Ha [He _]]]]]] := Hb. rewrite /= He /= andbT. case Eb : (b_above b).
  + have -> : Z.leb maxit (b_iter b) by apply/Z.leb_le; lia.
    do 2 eexists; split; [reflexivity|]. rewrite Eb; split=> //; split=> // _; lia.
  + by do 2 eexists; split; [reflexivity|]; rewrite Eb.
- have [Hc [Hsn [Is [Ho [Ha [He [j [a [Hj [/andP[a0 a1] [Hj0 Hl]]]]]]]]]]] := Hb.
  rewrite /= He /= andbT. case Eb : (b_above b); last by do 2 eexists; split; [reflexivity|]; rewrite Eb.
  case Em : (Z.leb maxit (b_iter b)).
    do 2 eexists; split; [reflexivity|]. rewrite Eb; split=> //; split=> // _; exact/Z.leb_le.
  rewrite Ho. have [aa [d [s1 [s2 [y [E1 [E2 [/andP[A1 A2] I2]]]]]]]] := Mv Is Hc. rewrite E1.
  have Above : 4%:R^-1 * thr < E (b_arg b) by rewrite -Hsn -Ha.
  have Es : sqn d < dmin = false by apply/negP => Hd; apply: (bno_small (s := b_s b) Hc Above); rewrite E1.
  rewrite Es E2 /=. set c' := (_, _ + h).
  have Hc' : computed G h c' by [].
  have Hst : forall l, List.In l req -> berr l c' = (1 - aa) *: berr l (b_arg b).
    by move=> l Hin; have := bstep (b_s b) aa Hc Hin; rewrite E1.
  have Pos : 0 < E (b_arg b) by apply: le_lt_trans Above; rewrite mulr_ge0 // invr_ge0 ler0n.
  have Dec : E c' < b_sn b.
    rewrite Hsn (bresidual_scale Hc Hc' Hst) -{2}(mul1r (E (b_arg b))) ltr_pmul2r //.
    by rewrite exprn_ilt1 // ?subr_ge0 // gtr_addl oppr_lt0; apply: lt_le_trans A1.
  rewrite Dec; apply: IH; last by rewrite [b_iter _]/=; move/Z.leb_gt: Em => Em; lia.
  split=> //; do 5! split=> //. exists j.+1, ((1 - aa) * a). split; first by rewrite [b_iter _]/= Hj Nat2Z.inj_succ; lia. split; last split=> //.
  + apply/andP; split; first by rewrite mulr_ge0 // subr_ge0.
    rewrite exprS; apply: ler_pmul => //; rewrite ?subr_ge0 // ?ler_add2l ?ler_opp2 //.
  + by move=> l Hin; rewrite Hst // Hl // scalerA.
Qed.
End BySub.

Section Main.
Variables (F : realFieldType) (n p : nat) (St : Type) (req opt : seq (blevel F n p)) (G : 'M[F]_(p, n)) (h : 'cV[F]_p).
Variables (I : St -> Prop) (m L dmin thr thr' : F) (maxit rdim : Z).
Variables (descent : St -> conf F n p -> 'cV[F]_n * St) (lsearch : St -> conf F n p -> 'cV[F]_n -> option (conf F n p * 'cV[F]_n * St)).
Lemma affine_by_substitution s c0 fuel : let c1 := (c0.1, G *m c0.1 + h) in
  (exists c, bsolution G h req c) ->
  (forall s c, computed G h c -> descends thr' [seq at_c G l c | l <- req ++ opt] (descent s c).1) ->
  bmoves_by G h I m descent lsearch -> I s -> 0 < m -> bstretch G req L -> L * dmin <= 4%:R^-1 * thr -> 0 <= thr ->
  (Z.to_nat maxit <= fuel)%N -> rdim <> Z0 -> (1 - m) ^+ (2 * Z.to_nat maxit) * bresidual req c1 <= 4%:R^-1 * thr ->
  exists c b, absolve req G h descent lsearch dmin thr maxit rdim fuel s c0 = Done SUCCESS c b /\
    computed G h c /\ bresidual req c <= thr /\ (thr <= bresidual req c1 -> bresidual req c <= 4%:R^-1 * thr) /\
    (exists a, 0 <= a <= 1 /\ forall l, List.In l req -> berr l c = a *: berr l c1) /\
    (m = 1 -> Z.lt Z0 maxit -> 4%:R^-1 * thr < bresidual req c1 -> bsolution G h req c).
Proof.
move=> c1 Feas Desc Mv Is m0 Str Sc T0 /ssrnat.leP Hf Hr Hn.
have m1 : m <= 1 by have [a [d [s1 [s2 [y [_ [_ [/andP[H1 H2] _]]]]]]]] := Mv s c1 Is erefl; apply: le_trans H1 H2.
have C1 : computed G h c1 by [].
have R1 := bresidual_ge0 req C1.
rewrite /absolve /bsolve /explicit_solve -/c1.
have -> : ((4%:R^-1 * thr < bresidual req c1) && Z.eqb rdim Z0) = false.
  by rewrite andbC; case: Z.eqb_spec.
set it0 : Z := (if (bresidual req c1 < thr) && negb false then Z.sub (Z.max maxit (Zpos 2)) (Zpos 2) else Z0).
have Hit0 : Z.le Z0 it0 by rewrite /it0; case: ifP => _; lia.
have Hit1 : Z.lt Z0 maxit -> Z.lt it0 maxit by rewrite /it0; case: ifP => _; lia.
set b0 := binit _ _ _ _ _ _ _ _ _ _ _.
have Hb0 : binv req G h I m thr c1 it0 b0.
  split=> //; do 5! split=> //. exists 0%N, 1. rewrite /= ler01 lexx; split; first by rewrite Z.add_0_r. do 2! split=> //.
  by move=> l _; rewrite scale1r.
have Hfuel : (Z.to_nat (Z.sub maxit (b_iter b0)) <= fuel)%coq_nat by have : b_iter b0 = it0 by []; lia.
have [st [b [-> [[Hc [Hsn [_ [_ [Ha [_ [j [a [Hj [/andP[a0 a1] [Hj0 Hl]]]]]]]]]]] [Hs Hmax]]]]] :=
  @bloop_inv F n p St req opt G h I m L dmin thr thr' maxit descent lsearch Feas Desc Mv m0 Str Sc T0 c1 it0 fuel b0 Hb0 Hfuel.
have aj : a <= 1 by apply: le_trans a1 _; rewrite exprn_ile1 // ?subr_ge0 // ler_subl_addr ler_addl ltW.
have Hsc := bresidual_scale C1 Hc Hl.
have Zero : m = 1 -> Z.lt Z0 maxit -> 4%:R^-1 * thr < bresidual req c1 -> a = 0.
  move=> Em M0 Ab. case: j Hj a1 Hj0 => [|j] Hj a1 Hj0.
    have := Hmax; rewrite Ha Hsn Hj0 // Ab => /(_ isT). rewrite Hj; have := Hit1 M0; lia.
  by apply: le_anti; rewrite a0 andbT; move: a1; rewrite Em subrr exprS mul0r.
have Full : m = 1 -> Z.lt Z0 maxit -> 4%:R^-1 * thr < bresidual req c1 -> bsolution G h req (b_arg b).
  move=> Em M0 Ab. split=> // l Hin. apply/eqP; rewrite -subr_eq0; apply/eqP. by rewrite -/(berr l (b_arg b)) Hl // Zero // scale0r.
case: ifP => /= Hbelow.
- case: ifP => Hlt.
  + exists c1, b; split=> //; split=> //; split; first exact: ltW. split; first by move=> H; move: Hbelow; rewrite ltNge H.
    split; first by exists 1; rewrite ler01 lexx; split=> // l _; rewrite scale1r.
    move=> Em M0 Ab. move: Hlt; rewrite Hsn Hsc.
    rewrite Zero //.
    by rewrite expr0n mul0r ltNge R1.
  + exists (b_arg b), b; split=> //; split=> //. have Le : b_sn b <= bresidual req c1 by rewrite leNgt Hlt.
    rewrite -Hsn; split; first by apply: le_trans Le (ltW Hbelow).
    split; first by move=> H; move: Hbelow; rewrite ltNge H.
    by split; first by exists a; rewrite a0 aj.
- have I0 : it0 = Z0 by rewrite /it0 Hbelow.
  have Low : bresidual req (b_arg b) <= 4%:R^-1 * thr.
    rewrite leNgt; apply/negP => Hab. have Hab' : b_above b by rewrite Ha Hsn.
    have := Hmax Hab'; rewrite Hj I0 => Hm. move: Hab; apply/negP; rewrite -leNgt. apply: le_trans Hn.
    rewrite Hsc; apply: ler_wpmul2r => //. rewrite mulnC exprM.
    rewrite ler_sqr ?nnegrE ?exprn_ge0 ?subr_ge0 //. apply: le_trans a1 _.
    apply: ler_wiexpn2l; rewrite ?subr_ge0 // ?ler_subl_addr ?ler_addl ?(ltW m0) //. by apply/ssrnat.leP; lia.
  have -> : st = SUCCESS by apply: Hs; rewrite Ha Hsn; apply/negP; apply/negP; rewrite -leNgt.
  exists (b_arg b), b; split=> //; split=> //. split.
    apply: le_trans Low _. by rewrite -{2}(mul1r thr); apply: ler_wpmul2r => //; rewrite invf_le1 ?ler1n ?ltr0n.
  split=> //. by split; first by exists a; rewrite a0 aj.
Qed.
End Main.
