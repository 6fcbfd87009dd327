From Coq Require Import ZArith Lia.
From mathcomp Require Import all_ssreflect all_algebra.
From Verif Require Import SolveModel DescentModel DescentSpec DescentProofs DescentMain AffModel AffSpec AffProofs NewtModel NewtSpec NewtProofs.
Set Implicit Arguments. Unset Strict Implicit. Unset Printing Implicit Defensive.
Import Order.TTheory GRing.Theory Num.Theory.
Open Scope ring_scope.

Section BySub.
Variables (F : realFieldType) (n p : nat) (St : Type) (ls : seq (nblevel F n p)) (g : 'cV[F]_n -> 'cV[F]_p) (G : 'cV[F]_n -> 'M[F]_(p, n)).
Variables (I : St -> Prop) (x0 : 'cV[F]_n) (r B K L s0 m dmin thr thr' : F) (maxit rdim : Z).
Variables (descent : St -> conf F n p -> 'cV[F]_n * St) (lsearch : St -> conf F n p -> 'cV[F]_n -> option (conf F n p * 'cV[F]_n * St)).
Notation gain := (m * (1 - (K * B ^+ 2 * s0) ^+ 2)).
Notation rs := [seq substituted g G l | l <- ls].
Hypothesis Wb : well_behaved rs x0 r B K L.
Hypothesis Starts : exists l t, ls = l :: t /\ nb_rows l <> 0%N.
Hypothesis Desc : forall s c, on_graph g c -> ball x0 r c.1 -> descends thr' [seq at_nb G c l | l <- ls] (descent s c).1.
Hypothesis Mv : nbmoves_by g I m descent lsearch.
Hypothesis B0 : 0 <= B.
Hypothesis S0 : 0 <= s0.
Hypothesis L0 : 0 <= L.
Hypothesis M0 : 0 < m.
Hypothesis M1 : m <= 1.
Hypothesis R0 : nbresidual ls (x0, g x0) <= s0 ^+ 2.
Hypothesis Theta : (K * B ^+ 2 * s0) ^+ 2 < 1.
Hypothesis Radius : B * s0 * 2%:R <= r * gain.
Hypothesis Scale : L * dmin <= 4%:R^-1 * thr.
Hypothesis thr0 : 0 <= thr.
Notation E := (nbresidual ls).
Lemma nbres_sub c : on_graph g c -> E c = nresidual rs c.1.
Proof.
case: c => x y; rewrite /on_graph /= => ->. rewrite /nbresidual /nresidual. by elim: (ls) 0 => [|l l' IH] z //=.
Qed.
Lemma at_sub c : on_graph g c -> [seq at_nb G c l | l <- ls] = [seq at_n c.1 l | l <- rs].
Proof. case: c => x y; rewrite /on_graph /= => ->. by rewrite -map_comp. Qed.
Lemma starts_sub : exists l t, rs = l :: t /\ nl_rows l <> 0%N.
Proof. by have [l [t [-> H]]] := Starts; do 2 eexists; split; [reflexivity|]. Qed.
Let c1 : conf F n p := (x0, g x0).
Lemma c1_graph : on_graph g c1. Proof. by []. Qed.
Lemma R0' : nresidual rs x0 <= s0 ^+ 2. Proof. by have := R0; rewrite (nbres_sub c1_graph). Qed.

Variables (it0 : Z).
Notation bstate := (@bst (conf F n p) 'cV[F]_n St F).
Notation Bl := (bloop (fun a b : F => a < b) E descent (@sqn F n) dmin thr maxit E lsearch (nesolve g)
    (fun x => 4%:R^-1 * x) (fun x => x / 2%:R) (fun x => x * 2%:R) (fun x => x < 2%:R^-1) (fun d x => x *: d) (fun d x => x^-1 *: d) false).
Definition nbinv (b : bstate) : Prop :=
  on_graph g (b_arg b) /\ b_sn b = E (b_arg b) /\ I (b_s b) /\ b_only b = false /\ b_above b = (4%:R^-1 * thr < b_sn b) /\ b_ed b = Zpos 3 /\
  exists j, b_iter b = Z.add it0 (Z.of_nat j) /\ traj rs x0 B K s0 m j (b_arg b).1.
Lemma nbloop_inv : forall fuel (b : bstate), nbinv b -> (Z.to_nat (Z.sub maxit (b_iter b)) <= fuel)%coq_nat ->
  exists st b', Bl fuel SUCCESS b = Bend st b' /\ nbinv b' /\ (b_above b' = false -> st = SUCCESS) /\ (b_above b' -> Z.le maxit (b_iter b')).
Proof.
elim=> [|fuel IH] b Hb Hf.
- have [Hc [Hsn [Is [Ho [Ha [He _]]]]]] := Hb. rewrite /= He /= andbT. case Eb : (b_above b).
  + have -> : Z.leb maxit (b_iter b) by apply/Z.leb_le; lia.
    do 2 eexists; split; [reflexivity|]. rewrite Eb; split=> //; split=> // _; lia.
  + by do 2 eexists; split; [reflexivity|]; rewrite Eb.
- have [Hc [Hsn [Is [Ho [Ha [He [j [Hj Ht]]]]]]]] := Hb.
  rewrite /= He /= andbT. case Eb : (b_above b); last by do 2 eexists; split; [reflexivity|]; rewrite Eb.
  case Em : (Z.leb maxit (b_iter b)).
    do 2 eexists; split; [reflexivity|]. rewrite Eb; split=> //; split=> // _; exact/Z.leb_le.
  rewrite Ho. have [a [d [s1 [s2 [y [E1 [E2 [A I2]]]]]]]] := Mv Is Hc. rewrite E1.
  have Above : 4%:R^-1 * thr < nresidual rs (b_arg b).1 by rewrite -nbres_sub // -Hsn -Ha.
  have Hball : ball x0 r (b_arg b).1 := traj_ball B0 S0 M0 M1 Theta Radius Ht.
  have Hd := Desc (b_s b) Hc Hball. rewrite E1 /= at_sub // in Hd.
  have Es : sqn d < dmin = false by apply/negP => Hs; apply: (traj_no_small Wb starts_sub L0 Scale Hball Hd Above Hs).
  rewrite Es E2 /=. set c' := (_, g _).
  have Hc' : on_graph g c' by [].
  have [T1 T2 T3] := traj_step Wb starts_sub B0 S0 M0 M1 Theta Radius Ht Hd A.
  have Pos : 0 < nresidual rs (b_arg b).1 by apply: le_lt_trans Above; rewrite mulr_ge0 // invr_ge0 ler0n.
  have Dec : E c' < b_sn b.
    rewrite Hsn !nbres_sub //. apply: le_lt_trans T2 _. rewrite -{2}(mul1r (nresidual _ _)) ltr_pmul2r ?(rho_lt1 M0 Theta) //.
  rewrite Dec; apply: IH; last by rewrite [b_iter _]/=; move/Z.leb_gt: Em => Em; lia.
  split=> //; do 5! split=> //. exists j.+1. split=> //. by rewrite [b_iter _]/= Hj Nat2Z.inj_succ; lia.
Qed.
End BySub.

Section Main.
Variables (F : realFieldType) (n p : nat) (St : Type) (ls : seq (nblevel F n p)) (g : 'cV[F]_n -> 'cV[F]_p) (G : 'cV[F]_n -> 'M[F]_(p, n)).
Variables (I : St -> Prop) (r B K L s0 m dmin thr thr' : F) (maxit rdim : Z).
Variables (descent : St -> conf F n p -> 'cV[F]_n * St) (lsearch : St -> conf F n p -> 'cV[F]_n -> option (conf F n p * 'cV[F]_n * St)).
Notation gain := (m * (1 - (K * B ^+ 2 * s0) ^+ 2)).
Lemma newton_by_substitution s c0 fuel : let c1 := (c0.1, g c0.1) in
  well_behaved [seq substituted g G l | l <- ls] c0.1 r B K L -> (exists l t, ls = l :: t /\ nb_rows l <> 0%N) ->
  (forall s c, on_graph g c -> ball c0.1 r c.1 -> descends thr' [seq at_nb G c l | l <- ls] (descent s c).1) ->
  nbmoves_by g I m descent lsearch -> I s -> 0 <= B -> 0 <= s0 -> 0 <= L -> 0 < m ->
  nbresidual ls c1 <= s0 ^+ 2 -> (K * B ^+ 2 * s0) ^+ 2 < 1 -> B * s0 * 2%:R <= r * gain ->
  L * dmin <= 4%:R^-1 * thr -> 0 <= thr -> (Z.to_nat maxit <= fuel)%N -> rdim <> Z0 ->
  (1 - gain) ^+ (Z.to_nat maxit) * nbresidual ls c1 <= 4%:R^-1 * thr ->
  exists c b, nbsolve ls g descent lsearch dmin thr maxit rdim fuel s c0 = Done SUCCESS c b /\
    on_graph g c /\ ball c0.1 r c.1 /\ nbresidual ls c <= thr /\ (thr <= nbresidual ls c1 -> nbresidual ls c <= 4%:R^-1 * thr) /\
    nbresidual ls c <= nbresidual ls c1.
Proof.
move=> c1 Wb Starts Desc Mv Is B0 S0 L0 M0 R0 Theta Radius Sc T0 /ssrnat.leP Hf Hr Hn.
have C1 : on_graph g c1 by [].
have M1 : m <= 1 by have [a [d [s1 [s2 [y [_ [_ [/andP[H1 H2] _]]]]]]]] := Mv s c1 Is erefl; apply: le_trans H1 H2.
pose rs := [seq substituted g G l | l <- ls].
have Es c : on_graph g c -> nbresidual ls c = nresidual rs c.1 by apply: nbres_sub.
have R1 : 0 <= nbresidual ls c1 by rewrite Es // nres_ge0.
have Ball0 : ball c0.1 r c1.1.
  have := traj_0 B K m (R0' G R0). exact: (traj_ball B0 S0 M0 M1 Theta Radius).
rewrite /nbsolve /bsolve /nesolve -/c1.
have -> : ((4%:R^-1 * thr < nbresidual ls c1) && Z.eqb rdim Z0) = false.
  by rewrite andbC; case: Z.eqb_spec.
set it0 : Z := (if (nbresidual ls c1 < thr) && negb false then Z.sub (Z.max maxit (Zpos 2)) (Zpos 2) else Z0).
have Hit0 : Z.le Z0 it0 by rewrite /it0; case: ifP => _; lia.
set b0 := binit _ _ _ _ _ _ _ _ _ _ _.
have Hb0 : nbinv ls g G I c0.1 B K s0 m thr it0 b0.
  split=> //; do 5! split=> //. exists 0%N. split; first by rewrite /= Z.add_0_r. exact: traj_0 (R0' G R0).
have Hfuel : (Z.to_nat (Z.sub maxit (b_iter b0)) <= fuel)%coq_nat by have : b_iter b0 = it0 by []; lia.
have [st [b [-> [[Hc [Hsn [_ [_ [Ha [_ [j [Hj Ht]]]]]]]] [Hs Hmax]]]]] :=
  nbloop_inv Wb Starts Desc Mv B0 S0 L0 M0 M1 Theta Radius Sc T0 Hb0 Hfuel.
have Hball : ball c0.1 r (b_arg b).1 := traj_ball B0 S0 M0 M1 Theta Radius Ht.
have Hpow : nbresidual ls (b_arg b) <= (1 - gain) ^+ j * nbresidual ls c1 by rewrite !Es //; have [_ [_ H]] := Ht.
have Hle : nbresidual ls (b_arg b) <= nbresidual ls c1.
  apply: le_trans Hpow _; rewrite -{2}(mul1r (nbresidual ls c1)); apply: ler_wpmul2r => //.
  by rewrite exprn_ile1 ?(rho_ge0 M0 M1 Theta) // ltW // (rho_lt1 M0 Theta).
case: ifP => /= Hbelow.
- case: ifP => Hlt.
  + exists c1, b; split=> //; split=> //; split=> //; split; first exact: ltW. split=> // H; move: Hbelow; by rewrite ltNge H.
  + exists (b_arg b), b; split=> //; split=> //; split=> //; split; first by apply: le_trans Hle (ltW Hbelow).
    by split=> // H; move: Hbelow; rewrite ltNge H.
- have I0 : it0 = Z0 by rewrite /it0 Hbelow.
  have Low : nbresidual ls (b_arg b) <= 4%:R^-1 * thr.
    rewrite leNgt; apply/negP => Hab. have Hab' : b_above b by rewrite Ha Hsn.
    have := Hmax Hab'; rewrite Hj I0 => Hm. move: Hab; apply/negP; rewrite -leNgt. apply: le_trans Hn.
    apply: le_trans Hpow _; apply: ler_wpmul2r => //. by apply: (rho_pow M0 M1 Theta); apply/ssrnat.leP; lia.
  have -> : st = SUCCESS by apply: Hs; rewrite Ha Hsn; apply/negP; apply/negP; rewrite -leNgt.
  exists (b_arg b), b; split=> //; split=> //; split=> //. split=> //.
  apply: le_trans Low _. by rewrite -{2}(mul1r thr); apply: ler_wpmul2r => //; rewrite invf_le1 ?ler1n ?ltr0n.
Qed.
End Main.
