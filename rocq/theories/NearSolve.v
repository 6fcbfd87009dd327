(** Resolution from configurations close to a solution. *)
From Coq Require Import Reals ZArith.
From mathcomp Require Import all_ssreflect all_algebra.
From Verif Require Import RField RReal SolveModel SolveSpec DescentSpec AffModel AffSpec NewtModel NewtSpec NewtProofs NewtBySub NearSpec NearMain.
Set Implicit Arguments. Unset Strict Implicit. Unset Printing Implicit Defensive.
Import Order.TTheory GRing.Theory Num.Theory.
Open Scope ring_scope.

Lemma near_solve n (ls : seq (nlevel FR n)) (qs : 'cV[FR]_n) (rho a m : FR) :
  smooth ls qs rho a -> 0 < rho -> covered ls -> independent ls qs -> root ls qs -> (exists l t, ls = l :: t /\ nl_rows l <> 0%N) -> 0 < m <= 1 ->
  exists delta D : FR, 0 < delta /\ 0 <= D /\ forall thr, 0 < thr -> exists dm (M : nat), 0 < dm /\
  forall St (I : St -> Prop) (descent : St -> 'cV[FR]_n -> 'cV[FR]_n * St) lsearch dmin thr' inf maxit rdim fuel s q0,
  (forall s q, ball qs rho q -> descends thr' [seq at_n q l | l <- ls] (descent s q).1) ->
  moves_by (@along FR n) (fun a d => a *: d) I m descent lsearch -> I s -> ball qs delta q0 -> dmin <= dm ->
  (M <= Z.to_nat maxit)%N -> (Z.to_nat maxit <= fuel)%N -> rdim <> Z0 ->
  exists q past k, nsolve ls descent lsearch dmin thr inf maxit rdim fuel s q0 = Some (Some SUCCESS, q, past, k) /\
    nresidual ls q <= thr /\ norm2 (q - q0) <= D * norm2 (q0 - qs).
Proof.
move=> S r0 C Ind Rt Starts m01. have [delta [D [d0 [D0 H]]]] := near_constants S r0 C Ind Rt m01.
exists delta, D; do 2! split=> //. move=> thr t0. have [dm [M [dm0 {}H]]] := H thr t0. exists dm, M; split=> //.
move=> St I descent lsearch dmin thr' inf maxit rdim fuel s q0 Desc Mv Is Hq Hd HM Hf Hr.
have [r [B [K [L [s0 [[Wb In R0] [[B0 S0 L0 Th] [Ra [Sc [Er Hn]]]]]]]]]] := H q0 Hq.
have m0 : 0 < m by case/andP: m01.
have Sc' : L * dmin <= thr by apply: le_trans Sc; apply: ler_wpmul2l.
have De : forall s q, ball q0 r q -> descends thr' [seq at_n q l | l <- ls] (descent s q).1 by move=> s' q /In /Desc.
have [k [E [_ [Hk [_ Hb]]]]] := @newton_success FR n St ls I r B K L s0 m dmin thr thr' inf maxit rdim descent lsearch (s, q0) fuel Wb Starts De Mv Is B0 S0 L0 m0 R0 Th Ra Sc' Hf Hr (Hn _ HM).
do 3 eexists; split; first exact: E. split=> //. have [Hc _] := Hb k. by rewrite -Er.
Qed.

Lemma near_by_substitution n p (ls : seq (nblevel FR n p)) (g : 'cV[FR]_n -> 'cV[FR]_p) (G : 'cV[FR]_n -> 'M[FR]_(p, n)) (xs : 'cV[FR]_n) (rho a m : FR) :
  let rs := [seq substituted g G l | l <- ls] in
  smooth rs xs rho a -> 0 < rho -> covered rs -> independent rs xs -> root rs xs -> (exists l t, ls = l :: t /\ nb_rows l <> 0%N) -> 0 < m <= 1 ->
  exists delta D : FR, 0 < delta /\ 0 <= D /\ forall thr, 0 < thr -> exists dm (M : nat), 0 < dm /\
  forall St (I : St -> Prop) (descent : St -> conf FR n p -> 'cV[FR]_n * St) lsearch dmin thr' maxit rdim fuel s c0,
  (forall s c, on_graph g c -> ball xs rho c.1 -> descends thr' [seq at_nb G c l | l <- ls] (descent s c).1) ->
  nbmoves_by g I m descent lsearch -> I s -> ball xs delta c0.1 -> dmin <= dm ->
  (M <= Z.to_nat maxit)%N -> (Z.to_nat maxit <= fuel)%N -> rdim <> Z0 ->
  exists c b, nbsolve ls g descent lsearch dmin thr maxit rdim fuel s c0 = Done SUCCESS c b /\
    on_graph g c /\ nbresidual ls c <= thr /\ norm2 (c.1 - c0.1) <= D * norm2 (c0.1 - xs).
Proof.
move=> rs S r0 C Ind Rt Starts m01. have [delta [D [d0 [D0 H]]]] := near_constants S r0 C Ind Rt m01.
exists delta, D; do 2! split=> //. move=> thr t0. have q0' : 0 < 4%:R^-1 * thr by rewrite mulr_gt0 // invr_gt0 ltr0n.
have [dm [M [dm0 {}H]]] := H _ q0'. exists dm, M; split=> //.
move=> St I descent lsearch dmin thr' maxit rdim fuel s c0 Desc Mv Is Hq Hd HM Hf Hr.
have [r [B [K [L [s0 [[Wb In R0] [[B0 S0 L0 Th] [Ra [Sc [Er Hn]]]]]]]]]] := H c0.1 Hq.
have m0 : 0 < m by case/andP: m01.
have Sc' : L * dmin <= 4%:R^-1 * thr by apply: le_trans Sc; apply: ler_wpmul2l.
have De : forall s c, on_graph g c -> ball c0.1 r c.1 -> descends thr' [seq at_nb G c l | l <- ls] (descent s c).1 by move=> s' c Hg /In; apply: Desc.
have Es : nbresidual ls (c0.1, g c0.1) = nresidual rs c0.1 by apply: nbres_sub.
have R1 : nbresidual ls (c0.1, g c0.1) <= s0 ^+ 2 by rewrite Es.
have Hn' := Hn _ HM. rewrite -Es in Hn'.
have [c [b [E [Hg [Hb [Ht _]]]]]] := @newton_by_substitution FR n p St ls g G I r B K L s0 m dmin thr thr' maxit rdim descent lsearch s c0 fuel Wb Starts De Mv Is B0 S0 L0 m0 R1 Th Ra Sc' (ltW t0) Hf Hr Hn'.
exists c, b; split=> //; split=> //; split=> //. by rewrite -Er.
Qed.
