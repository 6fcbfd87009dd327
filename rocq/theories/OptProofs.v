From Coq Require Import ZArith Lia.
From mathcomp Require Import all_ssreflect all_algebra.
From Verif Require Import SolveModel DescentModel DescentSpec DescentProofs DescentMain AffModel NewtModel OptModel OptSpec.
Set Implicit Arguments. Unset Strict Implicit. Unset Printing Implicit Defensive.
Import Order.TTheory GRing.Theory Num.Theory.
Open Scope ring_scope.

Section Line.
Variables (F : realFieldType) (n p : nat) (St : Type) (E C : conf F n p -> F) (g : 'cV[F]_n -> 'cV[F]_p).
Variables (descent : St -> conf F n p -> 'cV[F]_n * St) (lsearch : St -> conf F n p -> 'cV[F]_n -> option (conf F n p * 'cV[F]_n * St)).
Variables (dmin thr : F) (maxit rdim : Z) (s0 : St) (x : 'cV[F]_n).
Notation q1 := (x, g x).
Let d := (descent s0 q1).1.
Let s1 := (descent s0 q1).2.
Notation pt := (on_line g x d).
(** steps done, position, scaling, factor left in the direction, state of the line search *)
Variable J : nat -> F -> F -> F -> St -> Prop.
Hypothesis J0 : exists a s' y, lsearch s1 q1 d = Some ((x + a *: d, y), a *: d, s') /\ J 1 a 2%:R^-1 a s'.
Hypothesis JS : forall k t c r s, J k t c r s -> exists a s' y,
  lsearch s (pt t) ((c * r) *: d) = Some (((pt t).1 + a *: ((c * r) *: d), y), a *: ((c * r) *: d), s') /\ J k.+1 (t + c * (a * r)) (c / 2%:R) (a * r) s'.
Hypothesis Jc : forall k t c r s, J k t c r s -> 0 < c.
Hypothesis Above : forall k t c r s, J k t c r s -> 4%:R^-1 * thr < E (pt t).
Hypothesis Above0 : 4%:R^-1 * thr < E q1.
Notation bstate := (@bst (conf F n p) 'cV[F]_n St F).
Notation Bl := (bloop (fun a b : F => a < b) E descent (@sqn F n) dmin thr maxit C lsearch (nesolve g)
    (fun x => 4%:R^-1 * x) (fun x => x / 2%:R) (fun x => x * 2%:R) (fun x => x < 2%:R^-1) (fun d x => x *: d) (fun d x => x^-1 *: d) true).
Definition lend (k : nat) (t : F) (st : status) (b : bstate) : Prop :=
  b_arg b = pt t /\ b_qopt b = None /\ b_iter b = Z.of_nat k /\ Z.le (b_nd b) (Zpos 1) /\
  (k = 0%N /\ t = 0 /\ (st = MAX_ITERATION_REACHED /\ Z.le maxit Z0 \/ st = INFEASIBLE /\ Z.lt Z0 maxit /\ norm2 d < dmin) \/
   exists c r s, J k t c r s /\ (st = MAX_ITERATION_REACHED /\ Z.le maxit (Z.of_nat k) \/ st = INFEASIBLE /\ Z.lt (Z.of_nat k) maxit /\ norm2 ((c * r) *: d) < dmin)).
Lemma line_loop : forall fuel st (b : bstate) k t c r s pv, J k t c r s ->
  b_s b = s -> b_arg b = pt t -> b_prev b = Some pv -> b_dq b = Some (r *: d) -> b_iter b = Z.of_nat k -> b_scal b = c -> b_only b = true -> b_qopt b = None -> Z.le (b_nd b) (Zpos 1) ->
  (Z.to_nat (Z.sub maxit (b_iter b)) <= fuel)%coq_nat ->
  exists st' b' k' t', Bl fuel st b = Bend st' b' /\ lend k' t' st' b'.
Proof.
elim=> [|fuel IH] st b k t c r s pv HJ Hs Ha Hp Hd Hi Hc Ho Hq Hn Hf.
- rewrite /=. have -> : Z.leb maxit (b_iter b) by apply/Z.leb_le; lia.
  do 2 eexists; exists k, t; split; first reflexivity. do 4! split=> //. right; exists c, r, s; split=> //. by left; split=> //; lia.
- rewrite /=. case Em : (Z.leb maxit (b_iter b)).
    do 2 eexists; exists k, t; split; first reflexivity. do 4! split=> //. right; exists c, r, s; split=> //. by left; split=> //; move/Z.leb_le: Em; lia.
  have Hlt : Z.lt (Z.of_nat k) maxit by rewrite -Hi; apply/Z.leb_gt.
  rewrite Ho Hp Hd Hc scalerA. case Es : (sqn _ < dmin).
    do 2 eexists; exists k, t; split; first reflexivity. do 4! split=> //. right; exists c, r, s; split=> //. by right; split=> //; split=> //; rewrite -sqn_norm2 Es.
  have [a [s' [y [El HJ']]]] := JS HJ. rewrite Hs Ha El.
  have Ept : (pt t).1 + a *: ((c * r) *: d) = (pt (t + c * (a * r))).1.
    by rewrite /= -addrA scalerA -scalerDl [a * _]mulrCA.
  rewrite Ept [fst (_, y)]/= -/(pt (t + c * (a * r))) (Above HJ') Hq.
  have C0 : c != 0 by rewrite gt_eqF // (Jc HJ).
  apply: (IH _ _ _ _ _ _ _ pv HJ') => //=; try lia.
  by congr (Some _); rewrite !scalerA [a * (c * r)]mulrCA mulKf.
Qed.
Lemma line_solve fuel y0 : (Z.to_nat maxit <= fuel)%N -> rdim <> Z0 ->
  exists st b k t, osolve E C g descent lsearch dmin thr maxit rdim fuel s0 (x, y0) = Done st (pt t) b /\ lend k t st b.
Proof.
move=> /ssrnat.leP Hf Hr. rewrite /osolve /bsolve /=.
have -> : (4%:R^-1 * thr < E q1) && Z.eqb rdim Z0 = false by rewrite andbC; case: Z.eqb_spec.
suff [st [b [k [t [-> H]]]]] : exists st b k t, Bl fuel SUCCESS (binit (fun a b : F => a < b) E thr maxit C (fun x => 4%:R^-1 * x) 1 0 s0 true q1) = Bend st b /\ lend k t st b.
  exists st, b, k, t; split=> //. by have [-> [-> _]] := H.
rewrite /binit /= Above0 andbF /=. have P0 : q1 = pt 0 by rewrite /on_line scale0r addr0.
case: fuel Hf => [|fuel] Hf /=.
- have -> : Z.leb maxit Z0 by apply/Z.leb_le; lia.
  do 2 eexists; exists 0%N, 0; split; first reflexivity. do 3! split=> //. split; first by []. left; do 2! split=> //; left; split=> //; lia.
- case Em : (Z.leb maxit Z0).
    do 2 eexists; exists 0%N, 0; split; first reflexivity. do 3! split=> //. split; first by []. left; do 2! split=> //; left; split=> //. exact/Z.leb_le.
  have Hlt : Z.lt Z0 maxit by apply/Z.leb_gt.
  have Ed : descent s0 q1 = (d, s1) by rewrite /d /s1; case: (descent s0 q1).
  rewrite Ed scale1r. case Es : (sqn d < dmin).
    do 2 eexists; exists 0%N, 0; split; first reflexivity. do 3! split=> //. split; first by []. left; do 2! split=> //; right; do 2! split=> //. by rewrite -sqn_norm2 Es.
  have [a [s' [y [El HJ]]]] := J0. rewrite El /= -/(pt a) (Above HJ) /=.
  apply: (@line_loop _ _ _ 1 a 2%:R^-1 a s' (E q1) HJ) => //=; try lia.
  + by rewrite invr1 scale1r.
  + by rewrite div1r.
Qed.
End Line.

Section Cases.
Variables (F : realFieldType) (n p : nat) (St : Type) (E C : conf F n p -> F) (g : 'cV[F]_n -> 'cV[F]_p).
Variables (descent : St -> conf F n p -> 'cV[F]_n * St) (lsearch : St -> conf F n p -> 'cV[F]_n -> option (conf F n p * 'cV[F]_n * St)).
Variables (dmin thr : F) (maxit rdim : Z).
(** factors at most M at the first step, 1 afterwards *)
Lemma line_within (I : St -> Prop) (M : F) s0 x y0 fuel : let q1 := (x, g x) in let d := (descent s0 q1).1 in
  0 < M -> bsteps I M lsearch (descent s0 q1).2 q1 d -> (forall s c d, I s -> bsteps I 1 lsearch s c d) ->
  (forall t, 0 <= t < 2%:R * M -> 4%:R^-1 * thr < E (on_line g x d t)) -> (Z.to_nat maxit <= fuel)%N -> rdim <> Z0 ->
  exists st b t, osolve E C g descent lsearch dmin thr maxit rdim fuel s0 (x, y0) = Done st (on_line g x d t) b /\
    0 <= t < 2%:R * M /\ (st = MAX_ITERATION_REACHED /\ Z.le maxit (b_iter b) \/ st = INFEASIBLE) /\ Z.le (b_nd b) (Zpos 1).
Proof.
move=> q1 d M0 B0 BS Ab Hf Hr.
pose J (k : nat) t c r s := [/\ 0 <= t, t <= 2%:R * M * (1 - c), 0 <= r <= M, 0 < c & I s].
have two0 : 0 < 2%:R :> F by rewrite ltr0n.
have MM : 0 < 2%:R * M by rewrite mulr_gt0.
have half (c : F) : c / 2%:R + c / 2%:R = c by rewrite -splitr.
have Jt k t c r s : J k t c r s -> 0 <= t < 2%:R * M.
  move=> [t0 t1 _ c0 _]. rewrite t0 /=; apply: le_lt_trans t1 _. by rewrite -[X in _ < X]mulr1 ltr_pmul2l // gtr_addl oppr_lt0.
have Z0' : 4%:R^-1 * thr < E (x, g x) by have := Ab 0; rewrite /on_line scale0r addr0 lexx MM; apply.
have [||||st [b [k [t [Es [_ [_ [Hi [Hn H]]]]]]]]] := @line_solve F n p St E C g descent lsearch dmin thr maxit rdim s0 x J _ _ _ _ Z0' fuel y0 Hf Hr => //.
- have [a [s' [y [El [/andP[a0 a1] Is]]]]] := B0. exists a, s', y; split; first exact: El. split=> //; [|by rewrite a0 a1|by rewrite invr_gt0].
  have -> : 1 - 2%:R^-1 = 2%:R^-1 :> F by rewrite -{1}(half 1) !div1r addrK.
  by rewrite mulrAC divff ?mul1r // gt_eqF.
- move=> k t c r s [t0 t1 /andP[r0 r1] c0 Is]. have [a [s' [y [El [/andP[a0 a1] Is']]]]] := BS s (on_line g x d t) ((c * r) *: d) Is.
  exists a, s', y; split; first exact: El. have ar : 0 <= a * r <= M.
    rewrite mulr_ge0 //=. rewrite -[M]mul1r. by apply: ler_pmul.
  have /andP[ar0 ar1] := ar. split=> //; [by rewrite addr_ge0 // mulr_ge0 // ltW| |by rewrite divr_gt0].
  have -> : 2%:R * M * (1 - c / 2%:R) = 2%:R * M * (1 - c) + c * M.
    have -> : c * M = 2%:R * M * (c / 2%:R) by rewrite [RHS]mulrC mulrA divfK // gt_eqF.
    by rewrite -mulrDr -{2}(half c) opprD addrA subrK.
  apply: ler_add => //. by apply: ler_wpmul2l => //; apply: ltW.
- by move=> k t c r s [].
- move=> k t c r s HJ. exact: Ab (Jt _ _ _ _ _ HJ).
exists st, b, t; split=> //. split.
  case: H => [[_ [-> _]]|[c [r [s [HJ _]]]]]; [by rewrite lexx MM|exact: Jt HJ].
split=> //. case: H => [[K [_ [[-> H]|[-> _]]]]|[c [r [s [HJ [[-> H]|[-> _]]]]]]]; try (by right); left; rewrite Hi ?K //.
Qed.
(** full steps *)
Lemma line_full s0 x y0 fuel : let q1 := (x, g x) in let d := (descent s0 q1).1 in let at_ k := on_line g x d (2%:R - 2%:R * 2%:R ^- k) in
  bfull lsearch -> (forall k, 4%:R^-1 * thr < E (at_ k)) -> (Z.to_nat maxit <= fuel)%N -> rdim <> Z0 ->
  exists st b k, osolve E C g descent lsearch dmin thr maxit rdim fuel s0 (x, y0) = Done st (at_ k) b /\ b_iter b = Z.of_nat k /\ Z.le (b_nd b) (Zpos 1) /\
    (st = MAX_ITERATION_REACHED /\ Z.le maxit (Z.of_nat k) \/ st = INFEASIBLE /\ Z.lt (Z.of_nat k) maxit /\ norm2 (2%:R ^- k *: d) < dmin).
Proof.
move=> q1 d at_ Fu Ab Hf Hr.
pose J (k : nat) t (c r : F) (s : St) := [/\ t = 2%:R - 2%:R * c, r = 1 & c = 2%:R ^- k].
have two0 : 2%:R != 0 :> F by rewrite pnatr_eq0.
have half (c : F) : c / 2%:R + c / 2%:R = c by rewrite -splitr.
have P0 : at_ 0%N = (x, g x) by rewrite /at_ /on_line expr0 invr1 mulr1 subrr scale0r addr0.
have Z0' : 4%:R^-1 * thr < E (x, g x) by rewrite -P0.
have [||||st [b [k [t [Es [_ [_ [Hi [Hn H]]]]]]]]] := @line_solve F n p St E C g descent lsearch dmin thr maxit rdim s0 x J _ _ _ _ Z0' fuel y0 Hf Hr => //.
- have [s' [y El]] := Fu (descent s0 q1).2 q1 d. exists 1, s', y. rewrite !scale1r; split; first exact: El. split=> //.
  by rewrite divff // -(natrB F (isT : (1 <= 2)%N)).
- move=> k t c r s [-> -> ->]. have [s' [y El]] := Fu s (on_line g x d (2%:R - 2%:R * 2%:R ^- k)) ((2%:R ^- k * 1) *: d).
  exists 1, s', y. rewrite !scale1r. split; first exact: El. split; rewrite ?mulr1 //; last by rewrite exprSr invfM mulrC.
  rewrite -addrA; congr (_ + _). rewrite mulrCA divff // mulr1. rewrite mulr_natl mulr2n opprD subrK //.
- move=> k t c r s [_ _ ->]. by rewrite invr_gt0 exprn_gt0 // ltr0n.
- by move=> k t c r s [-> _ ->]; apply: Ab.
exists st, b, k. have Et : t = 2%:R - 2%:R * 2%:R ^- k.
  case: H => [[-> [-> _]]|[c [r [s [[-> _ ->] _]]]]] //. by rewrite expr0 invr1 mulr1 subrr.
rewrite /at_ -Et; split=> //. split=> //. split=> //.
case: H => [[-> [_ H]]|[c [r [s [[_ -> ->] H]]]]].
- by case: H => [[-> H]|[-> [H1 H2]]]; [left|right]; rewrite ?expr0 ?invr1 ?scale1r.
- by move: H; rewrite mulr1.
Qed.
End Cases.
