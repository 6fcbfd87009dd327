(** Proofs about the loop of the solver by substitution. *)
From Coq Require Import ZArith List Bool Lia.
From Verif Require Import SolveModel SolveSpec.
Import ListNotations.
Open Scope Z_scope.

Section BySubLoop.
Context {Q D St V : Type}.
Variables (ltb : V -> V -> bool) (E : Q -> V).
Variables (descent : St -> Q -> D * St) (dnorm : D -> V) (dmin : V).
Variables (thr : V) (maxit : Z) (rdim : Z).
Variables (C : Q -> V) (lsearch : St -> Q -> D -> option (Q * D * St)) (esolve : Q -> option Q).
Variables (quarter half dbl : V -> V) (below_half : V -> bool) (one zero : V).
Variables (dmul ddiv : D -> V -> D).
Local Notation BL := (bloop ltb E descent dnorm dmin thr maxit C lsearch esolve quarter half dbl below_half dmul ddiv).
Local Notation BS := (bsolve ltb E descent dnorm dmin thr maxit rdim C lsearch esolve quarter half dbl below_half one zero dmul ddiv).
Local Notation bst := (@bst Q D St V).
Definition solved (a : Q) : Prop := exists a0, esolve a0 = Some a.
Local Notation up a := (ltb (quarter thr) (E a)).

(** ** without optimisation *)
Section Plain.
Hypothesis cot : forall q a c, ltb a c = true -> ltb a (E q) = true \/ ltb (E q) c = true.

Record inv (i0 : Z) (st : status) (b : bst) : Prop := {
  i_sn : b_sn b = E (b_arg b);
  i_above : b_above b = up (b_arg b);
  i_sol : solved (b_arg b);
  i_only : b_only b = false;
  i_ed : 0 <= b_ed b <= 3;
  i_worse : no_decrease ltb (Z.to_nat (3 - b_ed b)) (map E (b_arg b :: b_past b));
  i_ed0 : b_ed b = 0 -> st = ERROR_INCREASED;
  i_st : st = SUCCESS \/ st = ERROR_INCREASED /\ b_above b = true;
  i_iter : b_iter b = i0 + Z.of_nat (length (b_past b)) }.

Lemma plain_loop i0 fuel : forall st b, inv i0 st b -> (Z.to_nat (maxit - b_iter b) <= fuel)%nat ->
  BL false fuel st b = Bexc \/
  exists st' b', BL false fuel st b = Bend st' b' /\ b_sn b' = E (b_arg b') /\ solved (b_arg b') /\
    (st' = SUCCESS <-> up (b_arg b') = false) /\
    (st' = MAX_ITERATION_REACHED -> maxit <= b_iter b') /\
    (st' = INFEASIBLE -> exists s, ltb (dnorm (fst (descent s (b_arg b')))) dmin = true) /\
    (st' = ERROR_INCREASED -> no_decrease ltb 3 (map E (b_arg b' :: b_past b'))) /\
    b_iter b' = i0 + Z.of_nat (length (b_past b')) /\ b_iter b <= b_iter b' <= Z.max (b_iter b) maxit.
Proof.
  induction fuel as [|f IH]; intros st b I Hf; cbn [bloop orb].
  - destruct (b_above b && negb (b_ed b =? 0)) eqn:Eg.
    + destruct (Z.leb_spec maxit (b_iter b)) as [Hm|Hm]; [|lia].
      right. exists MAX_ITERATION_REACHED, b. apply andb_true_iff in Eg. destruct Eg as [Ea _].
      rewrite (i_above _ _ _ I) in Ea. destruct I.
      repeat split; try assumption; try discriminate; try congruence; lia.
    + right. exists st, b. destruct I as [I1 I2 I3 I4 I5 I6 I7 I8 I9].
      apply andb_false_iff in Eg.
      split; [reflexivity|]. split; [exact I1|]. split; [exact I3|].
      assert (Hst : st = SUCCESS \/ st = ERROR_INCREASED) by (destruct I8 as [->|[-> _]]; auto).
      split.
      { split.
        - intros ->. destruct Eg as [Eg|Eg]; [congruence|].
          apply negb_false_iff, Z.eqb_eq in Eg. apply I7 in Eg. discriminate.
        - intros Hu. destruct I8 as [->|[-> H]]; [reflexivity|congruence]. }
      split; [destruct Hst as [->| ->]; discriminate|]. split; [destruct Hst as [->| ->]; discriminate|].
      split; [|split; [exact I9|lia]].
      intros ->. destruct I8 as [|[_ Hb]]; [discriminate|]. destruct Eg as [Eg|Eg]; [congruence|].
      apply negb_false_iff, Z.eqb_eq in Eg. rewrite Eg in I6. exact I6.
  - destruct (b_above b && negb (b_ed b =? 0)) eqn:Eg.
    + destruct (Z.leb_spec maxit (b_iter b)) as [Hm|Hm].
      * right. exists MAX_ITERATION_REACHED, b. apply andb_true_iff in Eg. destruct Eg as [Ea _].
        rewrite (i_above _ _ _ I) in Ea. destruct I.
        repeat split; try assumption; try discriminate; try congruence; lia.
      * apply andb_true_iff in Eg. destruct Eg as [Ea Ee]. apply negb_true_iff, Z.eqb_neq in Ee.
        destruct I as [I1 I2 I3 I4 I5 I6 I7 I8 I9]. rewrite I4.
        destruct (descent (b_s b) (b_arg b)) as [dq s1] eqn:Ed.
        destruct (ltb (dnorm dq) dmin) eqn:Esm.
        { right. exists INFEASIBLE. eexists. split; [reflexivity|]. cbn [b_sn b_arg b_iter b_past].
          split; [exact I1|]. split; [exact I3|]. rewrite I2 in Ea.
          repeat split; try discriminate; try congruence; try lia.
          intros _. exists (b_s b). rewrite Ed. exact Esm. }
        destruct (lsearch s1 (b_arg b) dq) as [[[a1 dq1] s2]|]; [|left; reflexivity].
        destruct (esolve a1) as [a2|] eqn:Es; [|left; reflexivity].
        assert (Ia : up (b_arg b) = true) by congruence.
        match goal with |- context [BL false f ?s ?x] => set (st1 := s); set (b1 := x) end.
        assert (I' : inv i0 st1 b1).
        { subst st1 b1. split; cbn [b_sn b_arg b_above b_only b_ed b_past b_iter]; try reflexivity.
          - exists a1; exact Es.
          - destruct (ltb (E a2) (b_sn b)); lia.
          - destruct (ltb (E a2) (b_sn b)) eqn:El.
            + replace (Z.to_nat (3 - 3)) with 0%nat by reflexivity. exact I.
            + replace (Z.to_nat (3 - (b_ed b - 1))) with (S (Z.to_nat (3 - b_ed b))) by lia.
              cbn [map no_decrease]. split; [rewrite <- I1; exact El|exact I6].
          - intros Hz. destruct (ltb (E a2) (b_sn b)); [lia|reflexivity].
          - destruct (ltb (E a2) (b_sn b)) eqn:El; [left; reflexivity|right; split; [reflexivity|]].
            destruct (cot a2 (quarter thr) (E (b_arg b)) Ia) as [H|H]; [exact H|]. rewrite I1 in El. congruence.
          - rewrite I9. cbn [length]. lia. }
        assert (Hit : b_iter b1 = b_iter b + 1) by reflexivity.
        destruct (IH st1 b1 I' ltac:(lia)) as [R|[st' [b' [R [H1 [H2 [H3 [H4 [H5 [H6 [H7 H8]]]]]]]]]]]; [left; exact R|].
        right. exists st', b'. split; [exact R|]. repeat (split; [assumption|]). lia.
    + right. exists st, b. destruct I as [I1 I2 I3 I4 I5 I6 I7 I8 I9].
      apply andb_false_iff in Eg.
      split; [reflexivity|]. split; [exact I1|]. split; [exact I3|].
      assert (Hst : st = SUCCESS \/ st = ERROR_INCREASED) by (destruct I8 as [->|[-> _]]; auto).
      split.
      { split.
        - intros ->. destruct Eg as [Eg|Eg]; [congruence|].
          apply negb_false_iff, Z.eqb_eq in Eg. apply I7 in Eg. discriminate.
        - intros Hu. destruct I8 as [->|[-> H]]; [reflexivity|congruence]. }
      split; [destruct Hst as [->| ->]; discriminate|]. split; [destruct Hst as [->| ->]; discriminate|].
      split; [|split; [exact I9|lia]].
      intros ->. destruct I8 as [|[_ Hb]]; [discriminate|]. destruct Eg as [Eg|Eg]; [congruence|].
      apply negb_false_iff, Z.eqb_eq in Eg. rewrite Eg in I6. exact I6.
Qed.

Lemma plain_solve fuel s arg : (Z.to_nat maxit <= fuel)%nat ->
  match esolve arg with
  | None => BS fuel s false arg = Thrown
  | Some q1 =>
      if up q1 && (rdim =? 0) then BS fuel s false arg = Early q1
      else BS fuel s false arg = Thrown \/
        exists st a b, BS fuel s false arg = Done st a b /\ solved a /\
          (if ltb (E q1) thr
           then st = SUCCESS /\ (a = q1 \/ ltb (E q1) (E a) = false) /\ (length (b_past b) <= 2)%nat
           else (st = SUCCESS <-> up a = false) /\
                (st = MAX_ITERATION_REACHED -> maxit <= Z.of_nat (length (b_past b))) /\
                (st = INFEASIBLE -> exists s', ltb (dnorm (fst (descent s' a))) dmin = true) /\
                (st = ERROR_INCREASED -> no_decrease ltb 3 (map E (a :: b_past b))) /\
                Z.of_nat (length (b_past b)) <= Z.max 0 maxit)
  end.
Proof.
  intros Hf. unfold bsolve. destruct (esolve arg) as [q1|] eqn:Eq; [|reflexivity].
  destruct (up q1 && (rdim =? 0)) eqn:Er; [reflexivity|].
  set (i0 := if ltb (E q1) thr && negb false then Z.max maxit 2 - 2 else 0).
  set (b0 := binit ltb E thr maxit C quarter one zero s false q1).
  assert (I : inv i0 SUCCESS b0).
  { subst b0. unfold binit. split; cbn [b_sn b_arg b_above b_only b_ed b_past b_iter]; try reflexivity; try lia.
    - exists arg; exact Eq.
    - left; reflexivity.
    - cbn [length]. unfold i0. lia. }
  assert (Hi : b_iter b0 = i0) by reflexivity.
  assert (Hi0 : 0 <= i0) by (unfold i0; destruct (ltb (E q1) thr && negb false); lia).
  destruct (plain_loop i0 fuel SUCCESS b0 I ltac:(lia)) as [R|[st' [b' [R [H1 [H2 [H3 [H4 [H5 [H6 [H7 H8]]]]]]]]]]]; rewrite R.
  { left; reflexivity. }
  right. cbn [negb andb].
  destruct (ltb (E q1) thr) eqn:Eb; cbn [andb negb] in i0.
  - destruct (ltb (E q1) (b_sn b')) eqn:Ei.
    + exists SUCCESS, q1, b'. split; [reflexivity|]. split; [exists arg; exact Eq|].
      split; [reflexivity|]. split; [left; reflexivity|]. unfold i0 in *. lia.
    + exists SUCCESS, (b_arg b'), b'. split; [reflexivity|]. split; [exact H2|].
      split; [reflexivity|]. split; [right; rewrite <- H1; exact Ei|]. unfold i0 in *. lia.
  - exists st', (b_arg b'), b'. split; [reflexivity|]. split; [exact H2|].
    split; [exact H3|]. split; [intros H; specialize (H4 H); unfold i0 in *; lia|]. split; [exact H5|]. split; [exact H6|].
    unfold i0 in *. lia.
Qed.
End Plain.

(** ** with optimisation *)
Section Optim.
(** laws of < on the costs of the visited configurations *)
Hypothesis irr : forall a, ltb a a = false.
Hypothesis tr : forall a b c, ltb a b = true -> ltb b c = true -> ltb a c = true.

(** q1: projected start *)
Record oinv (q1 : Q) (b : bst) : Prop := {
  o_init : b_only b = true -> (exists v, b_prev b = Some v) /\ exists d, b_dq b = Some d;
  o_sol : solved (b_arg b);
  o_cost : exists x, b_cost b = C x /\ ltb (C q1) (C x) = false /\ (forall y, b_qopt b = Some y -> x = y);
  o_opt : forall y, b_qopt b = Some y -> solved y /\ up y = false /\ In y (b_arg b :: b_past b);
  o_min : forall v, In v (b_arg b :: b_past b) -> up v = false -> ltb (C v) (b_cost b) = false;
  o_none : b_qopt b = None -> b_cost b = C q1 /\ up q1 = true;
  o_q1 : In q1 (b_arg b :: b_past b);
  o_len : (length (b_past b) <= 2 * Z.to_nat (b_iter b))%nat;
  o_iter : 0 <= b_iter b }.
Definition nd_inv (b : bst) : Prop := 0 <= b_nd b /\
  ((forall v, In v (b_arg b :: b_past b) -> up v = true) -> b_nd b <= 1 /\ (b_only b = false -> b_nd b = 0)).

Lemma le_trans_false x y z : ltb x (C y) = false -> ltb (C z) (C y) = true -> ltb x (C z) = false.
Proof.
  intros H1 H2. destruct (ltb x (C z)) eqn:H; [|reflexivity].
  rewrite (tr _ _ _ H H2) in H1. discriminate.
Qed.

Lemma opt_loop q1 fuel : forall st b, oinv q1 b -> nd_inv b -> (Z.to_nat (maxit - b_iter b) <= fuel)%nat ->
  BL true fuel st b = Bexc \/
  exists st' b', BL true fuel st b = Bend st' b' /\ oinv q1 b' /\
    ((forall v, In v (b_arg b' :: b_past b') -> up v = true) -> b_nd b' <= 1) /\
    b_iter b <= b_iter b' <= Z.max (b_iter b) maxit /\
    (st' = MAX_ITERATION_REACHED /\ maxit <= b_iter b' \/
     st' = INFEASIBLE /\ exists d, b_dq b' = Some d /\ ltb (dnorm d) dmin = true).
Proof.
  induction fuel as [|f IH]; intros st b I N Hf; cbn [bloop orb].
  - destruct (Z.leb_spec maxit (b_iter b)) as [Hm|Hm]; [|lia].
    right. exists MAX_ITERATION_REACHED, b. split; [reflexivity|]. split; [exact I|].
    split; [intros H; apply N; exact H|]. split; [lia|]. left; auto.
  - destruct (Z.leb_spec maxit (b_iter b)) as [Hm|Hm].
    { right. exists MAX_ITERATION_REACHED, b. split; [reflexivity|]. split; [exact I|].
      split; [intros H; apply N; exact H|]. split; [lia|]. left; auto. }
    destruct I as [I1 I2 [x [I3 [I4 I5]]] I6 I7 I8 I9 I10 I11]. destruct N as [N0 N1].
    assert (Hstep : exists pv dq0 s1 nd,
      (if b_only b then (b_prev b, b_dq b, b_s b, b_nd b)
       else let '(dq, s) := descent (b_s b) (b_arg b) in (Some (b_sn b), Some dq, s, b_nd b + 1)) = (Some pv, Some dq0, s1, nd) /\
      0 <= nd /\ ((forall v, In v (b_arg b :: b_past b) -> up v = true) -> nd <= 1)).
    { destruct (b_only b) eqn:Eo.
      - destruct (I1 eq_refl) as [[v Hv] [d Hd]]. exists v, d, (b_s b), (b_nd b). rewrite Hv, Hd.
        split; [reflexivity|]. split; [lia|]. intros H. apply N1, H.
      - destruct (descent (b_s b) (b_arg b)) as [dq s]. exists (b_sn b), dq, s, (b_nd b + 1).
        split; [reflexivity|]. split; [lia|]. intros H. destruct (N1 H) as [_ H0]. rewrite H0 by reflexivity. lia. }
    destruct Hstep as [pv [dq0 [s1 [nd [-> [Hnd0 Hnd1]]]]]].
    destruct (ltb (dnorm (dmul dq0 (b_scal b))) dmin) eqn:Esm.
    { right. exists INFEASIBLE. eexists. split; [reflexivity|].
      split; [|split; [exact Hnd1|cbn [b_iter b_dq]; split; [lia|right; split; [reflexivity|eexists; split; [reflexivity|exact Esm]]]]].
      split; cbn [b_only b_prev b_dq b_arg b_past b_cost b_qopt b_nd b_iter]; try assumption.
      - intros _. eauto.
      - exists x. auto. }
    destruct (lsearch s1 (b_arg b) (dmul dq0 (b_scal b))) as [[[a1 dq1] s2]|]; [|left; reflexivity].
    destruct (esolve a1) as [a2|] eqn:Es; [|left; reflexivity].
    assert (Hs2 : solved a2) by (exists a1; exact Es).
    match goal with |- context [Bend] => idtac end.
    assert (Hgen : forall st1 b1, oinv q1 b1 -> nd_inv b1 -> b_iter b1 = b_iter b + 1 ->
      BL true f st1 b1 = Bexc \/ exists st' b', BL true f st1 b1 = Bend st' b' /\ oinv q1 b' /\
        ((forall v, In v (b_arg b' :: b_past b') -> up v = true) -> b_nd b' <= 1) /\
        b_iter b <= b_iter b' <= Z.max (b_iter b) maxit /\
        (st' = MAX_ITERATION_REACHED /\ maxit <= b_iter b' \/
         st' = INFEASIBLE /\ exists d, b_dq b' = Some d /\ ltb (dnorm d) dmin = true)).
    { intros st1 b1 Ib Nb Hi. destruct (IH st1 b1 Ib Nb ltac:(lia)) as [R|[st' [b' [R [H1 [H2 [H3 H4]]]]]]]; [left; exact R|].
      right. exists st', b'. split; [exact R|]. split; [exact H1|]. split; [exact H2|]. split; [lia|exact H4]. }
    destruct (up a2) eqn:Eu; cbn [negb].
    + apply Hgen; [| |reflexivity].
      * split; cbn [b_only b_prev b_dq b_arg b_past b_cost b_qopt b_nd b_iter].
        -- intros _; split; eexists; reflexivity.
        -- destruct (b_qopt b) as [y|] eqn:Eq; [apply (I6 y eq_refl)|exact Hs2].
        -- exists x; auto.
        -- intros y Hy. destruct (I6 y Hy) as [H1 [H2 H3]]. split; [exact H1|]. split; [exact H2|]. right; right; exact H3.
        -- intros v Hv Hu. destruct (b_qopt b) as [y|] eqn:Eq.
           ++ destruct Hv as [<-|[<-|Hv]].
              ** apply I7; [apply (I6 y eq_refl)|exact Hu].
              ** congruence.
              ** apply I7; assumption.
           ++ destruct Hv as [<-|[<-|Hv]]; [congruence|congruence|]. apply I7; assumption.
        -- exact I8.
        -- right; right; exact I9.
        -- cbn [length]. lia.
        -- lia.
      * split; cbn [b_arg b_past b_nd b_only]; [exact Hnd0|]. intros Hv. split; [|discriminate].
        apply Hnd1. intros v Hin. apply Hv. right; right; exact Hin.
    + destruct (ltb (C a2) (b_cost b)) eqn:Ec.
      * apply Hgen; [| |reflexivity].
        -- split; cbn [b_only b_prev b_dq b_arg b_past b_cost b_qopt b_nd b_iter].
           ++ discriminate.
           ++ exact Hs2.
           ++ exists a2. split; [reflexivity|]. split; [|intros y Hy; congruence].
              rewrite I3 in Ec. exact (le_trans_false _ _ _ I4 Ec).
           ++ intros y Hy. injection Hy as <-. split; [exact Hs2|]. split; [exact Eu|left; reflexivity].
           ++ intros v [<-|Hv] Hu; [apply irr|]. rewrite I3 in Ec.
              specialize (I7 v Hv Hu). rewrite I3 in I7. exact (le_trans_false _ _ _ I7 Ec).
           ++ discriminate.
           ++ right; exact I9.
           ++ cbn [length]. lia.
           ++ lia.
        -- split; cbn [b_arg b_past b_nd b_only]; [exact Hnd0|]. intros Hv.
           specialize (Hv a2 (or_introl eq_refl)). congruence.
      * apply Hgen; [| |reflexivity].
        -- split; cbn [b_only b_prev b_dq b_arg b_past b_cost b_qopt b_nd b_iter].
           ++ discriminate.
           ++ exact Hs2.
           ++ exists x; auto.
           ++ intros y Hy. destruct (I6 y Hy) as [H1 [H2 H3]]. split; [exact H1|]. split; [exact H2|]. right; exact H3.
           ++ intros v [<-|Hv] Hu; [exact Ec|apply I7; assumption].
           ++ exact I8.
           ++ right; exact I9.
           ++ cbn [length]. lia.
           ++ lia.
        -- split; cbn [b_arg b_past b_nd b_only]; [exact Hnd0|]. intros Hv.
           specialize (Hv a2 (or_introl eq_refl)). congruence.
Qed.

Lemma opt_solve fuel s arg : (Z.to_nat maxit <= fuel)%nat ->
  match esolve arg with
  | None => BS fuel s true arg = Thrown
  | Some q1 =>
      if up q1 && (rdim =? 0) then BS fuel s true arg = Early q1
      else BS fuel s true arg = Thrown \/
        exists st a b, BS fuel s true arg = Done st a b /\ solved a /\
          (st = MAX_ITERATION_REACHED /\ maxit <= b_iter b \/ st = INFEASIBLE) /\
          0 <= b_iter b <= Z.max 0 maxit /\
          In a (b_arg b :: b_past b) /\ In q1 (b_arg b :: b_past b) /\
          (* best of the satisfying configurations whose cost is below that of the start *)
          (forall v, In v (b_arg b :: b_past b) -> up v = false ->
             (up q1 = false \/ ltb (C v) (C q1) = true) ->
             up a = false /\ ltb (C v) (C a) = false /\ ltb (C q1) (C a) = false) /\
          ((forall v, In v (b_arg b :: b_past b) -> up v = true) -> b_nd b <= 1)
  end.
Proof.
  intros Hf. unfold bsolve. destruct (esolve arg) as [q1|] eqn:Eq; [|reflexivity].
  destruct (up q1 && (rdim =? 0)) eqn:Er; [reflexivity|].
  set (b0 := binit ltb E thr maxit C quarter one zero s true q1).
  assert (Hs : solved q1) by (exists arg; exact Eq).
  assert (I : oinv q1 b0).
  { subst b0. unfold binit. split; cbn [b_only b_prev b_dq b_arg b_past b_cost b_qopt b_nd b_iter andb negb].
    - discriminate.
    - exact Hs.
    - exists q1. split; [reflexivity|]. split; [apply irr|]. intros y. destruct (negb (up q1)); congruence.
    - intros y Hy. destruct (up q1) eqn:Eu; cbn [negb] in Hy; [discriminate|]. injection Hy as <-. repeat split; auto. left; reflexivity.
    - intros v [<-|[]] _. apply irr.
    - intros H. split; [reflexivity|]. destruct (up q1); [reflexivity|discriminate].
    - left; reflexivity.
    - cbn; lia.
    - destruct (ltb (E q1) thr); cbn [andb]; lia. }
  assert (N : nd_inv b0) by (split; [cbn; lia|intros _; cbn; lia]).
  assert (Hi : b_iter b0 = 0) by (subst b0; unfold binit; cbn [b_iter]; rewrite andb_false_r; reflexivity).
  destruct (opt_loop q1 fuel SUCCESS b0 I N ltac:(lia)) as [R|[st' [b' [R [J [H2 [H3 H4]]]]]]]; rewrite R; [left; reflexivity|].
  right. cbn [negb andb].
  destruct J as [J1 J2 [x [J3 [J4 J5]]] J6 J7 J8 J9 J10 J11].
  exists st', (match b_qopt b' with Some x => x | None => b_arg b' end), b'. split; [reflexivity|].
  split; [destruct (b_qopt b') as [y|] eqn:Ey; [apply (J6 y eq_refl)|exact J2]|].
  split; [destruct H4 as [H4|[H4 _]]; auto|]. split; [lia|].
  split; [destruct (b_qopt b') as [y|] eqn:Ey; [apply (J6 y eq_refl)|left; reflexivity]|].
  split; [exact J9|]. split; [|exact H2].
  intros v Hv Hu Hor. destruct (b_qopt b') as [y|] eqn:Ey.
  - destruct (J6 y eq_refl) as [K1 [K2 K3]]. rewrite <- (J5 y eq_refl) in *.
    split; [exact K2|]. split; [rewrite <- J3; apply J7; assumption|exact J4].
  - destruct (J8 eq_refl) as [K1 K2]. destruct Hor as [H|H]; [congruence|].
    specialize (J7 v Hv Hu). rewrite K1 in J7. congruence.
Qed.
End Optim.
End BySubLoop.
