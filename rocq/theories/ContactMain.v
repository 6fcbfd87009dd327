(** Statements used by ContactProps. *)
From Coq Require Import Reals List Bool Arith ZArith Lra Lia.
From Verif Require Import ContactModel ContactProofs.
Import ListNotations.
Open Scope R_scope.

Lemma pairs_nth nf no k j i : nth_error (pairs nf no) k = Some (j, i) -> k = (j * no + i)%nat /\ (j < nf)%nat /\ (i < no)%nat.
Proof.
  intros H. assert (Hk : (k < nf * no)%nat).
  { rewrite <- (pairs_length nf no 0). apply nth_error_Some. change (nth_error (pairs nf no) k <> None). congruence. }
  assert (Hno : (no <> 0)%nat) by nia.
  pose proof (Nat.div_mod k no Hno) as E. pose proof (Nat.mod_upper_bound k no Hno) as B.
  assert (Hq : (k / no < nf)%nat) by (apply Nat.div_lt_upper_bound; lia).
  assert (H2 : nth_error (pairs nf no) k = Some ((k / no)%nat, (k mod no)%nat)).
  { replace k with (k / no * no + k mod no)%nat at 1 by lia. apply (pairs_from nf 0 no); auto. }
  rewrite H2 in H. injection H as <- <-. lia.
Qed.

Lemma selection dp dn nf no :
  let dist j i := if Rlt_dec (dp j i) 0 then dn j i ^ 2 else dp j i ^ 2 + dn j i ^ 2 in
  match select dp dn nf no with
  | None => nf = 0%nat \/ no = 0%nat
  | Some (j, i, inside) =>
      (j < nf)%nat /\ (i < no)%nat /\ (inside = true <-> dp j i < 0) /\
      forall j' i', (j' < nf)%nat -> (i' < no)%nat ->
        dist j i <= dist j' i' /\ ((j' < j \/ j' = j /\ i' < i)%nat -> dist j i < dist j' i')
  end.
Proof.
  intros ds.
  assert (Ed : forall j i, ds j i = ContactModel.dist dp dn j i).
  { intros. unfold ds, ContactModel.dist, rlt. destruct Rlt_dec; ring. }
  pose proof (sel_spec dp dn (pairs nf no)) as H. unfold select.
  destruct (fold_left _ _ _) as [[m [[j i] b]]|]; cbn.
  - destruct H as [(l1 & l2 & El & H1 & H2) ->].
    assert (Hn : nth_error (pairs nf no) (length l1) = Some (j, i)).
    { rewrite El, nth_error_app2, Nat.sub_diag by lia. reflexivity. }
    destruct (pairs_nth _ _ _ _ _ Hn) as (Hl & Hj & Hi).
    split; auto. split; auto. split.
    { destruct (rlt_spec (dp j i) 0); split; auto; discriminate. }
    intros j' i' Hj' Hi'. rewrite !Ed.
    assert (Hin : In (j', i') (pairs nf no)) by (apply pairs_In; auto).
    assert (Hk : nth_error (pairs nf no) (j' * no + i') = Some (j', i')) by (apply (pairs_from nf 0 no); auto).
    assert (Hlt : (j' < j \/ j' = j /\ i' < i)%nat -> In (j', i') l1).
    { intros Ho. rewrite El, nth_error_app1 in Hk by nia. eapply nth_error_In; eauto. }
    split.
    + rewrite El in Hin. apply in_app_or in Hin. destruct Hin as [Hin|[E|Hin]].
      * specialize (H1 _ Hin). unfold d in H1; cbn in H1. lra.
      * injection E as <- <-. lra.
      * apply (H2 _ Hin).
    + intros Ho. apply (H1 _ (Hlt Ho)).
  - destruct nf; auto. destruct no; auto. discriminate.
Qed.

(** encoding, then decoding *)
Lemma round_trip M margin inside v f o : 0 < M -> (inside = true -> - M <= py v < M /\ - M <= pz v < M) ->
  decode M (hold_value M margin false inside v f o) = Some (f, o, mkpose (px v + margin) (py v) (pz v) (rx v) (ry v) (rz v)).
Proof. intros HM H. destruct inside; [apply decode_inside; auto; exact (H eq_refl)|apply decode_outside; auto]. Qed.
Lemma round_trip_only M margin v f o w : 0 < M ->
  decode M (hold_value M margin false true v f o) = Some (f, o, w) -> - M <= py v < M /\ - M <= pz v < M.
Proof. intros. eapply decode_inside_inv; eauto. Qed.
Lemma enough L l ws x r1 r2 r3 : In l L -> length ws = length l -> (forall w, In w ws -> 0 <= w) -> total ws = 1 ->
  let v := mkpose x (fst (comb ws l)) (snd (comb ws l)) r1 r2 r3 in
  0 < radius L /\ (- radius L <= py v < radius L) /\ (- radius L <= pz v < radius L).
Proof.
  intros H1 H2 H3 H4 v. split. { pose proof (radius_pos L); lra. }
  exact (hull_in_cell L l ws x r1 r2 r3 H1 H2 H3 H4).
Qed.
(** two cells: the point at distance M is decoded in the next surface *)
Lemma beyond : decode 1 (hold_value 1 0 false true (mkpose 0 (3 / 2) 0 0 0 0) 0 0) = Some (1%nat, 0%nat, mkpose 0 (- (1 / 2)) 0 0 0 0).
Proof.
  unfold decode, hold_value; cbn [h0 h1 h2 h3 h4 h5 h6 h7 px py pz rx ry rz].
  replace (3 / 2 + INR (2 * 0) * 1) with (- (1 / 2) + INR (2 * 1) * 1) by (cbn; lra).
  replace (0 + INR (2 * 0) * 1) with (0 + INR (2 * 0) * 1) by reflexivity.
  rewrite !index_cell by lra. destruct (req_spec 0 0); [|lra]. cbn. repeat f_equal; ring.
Qed.
Lemma point M margin v f o : 0 < M -> - M <= py v < M -> - M <= pz v < M ->
  decode M (hold_value M margin true true v f o) = Some (f, o, mkpose (px v + margin) (py v) (pz v) (rx v) 0 0).
Proof. intros. apply decode_point; auto. split; auto. Qed.
Lemma negative : decode 1 (mkhold 0 0 0 0 0 (- 2) 0 0) = None.
Proof.
  unfold decode, index; cbn [h5]. rewrite (Int_part_eq _ (-1)%Z); [reflexivity| |]; cbn; lra.
Qed.

(** distinct pairs have distinct values *)
Lemma cells M margin pt v f o pt' v' f' o' : 0 < M ->
  (- M <= py v < M /\ - M <= pz v < M) -> (- M <= py v' < M /\ - M <= pz v' < M) ->
  hold_value M margin pt true v f o = hold_value M margin pt' true v' f' o' -> f = f' /\ o = o'.
Proof.
  intros HM H H' E.
  assert (E5 := f_equal h5 E). assert (E6 := f_equal h6 E). cbn [h5 h6 hold_value] in E5, E6.
  assert (I : index M (py v + INR (2 * f) * M) = Some f) by (apply index_cell; lra).
  assert (J : index M (pz v + INR (2 * o) * M) = Some o) by (apply index_cell; lra).
  rewrite E5, index_cell in I by lra. rewrite E6, index_cell in J by lra. split; congruence.
Qed.
(** the explicit constraint places the object; the selection decides what is evaluated *)
Lemma explicit_ok M margin h f o w : 0 < M -> decode M h = Some (f, o, w) ->
  let inside := req (h1 h) 0 && req (h2 h) 0 in
  (inside = false -> h5 h = INR (2 * f) * M /\ h6 h = INR (2 * o) * M) ->
  hold_value M margin false inside (mkpose (px w - margin) (py w) (pz w) (rx w) (ry w) (rz w)) f o = h.
Proof.
  intros HM D inside Hi. pose proof (hold_decode M margin h f o w HM D) as E. unfold shift in E.
  unfold Rminus. fold inside in E. rewrite E. destruct h as [a0 a1 a2 a3 a4 a5 a6 a7]. cbn in *.
  destruct inside; auto. destruct (Hi eq_refl) as [-> ->]. reflexivity.
Qed.
(** two overlapping floors in the same plane: floor 0 is selected, so that no pose inside
    gives the right hand side of floor 1 *)
Definition dp2 (j i : nat) : R := -1.
Definition dn2 (j i : nat) : R := 0.
Lemma overlap : exists h w, decode 2 h = Some (1%nat, 0%nat, w) /\ h0 h = 0 /\ h1 h = 0 /\ h2 h = 0 /\ h3 h = 0 /\ h4 h = 0 /\
  select dp2 dn2 2 1 = Some (0%nat, 0%nat, true) /\
  forall v, - 2 <= py v < 2 -> - 2 <= pz v < 2 -> hold_value 2 0 false true v 0 0 <> h.
Proof.
  exists (hold_value 2 0 false true (mkpose 0 0 0 0 0 0) 1 0), (mkpose 0 0 0 0 0 0).
  split. { rewrite round_trip by (cbn; lra). cbn. repeat f_equal; ring. }
  split; [cbn; lra|]. do 4 (split; [reflexivity|]). split.
  - unfold select. cbn [pairs seq flat_map map app fold_left sel_step fst snd].
    unfold ContactModel.dist, dp2, dn2. destruct (rlt_spec (-1) 0); [|lra].
    destruct (rlt_spec (0 * 0) (0 * 0)); [lra|]. reflexivity.
  - intros v H1 H2 E. destruct (cells 2 0 false v 0 0 false (mkpose 0 0 0 0 0 0) 1 0) as [F _]; try lra; auto.
    + cbn; lra.
    + discriminate.
Qed.
(** a configuration with two floors *)
Lemma case : select (fun j _ => if Nat.eqb j 0 then 3 else -1) (fun _ i => if Nat.eqb i 0 then 2 else 1) 2 2 = Some (1%nat, 1%nat, true) /\
  radius [[(3, 4); (-3, 4)]; [(1, 0)]] = 6 /\
  decode 6 (hold_value 6 0 false true (mkpose 1 (-2) 5 7 8 9) 1 1) = Some (1%nat, 1%nat, mkpose 1 (-2) 5 7 8 9).
Proof.
  split; [|split].
  - unfold select. cbn [pairs seq flat_map map app fold_left sel_step fst snd].
    unfold sel_step, ContactModel.dist. cbn [fst snd Nat.eqb].
    assert (E1 : rlt 3 0 = false) by (destruct (rlt_spec 3 0); auto; lra).
    assert (E2 : rlt (-1) 0 = true) by (destruct (rlt_spec (-1) 0); auto; lra).
    rewrite E1, E2.
    repeat match goal with
    | |- context [rlt ?a ?b] => destruct (rlt_spec a b); try lra; cbn [fst snd Nat.eqb]
    end; reflexivity.
  - unfold radius. cbn [fold_left].
    assert (N1 : norm (3, 4) = 5). { unfold norm; cbn. replace (3 * 3 + 4 * 4) with (5 * 5) by ring. apply sqrt_square; lra. }
    assert (N2 : norm (-3, 4) = 5). { unfold norm; cbn. replace (-3 * -3 + 4 * 4) with (5 * 5) by ring. apply sqrt_square; lra. }
    assert (N3 : norm (1, 0) = 1). { unfold norm; cbn. replace (1 * 1 + 0 * 0) with (1 * 1) by ring. apply sqrt_square; lra. }
    rewrite N1, N2, N3.
    assert (E1 : rlt 0 5 = true) by (destruct (rlt_spec 0 5); auto; lra).
    assert (E2 : rlt 5 5 = false) by (destruct (rlt_spec 5 5); auto; lra).
    assert (E3 : rlt 5 1 = false) by (destruct (rlt_spec 5 1); auto; lra).
    rewrite E1, E2, E3. lra.
  - rewrite round_trip by (cbn; lra). cbn. repeat f_equal; ring.
Qed.
