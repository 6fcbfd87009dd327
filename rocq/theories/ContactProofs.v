(** Proofs about ContactModel. *)
From Coq Require Import Reals List Bool Arith ZArith Lra Lia.
From Verif Require Import ContactModel.
Import ListNotations.
Open Scope R_scope.

Lemma rlt_spec a b : reflect (a < b) (rlt a b).
Proof. unfold rlt; destruct (Rlt_dec a b); constructor; auto. Qed.
Lemma req_spec a b : reflect (a = b) (req a b).
Proof. unfold req; destruct (Req_EM_T a b); constructor; auto. Qed.

(** ** selection *)
Section Select.
Variables dp dn : nat -> nat -> R.
Definition d (p : nat * nat) := dist dp dn (fst p) (snd p).
(** the state after some pairs: first pair of minimal distance *)
Definition first_min (l : list (nat * nat)) (p : nat * nat) : Prop :=
  exists l1 l2, l = l1 ++ p :: l2 /\ (forall q, In q l1 -> d p < d q) /\ (forall q, In q l2 -> d p <= d q).
Lemma sel_inv l2 : forall l1 p, first_min l1 p ->
  exists p', first_min (l1 ++ l2) p' /\
  fold_left (sel_step dp dn) l2 (Some (d p, (fst p, snd p, rlt (dp (fst p) (snd p)) 0))) =
  Some (d p', (fst p', snd p', rlt (dp (fst p') (snd p')) 0)).
Proof.
  induction l2 as [|q l2 IH]; intros l1 p H.
  - exists p. rewrite app_nil_r. split; auto.
  - cbn [fold_left]. unfold sel_step at 2.
    change (dist dp dn (fst q) (snd q)) with (d q).
    destruct (rlt_spec (d q) (d p)) as [L|L].
    + destruct (IH (l1 ++ [q]) q) as (p' & H1 & H2).
      * exists l1, []. split; [reflexivity|]. split; [|intros ? []].
        intros x Hx. destruct H as (a & b & -> & Ha & Hb). apply in_app_or in Hx. destruct Hx as [Hx|[<-|Hx]].
        -- specialize (Ha x Hx). lra.
        -- exact L.
        -- specialize (Hb x Hx). lra.
      * exists p'. rewrite <- app_assoc in H1. auto.
    + destruct (IH (l1 ++ [q]) p) as (p' & H1 & H2).
      * destruct H as (a & b & -> & Ha & Hb). exists a, (b ++ [q]). split.
        { rewrite <- app_assoc. reflexivity. }
        split; auto. intros x Hx. apply in_app_or in Hx. destruct Hx as [Hx|[<-|[]]]; auto. lra.
      * exists p'. rewrite <- app_assoc in H1. auto.
Qed.
Lemma sel_spec l : match fold_left (sel_step dp dn) l None with
  | None => l = []
  | Some (_, (j, i, b)) => first_min l (j, i) /\ b = rlt (dp j i) 0
  end.
Proof.
  destruct l as [|q l]; [reflexivity|]. cbn [fold_left]. unfold sel_step at 2.
  change (dist dp dn (fst q) (snd q)) with (d q).
  destruct (sel_inv l [q] q) as (p' & H1 & H2).
  { exists [], []. split; [reflexivity|]. split; intros ? []. }
  rewrite H2. destruct p' as [j i]. split; auto.
Qed.
End Select.

Lemma pairs_In nf no j i : In (j, i) (pairs nf no) <-> (j < nf)%nat /\ (i < no)%nat.
Proof.
  unfold pairs. rewrite in_flat_map. split.
  - intros (x & Hx & H). apply in_map_iff in H. destruct H as (y & E & Hy). injection E as -> ->.
    apply in_seq in Hx. apply in_seq in Hy. lia.
  - intros [Hj Hi]. exists j. split; [apply in_seq; lia|]. apply in_map_iff. exists i. split; auto. apply in_seq; lia.
Qed.
Lemma pairs_from nf : forall a no, forall j i, (j < nf)%nat -> (i < no)%nat ->
  nth_error (flat_map (fun j => map (fun i => (j, i)) (seq 0 no)) (seq a nf)) (j * no + i) = Some ((a + j)%nat, i).
Proof.
  induction nf as [|nf IH]; intros a no j i Hj Hi; [lia|].
  cbn [seq flat_map]. destruct j as [|j].
  - rewrite nth_error_app1 by (rewrite map_length, seq_length; lia). cbn [Nat.mul Nat.add].
    rewrite nth_error_map, (nth_error_nth' _ 0%nat) by (rewrite seq_length; lia).
    rewrite seq_nth by lia. cbn. rewrite Nat.add_0_r. reflexivity.
  - rewrite nth_error_app2 by (rewrite map_length, seq_length; lia).
    rewrite map_length, seq_length. replace (S j * no + i - no)%nat with (j * no + i)%nat by lia.
    rewrite IH by lia. f_equal. f_equal. lia.
Qed.
Lemma pairs_length nf no a : length (flat_map (fun j => map (fun i => (j, i)) (seq 0 no)) (seq a nf)) = (nf * no)%nat.
Proof. revert a; induction nf as [|nf IH]; intro a; cbn; auto. rewrite app_length, map_length, seq_length, IH. reflexivity. Qed.

Lemma pose_at_spec {A} (mk : nat -> nat -> A) nf no j i : (i < no)%nat ->
  pose_at (poses mk nf no) no j i = if (j <? nf)%nat then Some (mk j i) else None.
Proof.
  intros Hi. unfold pose_at, poses. rewrite nth_error_map.
  destruct (Nat.ltb_spec j nf) as [H|H].
  - unfold pairs. rewrite pairs_from by lia. reflexivity.
  - rewrite (proj2 (nth_error_None _ _)); [reflexivity|]. unfold pairs. rewrite pairs_length. nia.
Qed.

(** ** encoding *)
Lemma Int_part_eq r z : IZR z <= r -> r < IZR z + 1 -> Int_part r = z.
Proof. intros H1 H2. unfold Int_part. rewrite <- (tech_up r (z + 1)); [lia|rewrite plus_IZR; lra|rewrite plus_IZR; lra]. Qed.
Lemma Int_part_bounds r : IZR (Int_part r) <= r < IZR (Int_part r) + 1.
Proof. destruct (base_Int_part r). lra. Qed.
Lemma index_cell M y k : 0 < M -> - M <= y -> y < M -> index M (y + INR (2 * k) * M) = Some k.
Proof.
  intros HM H1 H2. unfold index.
  assert (E : Int_part ((y + INR (2 * k) * M) / (2 * M) + / 2) = Z.of_nat k).
  { assert (Hy : (y + INR (2 * k) * M) / (2 * M) + / 2 = (y + M) / (2 * M) + INR k).
    { rewrite mult_INR. cbn [INR]. field. lra. }
    rewrite Hy.
    apply Int_part_eq; rewrite <- INR_IZR_INZ.
    - assert (0 <= (y + M) / (2 * M)); [|lra]. apply Rmult_le_pos; [lra|]. left. apply Rinv_0_lt_compat. lra.
    - assert ((y + M) / (2 * M) < 1); [|lra]. apply Rmult_lt_reg_r with (2 * M); [lra|].
      unfold Rdiv. rewrite Rmult_assoc, Rinv_l by lra. lra. }
  rewrite E. destruct (Z.ltb_spec (Z.of_nat k) 0); [lia|]. rewrite Nat2Z.id. reflexivity.
Qed.
Lemma index_cell_inv M y k : 0 < M -> index M (y + INR (2 * k) * M) = Some k -> - M <= y < M.
Proof.
  intros HM. unfold index. set (t := (y + INR (2 * k) * M) / (2 * M) + / 2).
  destruct (Z.ltb_spec (Int_part t) 0) as [L|L]; intro E; [discriminate|]. injection E as E.
  destruct (Int_part_bounds t) as [B1 B2].
  assert (Ek : IZR (Int_part t) = INR k) by (rewrite INR_IZR_INZ; f_equal; lia).
  rewrite Ek in B1, B2.
  assert (Ht : t * (2 * M) = y + INR (2 * k) * M + M) by (unfold t; field; lra).
  assert (E2 : INR (2 * k) = 2 * INR k) by (rewrite mult_INR; reflexivity).
  rewrite E2 in Ht.
  apply Rmult_le_compat_r with (r := 2 * M) in B1; [|lra].
  apply Rmult_lt_compat_r with (r := 2 * M) in B2; [|lra]. lra.
Qed.

Definition in_cell (M : R) (v : pose) : Prop := - M <= py v < M /\ - M <= pz v < M.
Definition shift (margin : R) (v : pose) : pose := mkpose (px v + margin) (py v) (pz v) (rx v) (ry v) (rz v).
Lemma INR0_l M k : 0 + INR (2 * k) * M = INR (2 * k) * M. Proof. ring. Qed.

Lemma decode_outside M margin v f o : 0 < M -> decode M (hold_value M margin false false v f o) = Some (f, o, shift margin v).
Proof.
  intros HM. unfold decode, hold_value; cbn [h0 h1 h2 h3 h4 h5 h6 h7].
  rewrite !index_cell by lra. unfold shift.
  destruct (req_spec (py v) 0) as [E1|E1]; destruct (req_spec (pz v) 0) as [E2|E2]; cbn; rewrite ?E1, ?E2; repeat f_equal; ring.
Qed.
Lemma decode_inside M margin v f o : 0 < M -> in_cell M v -> decode M (hold_value M margin false true v f o) = Some (f, o, shift margin v).
Proof.
  intros HM [[H1 H2] [H3 H4]]. unfold decode, hold_value; cbn [h0 h1 h2 h3 h4 h5 h6 h7].
  rewrite !index_cell by lra. unfold shift.
  destruct (req_spec 0 0); [|lra]. cbn. repeat f_equal; ring.
Qed.
Lemma decode_inside_inv M margin v f o w : 0 < M -> decode M (hold_value M margin false true v f o) = Some (f, o, w) -> in_cell M v.
Proof.
  intros HM. unfold decode, hold_value; cbn [h0 h1 h2 h3 h4 h5 h6 h7].
  destruct (index M (py v + _)) as [f'|] eqn:E1; [|discriminate].
  destruct (index M (pz v + _)) as [o'|] eqn:E2; [|discriminate]. intro H. injection H as -> -> _.
  split; eapply index_cell_inv; eauto.
Qed.
Lemma decode_point M margin v f o : 0 < M -> in_cell M v ->
  decode M (hold_value M margin true true v f o) = Some (f, o, mkpose (px v + margin) (py v) (pz v) (rx v) 0 0).
Proof.
  intros HM [[H1 H2] [H3 H4]]. unfold decode, hold_value; cbn [h0 h1 h2 h3 h4 h5 h6 h7].
  rewrite !index_cell by lra. destruct (req_spec 0 0); [|lra]. cbn. repeat f_equal; ring.
Qed.

(** ** radius *)
Definition fr (M : R) (p : R * R) := if rlt M (norm p) then norm p else M.
Lemma fr_ge M p : M <= fr M p /\ norm p <= fr M p.
Proof. unfold fr. destruct (rlt_spec M (norm p)); lra. Qed.
Lemma fold_fr l : forall M, M <= fold_left fr l M /\ forall p, In p l -> norm p <= fold_left fr l M.
Proof.
  induction l as [|q l IH]; intro M; cbn [fold_left]; [split; [lra|intros ? []]|].
  destruct (IH (fr M q)) as [H1 H2]. destruct (fr_ge M q). split; [lra|]. intros p [<-|Hp]; [lra|auto].
Qed.
Lemma fold_fold L : forall M, M <= fold_left (fun M l => fold_left fr l M) L M /\
  forall l p, In l L -> In p l -> norm p <= fold_left (fun M l => fold_left fr l M) L M.
Proof.
  induction L as [|q L IH]; intro M; cbn [fold_left]; [split; [lra|intros ? ? []]|].
  destruct (IH (fold_left fr q M)) as [H1 H2]. destruct (fold_fr q M) as [H3 H4]. split; [lra|].
  intros l p [<-|Hl] Hp; [|eauto]. specialize (H4 p Hp). lra.
Qed.
Lemma radius_norm L l p : In l L -> In p l -> norm p <= radius L - 1.
Proof. intros. unfold radius. change (fun M p => if rlt M (norm p) then norm p else M) with fr.
  destruct (fold_fold L 0) as [_ H1]. specialize (H1 l p H H0). lra. Qed.
Lemma radius_pos L : 1 <= radius L.
Proof. unfold radius. change (fun M p => if rlt M (norm p) then norm p else M) with fr.
  destruct (fold_fold L 0) as [H _]. lra. Qed.

Lemma abs_norm p : Rabs (fst p) <= norm p /\ Rabs (snd p) <= norm p.
Proof.
  unfold norm. split.
  - rewrite <- sqrt_Rsqr_abs. apply sqrt_le_1_alt. unfold Rsqr. nra.
  - rewrite <- sqrt_Rsqr_abs. apply sqrt_le_1_alt. unfold Rsqr. nra.
Qed.
(** convex combinations *)
Fixpoint comb (ws : list R) (l : list (R * R)) : R * R :=
  match ws, l with
  | w :: ws', p :: l' => (w * fst p + fst (comb ws' l'), w * snd p + snd (comb ws' l'))
  | _, _ => (0, 0)
  end.
Definition total (ws : list R) : R := fold_right Rplus 0 ws.
Lemma comb_bound ws : forall l B, (forall w, In w ws -> 0 <= w) -> length ws = length l -> 0 <= B ->
  (forall p, In p l -> norm p <= B) -> Rabs (fst (comb ws l)) <= total ws * B /\ Rabs (snd (comb ws l)) <= total ws * B.
Proof.
  induction ws as [|w ws IH]; intros [|p l] B Hw Hl HB Hn; try discriminate.
  - cbn. rewrite Rabs_R0. lra.
  - cbn [comb total fold_right fst snd]. fold (total ws).
    assert (Hl' : length ws = length l) by (injection Hl; auto).
    destruct (IH l B (fun w H => Hw w (or_intror H)) Hl' HB (fun p H => Hn p (or_intror H))) as [I1 I2].
    assert (Hw0 : 0 <= w) by (apply Hw; left; auto).
    assert (Hp : norm p <= B) by (apply Hn; left; auto).
    destruct (abs_norm p) as [P1 P2].
    split; eapply Rle_trans; try apply Rabs_triang; rewrite Rabs_mult, (Rabs_pos_eq w) by lra; nra.
Qed.
Lemma hull_in_cell L l ws x r1 r2 r3 : In l L -> length ws = length l -> (forall w, In w ws -> 0 <= w) -> total ws = 1 ->
  in_cell (radius L) (mkpose x (fst (comb ws l)) (snd (comb ws l)) r1 r2 r3).
Proof.
  intros Hl Hn Hw Ht.
  destruct (comb_bound ws l (radius L - 1)) as [H1 H2]; auto.
  { pose proof (radius_pos L); lra. }
  { intros p Hp; eapply radius_norm; eauto. }
  rewrite Ht in H1, H2. unfold in_cell; cbn [py pz]. split.
  - unfold Rabs in H1; destruct (Rcase_abs (fst (comb ws l))); lra.
  - unfold Rabs in H2; destruct (Rcase_abs (snd (comb ws l))); lra.
Qed.

(** ** output of the explicit constraint *)
(** rows of the pose placed by the explicit constraint (first floor frame moved by the
    margin), seen again by the function *)
Lemma hold_decode M margin h f o w : 0 < M -> decode M h = Some (f, o, w) ->
  hold_value M margin false (req (h1 h) 0 && req (h2 h) 0) (shift (- margin) w) f o =
  mkhold (h0 h) (h1 h) (h2 h) (h3 h) (h4 h)
    (if req (h1 h) 0 && req (h2 h) 0 then h5 h else INR (2 * f) * M)
    (if req (h1 h) 0 && req (h2 h) 0 then h6 h else INR (2 * o) * M) (h7 h).
Proof.
  intros HM. unfold decode. destruct (index M (h5 h)) as [f'|]; [|discriminate].
  destruct (index M (h6 h)) as [o'|]; [|discriminate]. intro H. injection H as <- <- <-.
  unfold hold_value, shift. cbn [px py pz rx ry rz].
  destruct (req_spec (h1 h) 0) as [E1|E1]; destruct (req_spec (h2 h) 0) as [E2|E2]; cbn; f_equal; lra.
Qed.
