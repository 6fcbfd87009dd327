(** Proofs about the storage of the hierarchical solver (C27-C30). *)
From Coq Require Import ZArith List Bool Lia Floats.SpecFloat.
From Verif Require Import SegModel SegSpec SegProofs EcsModel EcsRhsModel EcsRhsSpec EcsRhsProofs NanModel ImplModel ImplSpec ImplProofs HierModel HierSpec.
Import ListNotations.
Local Open Scope nat_scope.

Section P.
Context {F V : Type}.
Variable feq : F -> F -> bool.
Variable zero : V.
Variable mem : imp V -> list V -> Prop.
Variable okq : (Z -> V) -> Prop.
Notation wf_ic := (wf_ic zero mem okq).
Notation ic := (ic F V).
Notation hs := (hs F V).
Notation lvl := (lvl F V).

(** positions of the inequality rows *)
Fixpoint ineq_pos (i : nat) (l : list cmp) : list nat :=
  match l with
  | [] => []
  | (Superior | Inferior) :: t => i :: ineq_pos (S i) t
  | _ :: t => ineq_pos (S i) t
  end.
Lemma ineq_pos_spec l : forall i j, In j (ineq_pos i l) <-> i <= j /\
  (nth_error l (j - i) = Some Superior \/ nth_error l (j - i) = Some Inferior).
Proof.
  induction l as [|t l IH]; intros i j.
  - cbn. split; [intros []|]. intros [_ [H|H]]; destruct (j - i); discriminate H.
  - assert (Hn : In j (ineq_pos (S i) l) <-> i < j /\
      (nth_error (t :: l) (j - i) = Some Superior \/ nth_error (t :: l) (j - i) = Some Inferior)).
    { rewrite IH. split; intros [A B]; (split; [lia|]);
      [replace (j - i) with (S (j - S i)) by lia; exact B
      |replace (j - i) with (S (j - S i)) in B by lia; exact B]. }
    assert (H0 : nth_error (t :: l) (i - i) = Some t) by (rewrite Nat.sub_diag; reflexivity).
    destruct t; cbn [ineq_pos In]; rewrite Hn; split; intros H.
    1,3: destruct H as [A B]; split; [lia|exact B].
    1,2: destruct H as [A B]; destruct (Nat.eq_dec i j) as [<-|]; [rewrite H0 in B; destruct B; discriminate | split; [lia|exact B]].
    + destruct H as [<-|[A B]]; [split; [lia|left; exact H0] | split; [lia|exact B]].
    + destruct H as [A B]. destruct (Nat.eq_dec i j) as [<-|]; [left; reflexivity | right; split; [lia|exact B]].
    + destruct H as [<-|[A B]]; [split; [lia|right; exact H0] | split; [lia|exact B]].
    + destruct H as [A B]. destruct (Nat.eq_dec i j) as [<-|]; [left; reflexivity | right; split; [lia|exact B]].
Qed.
Lemma ineq_pos_app a : forall i b, ineq_pos i (a ++ b) = ineq_pos i a ++ ineq_pos (i + length a) b.
Proof.
  induction a as [|t a IH]; intros i b; cbn; [rewrite Nat.add_0_r; reflexivity|].
  rewrite IH. replace (S i + length a) with (i + S (length a)) by lia. destruct t; reflexivity.
Qed.
Lemma push_cmp_spec comp : forall cmps ineq eqi,
  push_cmp comp cmps ineq eqi
  = (cmps ++ comp, ineq ++ ineq_pos (length cmps) comp, eqi ++ eq_rows (Z.of_nat (length cmps)) comp).
Proof.
  induction comp as [|t comp IH]; intros cmps ineq eqi; cbn [push_cmp ineq_pos eq_rows].
  - rewrite !app_nil_r. reflexivity.
  - assert (L : length (cmps ++ [t]) = S (length cmps)) by (rewrite app_length; cbn; lia).
    destruct t; rewrite IH, L; rewrite <- !app_assoc; cbn [app];
    replace (Z.of_nat (S (length cmps))) with (Z.of_nat (length cmps) + 1)%Z by lia; reflexivity.
Qed.

(** at_level and sums *)
Lemma at_level_snoc adds c p p' : at_level (adds ++ [(c, p)]) p' = at_level adds p' ++ (if Nat.eqb p p' then [c] else []) :> list ic.
Proof.
  unfold at_level. rewrite filter_app, map_app. cbn. destruct (Nat.eqb p p'); reflexivity.
Qed.
Lemma sum_nq_app a b : sum_nq (a ++ b : list ic) = sum_nq a + sum_nq b.
Proof. unfold sum_nq. rewrite map_app, list_sum_app. reflexivity. Qed.
Lemma sum_nv_app a b : sum_nv (a ++ b : list ic) = sum_nv a + sum_nv b.
Proof. unfold sum_nv. rewrite map_app, list_sum_app. reflexivity. Qed.
Lemma sum_nq_one c : sum_nq [c : ic] = s_nq (ic_s c).
Proof. unfold sum_nq. cbn. lia. Qed.
Lemma sum_nv_one c : sum_nv [c : ic] = s_nv (ic_s c).
Proof. unfold sum_nv. cbn. lia. Qed.
Lemma at_level_app a b p : at_level (a ++ b) p = at_level a p ++ at_level b p :> list ic.
Proof. unfold at_level. rewrite filter_app, map_app. reflexivity. Qed.
Lemma at_level_In adds p c : In c (at_level adds p : list ic) <-> In (c, p) adds.
Proof.
  unfold at_level. rewrite in_map_iff. split.
  - intros ([c' p'] & <- & H). apply filter_In in H as [H1 H2]. apply Nat.eqb_eq in H2. cbn in *. subst. exact H1.
  - intros H. exists (c, p). split; [reflexivity|]. apply filter_In. split; [exact H|]. apply Nat.eqb_refl.
Qed.
Lemma nlevels_snoc adds c p : nlevels (adds ++ [(c, p)] : list (ic * nat)) = Nat.max (nlevels adds) (S p).
Proof. unfold nlevels. rewrite map_app, list_max_app. cbn. lia. Qed.

(** invariant *)
Definition lvl_ok (l : lvl) (cs : list ic) : Prop :=
  l_cons l = cs /\ l_nq l = sum_nq cs /\ l_nv l = sum_nv cs /\
  l_cmp l = concat (map (fun c => m_cmp (ic_i c)) cs) /\
  l_ineq l = ineq_pos 0 (l_cmp l) /\
  (forall i, covers (l_eq l) i <-> row_is (l_cmp l) i Equality) /\ positive (l_eq l) /\ sorted_separated (l_eq l) /\
  length (l_rhs l) = sum_nq cs.
Record inv (s : hs) (adds : list (ic * nat)) : Prop := mkinv {
  inv_cons : hcons s = map fst adds;
  inv_prio : prio s = map (fun a => (ic_f (fst a), snd a)) adds;
  inv_iq : length (iqm s) = length adds /\ forall k c p, nth_error adds k = Some (c, p) ->
    nth_error (iqm s) k = Some (ic_f c, sum_nq (at_level (firstn k adds) p));
  inv_iv : length (ivm s) = length adds /\ forall k c p, nth_error adds k = Some (c, p) ->
    nth_error (ivm s) k = Some (ic_f c, sum_nv (at_level (firstn k adds) p));
  inv_len : length (lvls s) = nlevels adds;
  inv_lvl : forall p l, nth_error (lvls s) p = Some l -> lvl_ok l (at_level adds p);
  inv_nodup : forall j k c p d r, j < k -> nth_error adds j = Some (c, p) -> nth_error adds k = Some (d, r) ->
    feq (ic_f c) (ic_f d) = false;
  inv_wf : forall c p, In (c, p) adds -> wf_ic c }.

Lemma neutral_length cs : (forall c, In c cs -> wf_ic c) -> length (neutral_rhs cs : list V) = sum_nq (cs : list ic).
Proof.
  induction cs as [|c cs IH]; intros W; [reflexivity|].
  unfold neutral_rhs, sum_nq in *. cbn. rewrite app_length, IH by (intros; apply W; right; assumption).
  destruct (W c (or_introl eq_refl)) as (_ & _ & _ & H & _). destruct H as (_ & H1 & _ & _ & _ & _ & H2 & _). rewrite (H1 _ H2). reflexivity.
Qed.
Lemma upd_lvl_ok l cs : (forall c, In c cs -> wf_ic c) -> lvl_ok l cs -> lvl_ok (upd_lvl l) cs /\ l_rhs (upd_lvl l) = neutral_rhs cs.
Proof.
  intros W (A1 & A2 & A3 & A4 & A5 & A6 & A7 & A8 & A9). unfold upd_lvl. cbn. rewrite A1. split; [|reflexivity].
  unfold lvl_ok. cbn. rewrite neutral_length by exact W. repeat (split; [assumption || reflexivity|]); (assumption || reflexivity).
Qed.
Lemma update_inv s adds : inv s adds -> inv (update s) adds.
Proof.
  intros [I1 I2 I3 I4 I5 I6 I7 I8]. constructor; cbn; try assumption.
  - rewrite map_length. exact I5.
  - intros p l H. rewrite nth_error_map in H. destruct (nth_error (lvls s) p) as [l0|] eqn:E; [|discriminate].
    cbn in H. injection H as <-. apply upd_lvl_ok; [|apply I6, E].
    intros c Hc. apply at_level_In in Hc. eapply I8, Hc.
Qed.
Lemma empty_ok : lvl_ok empty_lvl [].
Proof.
  unfold lvl_ok, empty_lvl; cbn. repeat (split; [reflexivity|]). split; [|split; [|split; [exact I|reflexivity]]].
  - intros i. split; [intros (s & [] & _)|]. intros [_ H]. destruct (Z.to_nat i); discriminate H.
  - intros s [].
Qed.
Lemma at_level_beyond adds p : nlevels adds <= p -> at_level adds p = [] :> list ic.
Proof.
  intros H. destruct (at_level adds p) as [|c l] eqn:E; [reflexivity|].
  assert (Hi : In c (at_level adds p)) by (rewrite E; left; reflexivity).
  apply at_level_In in Hi. unfold nlevels in H.
  assert (S p <= list_max (map (fun a => S (snd a)) adds)).
  { pose proof (proj1 (list_max_le (map (fun a : ic * nat => S (snd a)) adds) _) (Nat.le_refl _)) as Hf.
    rewrite Forall_forall in Hf. apply Hf. apply in_map_iff. exists (c, p). auto. }
  lia.
Qed.
Lemma nlevels_In adds c p : In (c, p) (adds : list (ic * nat)) -> p < nlevels adds.
Proof.
  intros Hi. unfold nlevels.
  pose proof (proj1 (list_max_le (map (fun a : ic * nat => S (snd a)) adds) _) (Nat.le_refl _)) as Hf.
  rewrite Forall_forall in Hf. assert (S p <= list_max (map (fun a : ic * nat => S (snd a)) adds)); [|lia].
  apply Hf. apply in_map_iff. exists (c, p). auto.
Qed.

Lemma push_con_ok l cs c : wf_ic c -> lvl_ok l cs ->
  let l' := push_con l c in
  l_cons l' = cs ++ [c] /\ l_nq l' = sum_nq (cs ++ [c]) /\ l_nv l' = sum_nv (cs ++ [c]) /\
  l_cmp l' = concat (map (fun c => m_cmp (ic_i c)) (cs ++ [c])) /\
  l_ineq l' = ineq_pos 0 (l_cmp l') /\
  (forall i, covers (l_eq l') i <-> row_is (l_cmp l') i Equality) /\ positive (l_eq l') /\ sorted_separated (l_eq l').
Proof.
  intros W (A1 & A2 & A3 & A4 & A5 & A6 & A7 & A8 & A9). unfold push_con. rewrite push_cmp_spec. cbn.
  rewrite A1, A2, A3, A4, A5. rewrite sum_nq_app, sum_nv_app, sum_nq_one, sum_nv_one, map_app, concat_app. cbn. rewrite app_nil_r.
  rewrite <- A4. set (m := m_cmp (ic_i c)).
  destruct (eq_rows_props m (Z.of_nat (length (l_cmp l)))) as [P C].
  assert (PP : positive (l_eq l ++ eq_rows (Z.of_nat (length (l_cmp l))) m)) by (apply positive_app; split; assumption).
  assert (NN := positive_nonneg _ PP).
  repeat (split; [reflexivity|]). split; [|split; [|split]].
  - rewrite ineq_pos_app. reflexivity.
  - intros i. rewrite normalise_covers, covers_app, A6, C by exact NN. unfold row_is. split.
    + intros [[H1 H2]|[H1 H2]].
      * split; [exact H1|]. rewrite nth_error_app1; [exact H2|]. apply nth_error_Some. congruence.
      * split; [lia|]. rewrite nth_error_app2 by lia. rewrite <- H2. f_equal. lia.
    + intros [H1 H2]. destruct (Nat.lt_ge_cases (Z.to_nat i) (length (l_cmp l))) as [G|G].
      * left. split; [exact H1|]. rewrite nth_error_app1 in H2 by exact G. exact H2.
      * right. rewrite nth_error_app2 in H2 by exact G. split; [lia|]. rewrite <- H2. f_equal. lia.
  - apply normalise_positive, PP.
  - apply normalise_separated, NN.
Qed.

Lemma resize_nth ls n p l : nth_error (resize ls n) p = Some l ->
  nth_error ls p = Some l \/ (length ls <= p /\ l = empty_lvl :> lvl).
Proof.
  unfold resize. intros H. destruct (Nat.lt_ge_cases p (length ls)) as [G|G].
  - left. rewrite nth_error_app1 in H by exact G. exact H.
  - right. split; [exact G|]. rewrite nth_error_app2 in H by exact G.
    apply nth_error_In, repeat_spec in H. exact H.
Qed.
Lemma resize_length ls n : length (resize ls n : list lvl) = Nat.max (length ls) n.
Proof. unfold resize. rewrite app_length, repeat_length. lia. Qed.

Lemma existsb_false {A} (f : A -> bool) l : existsb f l = false -> forall x, In x l -> f x = false.
Proof. intros H x Hx. destruct (f x) eqn:E; [|reflexivity]. assert (existsb f l = true) by (apply existsb_exists; exists x; auto). congruence. Qed.

Lemma nth_error_snoc {A} (l : list A) x k y : nth_error (l ++ [x]) k = Some y ->
  (k < length l /\ nth_error l k = Some y) \/ (k = length l /\ x = y).
Proof.
  intros H. destruct (Nat.lt_ge_cases k (length l)) as [G|G].
  - left. split; [exact G|]. rewrite nth_error_app1 in H by exact G. exact H.
  - right. rewrite nth_error_app2 in H by exact G. destruct (k - length l) as [|m] eqn:E.
    + split; [lia|]. cbn in H. congruence.
    + cbn in H. destruct m; discriminate H.
Qed.

Lemma firstn_snoc_lt {A} (l : list A) x k : k <= length l -> firstn k (l ++ [x]) = firstn k l.
Proof. intros H. rewrite firstn_app. replace (k - length l) with 0 by lia. cbn. apply app_nil_r. Qed.

Lemma hadd_spec s adds c p s' : inv s adds -> wf_ic c -> hadd feq s c p = Some s' ->
  inv s' (adds ++ [(c, p)]) /\ (forall l, In l (lvls s') -> l_rhs l = neutral_rhs (l_cons l)).
Proof.
  intros I W H. destruct I as [I1 I2 [I3 I3'] [I4 I4'] I5 I6 I7 I8]. unfold hadd in H.
  destruct (existsb _ _) eqn:Ex; [discriminate|].
  destruct (nth_error (resize (lvls s) (p + 1)) p) as [l|] eqn:El; [|discriminate].
  injection H as <-.
  assert (Hl : lvl_ok l (at_level adds p)).
  { destruct (resize_nth _ _ _ _ El) as [H|[H ->]]; [apply I6, H|].
    rewrite at_level_beyond; [apply empty_ok|]. rewrite <- I5. exact H. }
  assert (Hlen : p < length (resize (lvls s) (p + 1))) by (rewrite resize_length; lia).
  destruct (set_nth_spec (resize (lvls s) (p + 1)) p (push_con l c) Hlen) as (S1 & S2 & S3).
  assert (W' : forall d r, In (d, r) (adds ++ [(c, p)]) -> wf_ic d).
  { intros d r Hd. apply in_app_or in Hd as [Hd|[Hd|[]]]; [eapply I8, Hd|]. injection Hd as <- <-. exact W. }
  split.
  - constructor; cbn [hcons prio iqm ivm lvls update].
    + rewrite I1, map_app. reflexivity.
    + rewrite I2, map_app. reflexivity.
    + split; [rewrite !app_length, I3; reflexivity|]. intros k d r Hk.
      apply nth_error_snoc in Hk as [[G Hk]|[-> Hk]].
      * rewrite nth_error_app1 by lia. rewrite firstn_snoc_lt by lia. apply I3', Hk.
      * injection Hk as <- <-. rewrite nth_error_app2 by lia. rewrite I3, Nat.sub_diag, firstn_snoc_lt, firstn_all by lia. cbn.
        destruct Hl as (_ & -> & _). reflexivity.
    + split; [rewrite !app_length, I4; reflexivity|]. intros k d r Hk.
      apply nth_error_snoc in Hk as [[G Hk]|[-> Hk]].
      * rewrite nth_error_app1 by lia. rewrite firstn_snoc_lt by lia. apply I4', Hk.
      * injection Hk as <- <-. rewrite nth_error_app2 by lia. rewrite I4, Nat.sub_diag, firstn_snoc_lt, firstn_all by lia. cbn.
        destruct Hl as (_ & _ & -> & _). reflexivity.
    + rewrite map_length, S1, resize_length, nlevels_snoc, I5. lia.
    + intros p' l' H. rewrite nth_error_map in H.
      destruct (nth_error (set_nth _ p (push_con l c)) p') as [l0|] eqn:E0; [|discriminate]. cbn in H. injection H as <-.
      assert (Wl : forall d, In d (at_level (adds ++ [(c, p)]) p') -> wf_ic d) by (intros d Hd; apply at_level_In in Hd; eapply W', Hd).
      rewrite at_level_snoc in Wl |- *.
      destruct (Nat.eqb_spec p p') as [<-|Hp].
      * rewrite S2 in E0. injection E0 as <-.
        destruct (push_con_ok l (at_level adds p) c W Hl) as (B1 & B2 & B3 & B4 & B5 & B6 & B7 & B8).
        unfold lvl_ok, upd_lvl. cbn. rewrite B1, neutral_length by exact Wl. repeat (split; [assumption || reflexivity|]); (assumption || reflexivity).
      * rewrite S3 in E0 by auto. rewrite app_nil_r in *. apply upd_lvl_ok; [exact Wl|].
        destruct (resize_nth _ _ _ _ E0) as [H|[H ->]]; [apply I6, H|].
        rewrite at_level_beyond; [apply empty_ok|]. rewrite <- I5. exact H.
    + intros j k d r e t Hjk Hj Hk.
      apply nth_error_snoc in Hk as [[G Hk]|[-> Hk]].
      * rewrite nth_error_app1 in Hj by lia. exact (I7 _ _ _ _ _ _ Hjk Hj Hk).
      * injection Hk as <- <-. rewrite nth_error_app1 in Hj by lia.
        assert (HI : In (ic_f d, r) (prio s)).
        { rewrite I2. apply in_map_iff. exists (d, r). split; [reflexivity|]. eapply nth_error_In, Hj. }
        apply (existsb_false _ _ Ex (ic_f d, r)) in HI. exact HI.
    + exact W'.
  - intros l' H. cbn [lvls update] in H. apply in_map_iff in H as (l0 & <- & _). reflexivity.
Qed.

Lemma hadd_throws s adds c p : inv s adds ->
  (hadd feq s c p = None <-> exists d r, In (d, r) adds /\ feq (ic_f d) (ic_f c) = true).
Proof.
  intros I. unfold hadd. rewrite (inv_prio _ _ I). split.
  - destruct (existsb _ _) eqn:Ex.
    + intros _. apply existsb_exists in Ex as (x & Hx & Hf). apply in_map_iff in Hx as ([d r] & <- & Hd). exists d, r. auto.
    + destruct (nth_error _ p) as [l|] eqn:El; [discriminate|]. apply nth_error_None in El. rewrite resize_length in El. lia.
  - intros (d & r & Hd & Hf). replace (existsb _ _) with true; [reflexivity|]. symmetry. apply existsb_exists.
    exists (ic_f d, r). split; [|exact Hf]. apply in_map_iff. exists (d, r). auto.
Qed.

(** lookups *)
Lemma find_none {A} (m : list (F * A)) f : (forall x, In x m -> feq (fst x) f = false) -> find_f feq f m = None.
Proof. intros H. unfold find_f. destruct (find _ m) as [x|] eqn:E; [|reflexivity]. apply find_some in E as [E1 E2]. rewrite H in E2 by exact E1. discriminate. Qed.
Lemma find_nth {A} (m : list (F * A)) : forall f k g a, nth_error m k = Some (g, a) -> feq g f = true ->
  (forall j g' a', j < k -> nth_error m j = Some (g', a') -> feq g' f = false) -> find_f feq f m = Some a.
Proof.
  unfold find_f. induction m as [|[g0 a0] m IH]; intros f k g a Hk Hf Hb; [destruct k; discriminate|].
  cbn. destruct k as [|k]; cbn in Hk.
  - injection Hk as -> ->. rewrite Hf. reflexivity.
  - rewrite (Hb 0 g0 a0) by (try lia; reflexivity). apply (IH f k g a Hk Hf). intros j g' a' Hj. apply (Hb (S j)). lia.
Qed.

Definition unique_match (adds : list (ic * nat)) (f : F) (k : nat) : Prop :=
  (exists c p, nth_error adds k = Some (c, p) /\ feq (ic_f c) f = true) /\
  (forall j c p, j < k -> nth_error adds j = Some (c, p) -> feq (ic_f c) f = false).

Lemma lookups s adds f k c p : inv s adds -> nth_error adds k = Some (c, p) -> feq (ic_f c) f = true ->
  (forall j c p, j < k -> nth_error adds j = Some (c, p) -> feq (ic_f c) f = false) ->
  find_f feq f (prio s) = Some p /\ find_f feq f (iqm s) = Some (sum_nq (at_level (firstn k adds) p)) /\
  find_f feq f (ivm s) = Some (sum_nv (at_level (firstn k adds) p)).
Proof.
  intros I Hk Hf Hb. assert (Hkl : k < length adds) by (apply nth_error_Some; congruence).
  split; [|split].
  - rewrite (inv_prio _ _ I). eapply (find_nth _ f k (ic_f c) p); [rewrite nth_error_map, Hk; reflexivity | exact Hf |].
    intros j g a Hj Hn. rewrite nth_error_map in Hn. destruct (nth_error adds j) as [[d r]|] eqn:E; [|discriminate].
    cbn in Hn. injection Hn as <- <-. eapply Hb; eassumption.
  - destruct (inv_iq _ _ I) as [L H]. eapply (find_nth _ f k); [apply H, Hk | exact Hf |].
    intros j g a Hj Hn. destruct (nth_error adds j) as [[d r]|] eqn:E.
    + rewrite (H _ _ _ E) in Hn. injection Hn as <- <-. eapply Hb; eassumption.
    + apply nth_error_None in E. lia.
  - destruct (inv_iv _ _ I) as [L H]. eapply (find_nth _ f k); [apply H, Hk | exact Hf |].
    intros j g a Hj Hn. destruct (nth_error adds j) as [[d r]|] eqn:E.
    + rewrite (H _ _ _ E) in Hn. injection Hn as <- <-. eapply Hb; eassumption.
    + apply nth_error_None in E. lia.
Qed.
Lemma lookups_none s adds f : inv s adds -> (forall c p, In (c, p) adds -> feq (ic_f c) f = false) ->
  find_f feq f (prio s) = None /\ find_f feq f (iqm s) = None.
Proof.
  intros I H. split; apply find_none; intros x Hx.
  - rewrite (inv_prio _ _ I) in Hx. apply in_map_iff in Hx as ([c p] & <- & Hc). eapply H, Hc.
  - destruct (inv_iq _ _ I) as [L Hq]. apply In_nth_error in Hx as [k Hk].
    destruct (nth_error adds k) as [[c p]|] eqn:E.
    + rewrite (Hq _ _ _ E) in Hk. injection Hk as <-. cbn. eapply H, nth_error_In, E.
    + apply nth_error_None in E. assert (k < length (iqm s)) by (apply nth_error_Some; congruence). lia.
Qed.

(** segments *)
Lemma set_segment_length {A} (v : list A) i x r : set_segment v i x = Some r -> length r = length v.
Proof.
  unfold set_segment. destruct (Nat.leb_spec (i + length x) (length v)); [|discriminate].
  intros E. injection E as <-. rewrite !app_length, firstn_length, skipn_length. lia.
Qed.
Lemma set_segment_get {A} (v : list A) i x r : set_segment v i x = Some r -> segment r i (length x) = Some x.
Proof.
  intros E. assert (L := set_segment_length _ _ _ _ E). unfold set_segment in E.
  destruct (Nat.leb_spec (i + length x) (length v)); [|discriminate]. injection E as <-.
  unfold segment. rewrite L. destruct (Nat.leb_spec (i + length x) (length v)); [|lia]. f_equal.
  rewrite skipn_exact by (rewrite firstn_length; lia). apply firstn_exact. reflexivity.
Qed.
Lemma nth_error_firstn_lt {A} (l : list A) : forall n k, k < n -> nth_error (firstn n l) k = nth_error l k.
Proof. induction l as [|a l IH]; intros [|n] [|k] H; cbn; try reflexivity; try lia. apply IH. lia. Qed.
Lemma nth_error_skipn_plus {A} (l : list A) : forall i k, nth_error (skipn i l) k = nth_error l (i + k).
Proof. induction l as [|a l IH]; intros [|i] k; cbn; try reflexivity; [destruct k; reflexivity|apply IH]. Qed.
Lemma nth_error_set_segment {A} (v : list A) i x r k : set_segment v i x = Some r -> k < i \/ i + length x <= k ->
  nth_error r k = nth_error v k.
Proof.
  unfold set_segment. destruct (Nat.leb_spec (i + length x) (length v)) as [L|]; [|discriminate].
  intros E H. injection E as <-. assert (Lf : length (firstn i v) = i) by (rewrite firstn_length; lia).
  destruct H as [H|H].
  - rewrite nth_error_app1 by lia. apply nth_error_firstn_lt, H.
  - rewrite nth_error_app2 by lia. rewrite nth_error_app2 by lia. rewrite nth_error_skipn_plus. f_equal. lia.
Qed.
Lemma set_segment_other {A} (v : list A) i x r j n : set_segment v i x = Some r -> j + n <= i \/ i + length x <= j ->
  segment r j n = segment v j n.
Proof.
  intros E H. assert (L := set_segment_length _ _ _ _ E). unfold segment. rewrite L.
  destruct (Nat.leb_spec (j + n) (length v)) as [G|]; [|reflexivity]. f_equal.
  apply nth_error_ext. intros k. destruct (Nat.lt_ge_cases k n) as [Gk|Gk].
  - rewrite !nth_error_firstn_lt, !nth_error_skipn_plus by exact Gk.
    eapply nth_error_set_segment; [exact E|]. lia.
  - rewrite !(proj2 (nth_error_None _ _)); [reflexivity| |]; rewrite firstn_length; lia.
Qed.

(** offsets *)
Lemma sum_nq_le a b p : sum_nq (at_level a p : list ic) <= sum_nq (at_level (a ++ b) p).
Proof. rewrite at_level_app, sum_nq_app. lia. Qed.
Lemma firstn_S_nth {A} (l : list A) k x : nth_error l k = Some x -> firstn (S k) l = firstn k l ++ [x].
Proof.
  revert k. induction l as [|a l IH]; intros [|k] H; try discriminate.
  - cbn in *. congruence.
  - cbn in H. change (firstn (S (S k)) (a :: l)) with (a :: firstn (S k) l). rewrite (IH k H). reflexivity.
Qed.
Lemma offset_end adds k c p : nth_error (adds : list (ic * nat)) k = Some (c, p) ->
  sum_nq (at_level (firstn k adds) p) + s_nq (ic_s c) = sum_nq (at_level (firstn (S k) adds) p).
Proof.
  intros H. rewrite (firstn_S_nth _ _ _ H), at_level_snoc, Nat.eqb_refl, sum_nq_app, sum_nq_one. reflexivity.
Qed.
Lemma offset_mono adds j k p : j <= k -> sum_nq (at_level (firstn j (adds : list (ic * nat))) p) <= sum_nq (at_level (firstn k adds) p).
Proof.
  intros H. replace (firstn k adds) with (firstn j adds ++ firstn (k - j) (skipn j adds)); [apply sum_nq_le|].
  rewrite <- (firstn_skipn j (firstn k adds)) at 1. rewrite firstn_firstn, Nat.min_l by exact H.
  f_equal. symmetry.
  apply nth_error_ext. intros i. rewrite nth_error_skipn_plus.
  destruct (Nat.lt_ge_cases i (k - j)) as [G|G].
  - rewrite !nth_error_firstn_lt by lia. rewrite nth_error_skipn_plus. reflexivity.
  - rewrite !(proj2 (nth_error_None _ _)); [reflexivity| |]; rewrite ?firstn_length, ?skipn_length; lia.
Qed.
Lemma offset_total adds k p : sum_nq (at_level (firstn k (adds : list (ic * nat))) p) <= sum_nq (at_level adds p).
Proof. rewrite <- (firstn_skipn k adds) at 2. apply sum_nq_le. Qed.

End P.
