(** Proofs about right hand sides of explicit constraint sets (C19-C21). *)
From Coq Require Import ZArith List Bool Lia Floats.SpecFloat.
From Verif Require Import SegModel SegSpec SegProofs ViewModel ViewProofs EcsModel EcsSpec EcsSolveProofs EcsMainProofs EcsFinalProofs EcsRhsModel EcsRhsSpec NanModel NanProofs.
Import ListNotations.
Open Scope Z_scope.

Lemma eq_rows_props l : forall i,
  positive (eq_rows i l) /\
  (forall j, covers (eq_rows i l) j <-> i <= j /\ nth_error l (Z.to_nat (j - i)) = Some Equality).
Proof.
  induction l as [|t l IH]; intros i.
  - split; [intros s []|]. intros j. split; [intros (s & [] & _)|].
    intros [_ H]. destruct (Z.to_nat (j - i)); discriminate H.
  - destruct (IH (i + 1)) as [P C].
    assert (Hk : forall j, i < j -> nth_error (t :: l) (Z.to_nat (j - i)) = nth_error l (Z.to_nat (j - (i + 1)))).
    { intros j Hj. replace (Z.to_nat (j - i)) with (S (Z.to_nat (j - (i + 1)))) by lia. reflexivity. }
    assert (Hn : t <> Equality -> forall j, covers (eq_rows (i + 1) l) j <-> i <= j /\ nth_error (t :: l) (Z.to_nat (j - i)) = Some Equality).
    { intros Ht j. rewrite C. split.
      - intros [H1 H2]. split; [lia|]. rewrite Hk by lia. exact H2.
      - intros [H1 H2]. destruct (Z.eq_dec i j) as [<-|].
        + rewrite Z.sub_diag in H2. cbn in H2. congruence.
        + rewrite Hk in H2 by lia. split; [lia|exact H2]. }
    destruct t; cbn [eq_rows].
    2-4: (split; [exact P|]; apply Hn; discriminate).
    split.
    + intros s [<-|H]; [cbn; lia | apply P, H].
    + intros j. rewrite covers_cons, C. unfold in_seg; cbn [fst snd]. split.
      * intros [H|[H1 H2]].
        -- assert (j = i) by lia. subst. rewrite Z.sub_diag. split; [lia|reflexivity].
        -- split; [lia|]. rewrite Hk by lia. exact H2.
      * intros [H1 H2]. destruct (Z.eq_dec i j) as [<-|]; [left; lia|].
        right. rewrite Hk in H2 by lia. split; [lia|exact H2].
Qed.

Lemma Forall2_len {A B} (R : A -> B -> Prop) l1 l2 : Forall2 R l1 l2 -> length l1 = length l2.
Proof. induction 1; cbn; lia. Qed.

Section P.
Context {V : Type}.
Variable zero : V.
Notation imp := (imp V).
Variable mem : imp -> list V -> Prop.
Variable okq : (Z -> V) -> Prop.

Lemma mask_spec (c : imp) v : length (s_cmp c) = s_nv c -> length v = s_nv c ->
  mask zero c v = Some (keep_eq zero (s_cmp c) v).
Proof.
  intros L1 L2. unfold mask.
  destruct (eq_rows_props (s_cmp c) 0) as [P C].
  assert (N : nonneg (eq_rows 0 (s_cmp c))) by (apply positive_nonneg, P).
  assert (ND : NoDup (indices (eq_idx c))).
  { apply disjoint_indices_NoDup; [apply sorted_separated_disjoint, normalise_separated, N | apply normalise_nonneg, N]. }
  assert (Cov : forall i, In i (indices (eq_idx c)) <-> 0 <= i /\ nth_error (s_cmp c) (Z.to_nat i) = Some Equality).
  { intros i. rewrite In_indices. unfold eq_idx. rewrite normalise_covers by exact N. rewrite C, Z.sub_0_r. reflexivity. }
  rewrite vread_indices.
  destruct (vwrite_spec (eq_idx c) (fun _ => zero) (map (to_fun zero v) (indices (eq_idx c)))) as (w & Hw & H1 & H2).
  { apply normalise_nonneg, N. }
  { exact ND. }
  { rewrite map_length. symmetry. apply cardinal_indices, normalise_nonneg, N. }
  rewrite Hw. f_equal. rewrite vread_indices in H1.
  apply (nth_ext _ _ zero zero).
  { unfold to_list, keep_eq. rewrite !map_length, seq_length, combine_length. lia. }
  unfold to_list. rewrite map_length, seq_length. intros k Hk.
  rewrite (nth_indep _ zero (w (Z.of_nat 0))) by (rewrite map_length, seq_length; exact Hk).
  rewrite (map_nth (fun k => w (Z.of_nat k))), seq_nth by exact Hk. cbn [Nat.add].
  unfold keep_eq.
  rewrite (nth_indep _ zero ((fun p : cmp * V => match fst p with Equality => snd p | _ => zero end) (Inferior, zero)))
    by (rewrite map_length, combine_length; lia).
  rewrite (map_nth (fun p : cmp * V => match fst p with Equality => snd p | _ => zero end)).
  rewrite combine_nth by lia. cbn [fst snd].
  destruct (in_dec Z.eq_dec (Z.of_nat k) (indices (eq_idx c))) as [HI|HN].
  - pose proof (proj1 (Cov _) HI) as [_ HE]. rewrite Nat2Z.id in HE.
    rewrite (nth_error_nth _ _ _ HE).
    destruct (In_nth_error _ _ HI) as [p Hp].
    assert (Q : nth_error (map w (indices (eq_idx c))) p = Some (w (Z.of_nat k))) by (apply map_nth_error, Hp).
    rewrite H1 in Q. rewrite (map_nth_error _ _ _ Hp) in Q. injection Q as Q. rewrite <- Q.
    unfold to_fun. destruct (Z.ltb_spec (Z.of_nat k) 0); [lia|]. rewrite Nat2Z.id. reflexivity.
  - rewrite H2 by (rewrite <- In_indices; exact HN).
    destruct (nth k (s_cmp c) Inferior) eqn:E; try reflexivity.
    exfalso. apply HN, Cov. split; [lia|]. rewrite Nat2Z.id.
    rewrite <- E. apply nth_error_nth'. lia.
Qed.

Lemma project_spec (c : imp) x : wf_imp zero mem okq c -> mem c x ->
  project zero c x = Some (proj zero c x) /\ mem c (proj zero c x) /\
  proj zero c (proj zero c x) = proj zero c x.
Proof.
  intros (W1 & W0 & W2 & W3 & W4 & W5 & _) L. unfold project. rewrite (W0 _ L), Nat.eqb_refl, mask_spec by auto.
  split; [reflexivity|]. split.
  - apply W3. unfold keep_eq. rewrite map_length, combine_length, W1, W2 by exact L. lia.
  - unfold proj at 1. rewrite W5 by exact L. unfold proj. f_equal.
    unfold keep_eq. assert (L2 : length (s_log c x) = length (s_cmp c)) by (rewrite W1, W2; auto).
    revert L2. generalize (s_log c x) as v, (s_cmp c) as t.
    intros v t; revert v. induction t as [|a t IH]; intros [|b v] H; try discriminate H; [reflexivity|].
    cbn. rewrite IH by (cbn in H; lia). destruct a; reflexivity.
Qed.

Lemma set_nth_spec {A} (l : list A) : forall i x, (i < length l)%nat ->
  length (set_nth l i x) = length l /\ nth_error (set_nth l i x) i = Some x /\
  (forall k, k <> i -> nth_error (set_nth l i x) k = nth_error l k).
Proof.
  induction l as [|y l IH]; intros i x H; [cbn in H; lia|].
  destruct i as [|i]; cbn.
  - split; [reflexivity|]. split; [reflexivity|]. intros [|k] Hk; [lia|reflexivity].
  - destruct (IH i x) as (A1 & A2 & A3); [cbn in H; lia|].
    split; [lia|]. split; [exact A2|]. intros [|k] Hk; [reflexivity|]. apply A3. lia.
Qed.
Lemma set_nth_same {A} (l : list A) : forall i x, nth_error l i = Some x -> set_nth l i x = l.
Proof. induction l as [|y l IH]; intros [|i] x H; cbn in *; try discriminate; [congruence|]. rewrite IH by exact H. reflexivity. Qed.

Lemma set_rhs_spec (cs : list imp) rl i c x : length rl = length cs ->
  nth_error cs i = Some c -> wf_imp zero mem okq c -> mem c x ->
  exists rl', set_rhs zero cs rl i x = Some rl' /\ length rl' = length cs /\
    nth_error rl' i = Some (proj zero c x) /\
    (forall k, k <> i -> nth_error rl' k = nth_error rl k) /\
    set_rhs zero cs rl' i (proj zero c x) = Some rl'.
Proof.
  intros L Hc W Lx. unfold set_rhs. rewrite Hc.
  destruct (project_spec c x W Lx) as (P1 & P2 & P3). rewrite P1.
  destruct (set_nth_spec rl i (proj zero c x)) as (A1 & A2 & A3).
  { rewrite L. apply nth_error_Some. congruence. }
  eexists. split; [reflexivity|]. split; [lia|]. split; [exact A2|]. split; [exact A3|].
  destruct (project_spec c (proj zero c x) W P2) as (Q1 & _). rewrite Q1, P3.
  f_equal. apply set_nth_same, A2.
Qed.

(** find_idx *)
Lemma find_idx_spec same n : forall i,
  match find_idx same n i with
  | Some k => (i <= k < i + n)%nat /\ same k = true /\ forall j, (i <= j < k)%nat -> same j = false
  | None => forall j, (i <= j < i + n)%nat -> same j = false
  end.
Proof.
  induction n as [|n IH]; intros i; cbn; [intros; lia|].
  destruct (same i) eqn:E.
  - split; [lia|]. split; [exact E|]. intros; lia.
  - specialize (IH (S i)). destruct (find_idx same n (S i)) as [k|].
    + destruct IH as (A & B & C). split; [lia|]. split; [exact B|].
      intros j Hj. destruct (Nat.eq_dec j i) as [->|]; [exact E|]. apply C; lia.
    + intros j Hj. destruct (Nat.eq_dec j i) as [->|]; [exact E|]. apply IH; lia.
Qed.

Lemma set_get_con same (cs : list imp) rl x i c : length rl = length cs ->
  nth_error cs i = Some c -> same i = true -> (forall j, (j < i)%nat -> same j = false) ->
  wf_imp zero mem okq c -> mem c x ->
  exists rl', set_rhs_con zero same cs rl x = Some (rl', true) /\
    get_rhs_con same cs rl' = Some (proj zero c x) /\
    (forall k, k <> i -> nth_error rl' k = nth_error rl k).
Proof.
  intros L Hc S1 S2 W Lx.
  assert (F : find_idx same (length cs) 0 = Some i).
  { pose proof (find_idx_spec same (length cs) 0) as H.
    assert (Hi : (i < length cs)%nat) by (apply nth_error_Some; congruence).
    destruct (find_idx same (length cs) 0) as [k|].
    - destruct H as (A & B & C). f_equal. destruct (Nat.lt_trichotomy k i) as [Hk|[->|Hk]]; [|reflexivity|].
      + rewrite S2 in B by lia. discriminate.
      + rewrite C in S1 by lia. discriminate.
    - rewrite H in S1 by lia. discriminate. }
  unfold set_rhs_con, get_rhs_con. rewrite F.
  destruct (set_rhs_spec cs rl i c x L Hc W Lx) as (rl' & H1 & _ & H2 & H3 & _).
  rewrite H1. exists rl'. auto.
Qed.
Lemma set_con_missing same (cs : list imp) rl x :
  (forall j, (j < length cs)%nat -> same j = false) ->
  set_rhs_con zero same cs rl x = Some (rl, false) /\ get_rhs_con same cs rl = None.
Proof.
  intros H. unfold set_rhs_con, get_rhs_con.
  pose proof (find_idx_spec same (length cs) 0) as F.
  destruct (find_idx same (length cs) 0) as [k|]; [|auto].
  destruct F as (A & B & _). rewrite H in B by lia. discriminate.
Qed.

(** whole vectors *)
Lemma firstn_exact {A} n (x y : list A) : length x = n -> firstn n (x ++ y) = x.
Proof. intros <-. rewrite firstn_app, Nat.sub_diag, firstn_O, app_nil_r. apply firstn_all. Qed.
Lemma skipn_exact {A} n (x y : list A) : length x = n -> skipn n (x ++ y) = y.
Proof. intros <-. rewrite skipn_app, Nat.sub_diag, skipn_O, skipn_all. reflexivity. Qed.
Lemma map2_length {A B C} (f : A -> B -> C) : forall l l', length (map (fun p => f (fst p) (snd p)) (combine l l')) = Nat.min (length l) (length l').
Proof. intros. rewrite map_length, combine_length. reflexivity. Qed.

Notation projs := (projs zero).

Lemma set_all_spec (cs : list imp) : (forall c, In c cs -> wf_imp zero mem okq c) ->
  forall v, rhs_vector mem cs v ->
  set_all zero cs v = Some (projs cs (pieces cs v)) /\
  length (projs cs (pieces cs v)) = length cs /\
  length (concat (projs cs (pieces cs v))) = total_size cs /\
  set_all zero cs (concat (projs cs (pieces cs v))) = Some (projs cs (pieces cs v)) /\
  (forall i c r, nth_error cs i = Some c -> nth_error (projs cs (pieces cs v)) i = Some r -> mem c r /\ proj zero c r = r).
Proof.
  induction cs as [|c cs IH]; intros W v [L M].
  - destruct v; [|cbn in L; lia]. repeat split; intros; destruct i; discriminate.
  - change (total_size (c :: cs)) with (s_nq c + total_size cs)%nat in *. cbn [set_all pieces projs] in *.
    inversion M as [|? ? ? ? M1 M2]; subst.
    assert (Ls : length (skipn (s_nq c) v) = total_size cs) by (rewrite skipn_length; lia).
    assert (Wc := W c (or_introl eq_refl)).
    destruct (project_spec c _ Wc M1) as (P1 & P2 & P3).
    destruct (IH (fun d Hd => W d (or_intror Hd)) _ (conj Ls M2)) as (A1 & A2 & A3 & A4 & A5).
    assert (P4 : length (proj zero c (firstn (s_nq c) v)) = s_nq c) by (apply Wc, P2).
    replace (Nat.leb (s_nq c) (length v)) with true by (symmetry; apply Nat.leb_le; lia).
    rewrite P1, A1. unfold projs in *. cbn [map combine fst snd concat].
    split; [reflexivity|]. split; [cbn [length]; lia|]. split; [rewrite app_length; lia|].
    rewrite app_length.
    replace (Nat.leb _ _) with true by (symmetry; apply Nat.leb_le; rewrite P4; lia).
    set (x := proj zero c (firstn (s_nq c) v)) in *.
    rewrite (firstn_exact (s_nq c) x), (skipn_exact (s_nq c) x) by exact P4.
    destruct (project_spec c x Wc P2) as (Q1 & _).
    rewrite Q1, A4, P3. split; [reflexivity|].
    intros [|i] d r Hd Hr; cbn in Hd, Hr.
    + injection Hd as <-. injection Hr as <-. auto.
    + eapply A5; eassumption.
Qed.

Lemma projected_write_all (cs : list imp) : (forall c, In c cs -> wf_imp zero mem okq c) -> forall rl, length rl = length cs ->
  (forall i c r, nth_error cs i = Some c -> nth_error rl i = Some r -> mem c r /\ proj zero c r = r) ->
  set_all zero cs (concat rl) = Some rl.
Proof.
  induction cs as [|c cs IH]; intros W [|r rl] L H; try discriminate L; [reflexivity|].
  cbn [set_all concat]. destruct (H 0%nat c r eq_refl eq_refl) as [H1 H2].
  assert (Wc := W c (or_introl eq_refl)).
  assert (H3 : length r = s_nq c) by (apply Wc, H1).
  rewrite app_length. replace (Nat.leb _ _) with true by (symmetry; apply Nat.leb_le; lia).
  rewrite (firstn_exact (s_nq c) r), (skipn_exact (s_nq c) r) by exact H3.
  destruct (project_spec c r Wc H1) as (Q1 & _). rewrite Q1, H2.
  rewrite IH; [reflexivity| | |].
  - intros d Hd. apply W. right. exact Hd.
  - cbn in L. lia.
  - intros i d s A B. apply (H (S i) d s A B).
Qed.

Lemma reach_projected (cs : list imp) rl : (forall c, In c cs -> wf_imp zero mem okq c) -> rhs_reach zero mem okq cs rl ->
  length rl = length cs /\
  forall i c r, nth_error cs i = Some c -> nth_error rl i = Some r -> mem c r /\ proj zero c r = r.
Proof.
  intros W R. induction R as [|rl i c x rl' R IH Hc Hx E|v rl' Hv E|rl i q rl' R IH Hq E].
  - split; [apply map_length|]. intros i c r Hc Hr. rewrite (map_nth_error _ _ _ Hc) in Hr. injection Hr as <-.
    destruct (W c (nth_error_In _ _ Hc)) as (_ & _ & _ & _ & _ & _ & A & B). auto.
  - destruct IH as [L H]. unfold set_rhs in E. rewrite Hc in E.
    assert (Wc : wf_imp zero mem okq c) by (eapply W, nth_error_In, Hc).
    destruct (project_spec c x Wc Hx) as (P1 & P2 & P3).
    rewrite P1 in E. injection E as <-.
    destruct (set_nth_spec rl i (proj zero c x)) as (A1 & A2 & A3).
    { rewrite L. apply nth_error_Some. congruence. }
    split; [lia|]. intros k d r Hd Hr. destruct (Nat.eq_dec k i) as [->|Hk].
    + rewrite A2 in Hr. injection Hr as <-. rewrite Hc in Hd. injection Hd as <-. auto.
    + rewrite A3 in Hr by exact Hk. eapply H; eassumption.
  - destruct (set_all_spec cs W v Hv) as (A1 & A2 & _ & _ & A5). rewrite A1 in E. injection E as <-.
    split; [exact A2|exact A5].
  - destruct IH as [L H]. unfold from_input in E. destruct (nth_error cs i) as [c|] eqn:Hc; [|discriminate].
    assert (Wc : wf_imp zero mem okq c) by (eapply W, nth_error_In, Hc).
    assert (Lx : mem c (s_fun c q)) by (apply Wc, Hq).
    destruct (project_spec c _ Wc Lx) as (P1 & P2 & P3).
    rewrite P1 in E. injection E as <-.
    destruct (set_nth_spec rl i (proj zero c (s_fun c q))) as (A1 & A2 & A3).
    { rewrite L. apply nth_error_Some. congruence. }
    split; [lia|]. intros k d r Hd Hr. destruct (Nat.eq_dec k i) as [->|Hk].
    + rewrite A2 in Hr. injection Hr as <-. rewrite Hc in Hd. injection Hd as <-. auto.
    + rewrite A3 in Hr by exact Hk. eapply H; eassumption.
Qed.

Lemma write_back (cs : list imp) rl : (forall c, In c cs -> wf_imp zero mem okq c) -> rhs_reach zero mem okq cs rl ->
  set_all zero cs (get_all rl) = Some rl /\
  (forall i c r, nth_error cs i = Some c -> nth_error rl i = Some r -> set_rhs zero cs rl i r = Some rl).
Proof.
  intros W R. destruct (reach_projected cs rl W R) as [L H]. split.
  - apply projected_write_all; assumption.
  - intros i c r Hc Hr. unfold set_rhs. rewrite Hc. destruct (H i c r Hc Hr) as [A B].
    destruct (project_spec c r (W c (nth_error_In _ _ Hc)) A) as (P1 & _). rewrite P1, B.
    f_equal. apply set_nth_same, Hr.
Qed.

(** right hand sides from a configuration *)
Lemma nth_error_ext {A} (l1 : list A) : forall l2, (forall i, nth_error l1 i = nth_error l2 i) -> l1 = l2.
Proof.
  induction l1 as [|a l1 IH]; intros [|b l2] H; [reflexivity| | |].
  - discriminate (H 0%nat).
  - discriminate (H 0%nat).
  - f_equal; [specialize (H 0%nat); cbn in H; congruence | apply IH; intros i; apply (H (S i))].
Qed.
Lemma from_input_loop_spec (cs : list imp) q : okq q -> (forall c, In c cs -> wf_imp zero mem okq c) ->
  forall l rl, length rl = length cs -> (forall i, In i l -> (i < length cs)%nat) ->
  exists rl', from_input_loop zero cs q l rl = Some rl' /\ length rl' = length cs /\
    (forall i c, nth_error cs i = Some c -> In i l -> nth_error rl' i = Some (proj zero c (s_fun c q))) /\
    (forall i, ~ In i l -> nth_error rl' i = nth_error rl i).
Proof.
  intros OK W. induction l as [|i l IH]; intros rl L B.
  - exists rl. cbn. repeat split; auto. intros ? ? ? [].
  - cbn [from_input_loop]. unfold from_input.
    destruct (nth_error cs i) as [c|] eqn:Hc.
    2:{ apply nth_error_None in Hc. specialize (B i (or_introl eq_refl)). lia. }
    assert (Wc : wf_imp zero mem okq c) by (eapply W, nth_error_In, Hc).
    assert (Lx : mem c (s_fun c q)) by (apply Wc, OK).
    destruct (project_spec c _ Wc Lx) as (P1 & _). rewrite P1.
    destruct (set_nth_spec rl i (proj zero c (s_fun c q))) as (A1 & A2 & A3).
    { rewrite L. apply nth_error_Some. congruence. }
    destruct (IH (set_nth rl i (proj zero c (s_fun c q)))) as (rl' & E & L' & H1 & H2).
    { lia. } { intros k Hk. apply B. right. exact Hk. }
    exists rl'. split; [exact E|]. split; [exact L'|]. split.
    + intros k d Hd [<-|Hk]; [|apply H1; assumption].
      destruct (in_dec Nat.eq_dec i l) as [HI|HN]; [apply H1; assumption|].
      rewrite H2 by exact HN. rewrite Hc in Hd. injection Hd as <-. exact A2.
    + intros k Hk. rewrite H2 by (intros HI; apply Hk; right; exact HI). apply A3.
      intros ->. apply Hk. left. reflexivity.
Qed.
Lemma from_input_all_spec (cs : list imp) rl q : okq q -> (forall c, In c cs -> wf_imp zero mem okq c) -> length rl = length cs ->
  exists rl', from_input_all zero cs rl q = Some rl' /\ rl' = map (fun c => proj zero c (s_fun c q)) cs.
Proof.
  intros OK W L. destruct (from_input_loop_spec cs q OK W (seq 0 (length cs)) rl L) as (rl' & E & L' & H1 & _).
  { intros i Hi. apply in_seq in Hi. lia. }
  exists rl'. split; [exact E|].
  apply nth_error_ext. intros i. destruct (nth_error cs i) as [c|] eqn:Hc.
  - rewrite (H1 i c Hc). { symmetry. apply (map_nth_error (fun c => proj zero c (s_fun c q))), Hc. }
    apply in_seq. split; [lia|]. cbn. apply nth_error_Some. congruence.
  - rewrite (proj2 (nth_error_None rl' i)), (proj2 (nth_error_None (map _ _) i)); try reflexivity.
    + rewrite map_length. apply nth_error_None, Hc.
    + rewrite L'. apply nth_error_None, Hc.
Qed.

Lemma keep_eq_all t : forall v : list V, length v = length t -> (forall x, In x t -> x = Equality) -> keep_eq zero t v = v.
Proof.
  induction t as [|a t IH]; intros [|b v] L H; try discriminate L; [reflexivity|].
  unfold keep_eq in *. cbn. rewrite IH by (cbn in L; try lia; intros; apply H; right; assumption).
  rewrite (H a (or_introl eq_refl)). reflexivity.
Qed.

Lemma errors_nth (cs : list imp) : forall rl q, length rl = length cs ->
  length (errors cs rl q) = length cs /\
  forall i c r, nth_error cs i = Some c -> nth_error rl i = Some r -> nth_error (errors cs rl q) i = Some (s_minus c (s_fun c q) r).
Proof.
  induction cs as [|c cs IH]; intros [|r rl] q L; try discriminate L.
  - split; [reflexivity|]. intros [|i]; discriminate.
  - destruct (IH rl q) as [A B]; [cbn in L; lia|]. cbn [errors]. split; [cbn; lia|].
    intros [|i] d s Hd Hs; cbn in *; [congruence|]. apply B; assumption.
Qed.

Lemma no_residual_intro (cs : list imp) rl q : length rl = length cs -> (forall c, In c cs -> minus_refl zero mem c) ->
  (forall i c r, nth_error cs i = Some c -> nth_error rl i = Some r -> s_fun c q = r /\ mem c r) -> no_residual zero cs rl q.
Proof.
  revert rl. induction cs as [|c cs IH]; intros [|r rl] L M H; try discriminate L; constructor.
  - destruct (H 0%nat c r eq_refl eq_refl) as [-> Hr]. apply M; [left; reflexivity|exact Hr].
  - apply IH; [cbn in L; lia | intros; apply M; right; assumption | intros i d s A B; apply (H (S i) d s A B)].
Qed.
Lemma no_residual_errors (cs : list imp) rl q : no_residual zero cs rl q -> errors cs rl q = map (fun c => repeat zero (s_nv c)) cs.
Proof. induction 1 as [|c r cs rl E H IH]; cbn; [reflexivity|]. rewrite E, IH. reflexivity. Qed.

Section Ecs.
Variable iadd : Z -> Z -> Z.
Variables (P : con V (list V) -> Prop) (n m : Z).
Hypothesis F : family n m P.

Lemma from_config_solved (st : ecs V (list V)) (cs : list imp) rl q :
  reach iadd P n m st -> (forall c, In c (data st) -> sized c) -> okq q ->
  Forall2 (formulations_agree mem okq) (data st) cs -> (forall c, In c cs -> wf_imp zero mem okq c) ->
  (forall c t, In c cs -> In t (s_cmp c) -> t = Equality) ->
  (forall c, In c cs -> s_exp c (s_log c (s_fun c q)) = s_fun c q) ->
  (forall c, In c cs -> minus_refl zero mem c) ->
  length rl = length cs ->
  exists rl', from_input_all zero cs rl q = Some rl' /\
    satisfies_all q (combine (data st) rl') /\
    no_residual zero cs rl' q /\
    exists q', solve (with_rhs st rl') q = Some q' /\ forall i, q' i = q i.
Proof.
  intros R S OK A W E X M L.
  destruct (from_input_all_spec cs rl q OK W L) as (rl' & H1 & H2). exists rl'. split; [exact H1|].
  assert (H3 : rl' = map (fun c => s_fun c q) cs).
  { rewrite H2. apply map_ext_in. intros c Hc. unfold proj. rewrite keep_eq_all.
    - apply X, Hc.
    - destruct (W c Hc) as (W1 & _ & W2 & _ & W4 & _). rewrite W1, W2; auto.
    - intros t Ht. eapply E; eassumption. }
  assert (LD : length (data st) = length cs) by (eapply Forall2_len; exact A).
  assert (Sat : satisfies_all q (combine (data st) rl')).
  { intros c r Hin. rewrite H3 in Hin. clear - A Hin W OK.
    induction A as [|e d le ld Hed A IH]; [destruct Hin|]. cbn in Hin. destruct Hin as [Hin|Hin].
    - injection Hin as <- <-. apply Hed; [exact OK| |reflexivity]. apply (W d (or_introl eq_refl)), OK.
    - apply IH; [intros; apply W; right; assumption | exact Hin]. }
  assert (L' : length rl' = length cs) by (rewrite H3; apply map_length).
  split; [exact Sat|]. split.
  { apply no_residual_intro; try assumption. intros i c r Hc Hr. rewrite H3 in Hr.
    rewrite (map_nth_error _ _ _ Hc) in Hr. injection Hr as <-. split; [reflexivity|].
    apply (W c (nth_error_In _ _ Hc)), OK. }
  destruct (solve_spec iadd P n m F st rl' q R) as (q' & Q1 & Q2 & Q3); [lia|exact S|].
  exists q'. split; [exact Q1|]. intros i. symmetry. apply Q3. split; [exact Sat|]. reflexivity.
Qed.

Lemma solved_no_residual (st : ecs V (list V)) (cs : list imp) rl q q' :
  reach iadd P n m st -> (forall c, In c (data st) -> sized c) ->
  Forall2 (formulations_agree mem okq) (data st) cs -> (forall c, In c cs -> minus_refl zero mem c) ->
  length rl = length cs -> (forall i c r, nth_error cs i = Some c -> nth_error rl i = Some r -> mem c r) ->
  solve (with_rhs st rl) q = Some q' -> okq q' -> no_residual zero cs rl q'.
Proof.
  intros R S A M L Lr Hs OK.
  assert (LD : length (data st) = length cs) by (eapply Forall2_len; exact A).
  destruct (solve_spec iadd P n m F st rl q R) as (q2 & Q1 & [Q2 _] & _); [lia|exact S|].
  rewrite Hs in Q1. injection Q1 as <-.
  apply no_residual_intro; try assumption. intros i c r Hc Hr. split; [|eapply Lr; eassumption].
  assert (He : exists e, nth_error (data st) i = Some e /\ formulations_agree mem okq e c).
  { clear - A Hc. revert i Hc. induction A as [|e d le ld Hed A IH]; intros [|i] Hc; try discriminate Hc.
    - cbn in Hc. injection Hc as <-. exists e. split; [reflexivity|exact Hed].
    - apply IH, Hc. }
  destruct He as (e & He & Hag). apply (Hag q' r OK (Lr i c r Hc Hr)). apply Q2.
  clear - He Hr. revert i rl He Hr. generalize (data st) as l. induction l as [|a l IH]; intros [|i] [|b rl] He Hr; try discriminate.
  - cbn in *. injection He as ->. injection Hr as ->. left. reflexivity.
  - right. eapply IH; eassumption.
Qed.
End Ecs.

(** satisfaction *)
Section Sat.
Variable sqn : list V -> spec_float.
Lemma is_satisfied_spec (cs : list imp) rl q d thr : length rl = length cs ->
  (fst (is_satisfied sqn cs rl q d thr) = true <->
    flt fzero (fmul (eff_thr d thr) (eff_thr d thr)) = true /\
    forall i c r, nth_error cs i = Some c -> nth_error rl i = Some r ->
      isnan (sqn (s_minus c (s_fun c q) r)) = true \/
      flt (sqn (s_minus c (s_fun c q) r)) (fmul (eff_thr d thr) (eff_thr d thr)) = true) /\
  snd (is_satisfied sqn cs rl q d thr) = concat (map (fun p => s_minus (fst p) (s_fun (fst p) q) (snd p)) (combine cs rl)).
Proof.
  intros L. unfold is_satisfied. cbn [fst snd]. set (t := fmul _ _).
  assert (E : forall l a, fold_left (fun s e => fmax s (sqn e)) l a = fold_left fmax (map sqn l) a).
  { induction l as [|x l IH]; intros a; [reflexivity|]. cbn. apply IH. }
  rewrite E, fold_fmax_lt by reflexivity.
  destruct (errors_nth cs rl q L) as [A B]. split.
  - split; intros [H1 H2]; (split; [exact H1|]).
    + intros i c r Hc Hr. apply H2. apply in_map. eapply nth_error_In, B; eassumption.
    + intros x Hx. apply in_map_iff in Hx as (e & <- & He). apply In_nth_error in He as [i Hi].
      assert (Hl : (i < length cs)%nat) by (rewrite <- A; apply nth_error_Some; congruence).
      destruct (nth_error cs i) as [c|] eqn:Hc; [|apply nth_error_None in Hc; lia].
      destruct (nth_error rl i) as [r|] eqn:Hr; [|apply nth_error_None in Hr; lia].
      rewrite (B i c r Hc Hr) in Hi. injection Hi as <-. eapply H2; eassumption.
  - f_equal. clear - L. revert rl L. induction cs as [|c cs IH]; intros [|r rl] L; try discriminate L; [reflexivity|].
    cbn. rewrite IH by (cbn in L; lia). reflexivity.
Qed.
Lemma satisfied_no_residual (cs : list imp) rl q d thr :
  no_residual zero cs rl q -> (forall k, sqn (repeat zero k) = fzero) ->
  fst (is_satisfied sqn cs rl q d thr) = flt fzero (fmul (eff_thr d thr) (eff_thr d thr)).
Proof.
  intros N Z0. unfold is_satisfied. cbn [fst]. rewrite (no_residual_errors _ _ _ N). f_equal.
  clear - Z0. assert (H : forall l : list imp, fold_left (fun s e => fmax s (sqn e)) (map (fun c => repeat zero (s_nv c)) l) fzero = fzero).
  { induction l as [|c l IH]; [reflexivity|]. cbn. rewrite Z0. exact IH. }
  apply H.
Qed.
Lemma con_satisfied_spec same (cs : list imp) rl q d i c r : length rl = length cs ->
  nth_error cs i = Some c -> nth_error rl i = Some r -> same i = true -> (forall j, (j < i)%nat -> same j = false) ->
  con_satisfied sqn same cs rl q d =
    (flt (sqn (s_minus c (s_fun c q) r)) (fmul d d), true, Some (s_minus c (s_fun c q) r)).
Proof.
  intros L Hc Hr S1 S2.
  assert (E : find_idx same (length cs) 0 = Some i).
  { pose proof (find_idx_spec same (length cs) 0) as H.
    assert (Hi : (i < length cs)%nat) by (apply nth_error_Some; congruence).
    destruct (find_idx same (length cs) 0) as [k|].
    - destruct H as (A & B & C). f_equal. destruct (Nat.lt_trichotomy k i) as [Hk|[->|Hk]]; [|reflexivity|].
      + rewrite S2 in B by lia. discriminate.
      + rewrite C in S1 by lia. discriminate.
    - rewrite H in S1 by lia. discriminate. }
  unfold con_satisfied. rewrite E, Hc, Hr. reflexivity.
Qed.
End Sat.
End P.
