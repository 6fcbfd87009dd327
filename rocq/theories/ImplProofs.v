(** Proofs about Implicit (C24-C26). *)
From Coq Require Import ZArith List Bool Lia.
From Verif Require Import SegModel SegSpec SegProofs EcsModel EcsRhsModel EcsRhsSpec EcsRhsProofs ImplModel ImplSpec.
Import ListNotations.
Open Scope Z_scope.

Lemma true_segs_covers m : forall i j, covers (true_segs i m) j <-> i <= j /\ nth_error m (Z.to_nat (j - i)) = Some true.
Proof.
  induction m as [|b m IH]; intros i j; cbn [true_segs].
  - split; [intros (s & [] & _)|]. intros [_ H]. destruct (Z.to_nat (j - i)); discriminate H.
  - rewrite covers_app, IH.
    assert (E : covers (if b then [(i, 1)] else []) j <-> b = true /\ j = i).
    { destruct b; split.
      - intros (s & [<-|[]] & H). unfold in_seg in H. cbn in H. split; [reflexivity|lia].
      - intros [_ ->]. exists (i, 1). split; [left; reflexivity|]. unfold in_seg; cbn; lia.
      - intros (s & [] & _).
      - intros [H _]; discriminate H. }
    rewrite E. split.
    + intros [[-> ->]|[H1 H2]].
      * rewrite Z.sub_diag. split; [lia|reflexivity].
      * split; [lia|]. replace (Z.to_nat (j - i)) with (S (Z.to_nat (j - (i + 1)))) by lia. exact H2.
    + intros [H1 H2]. destruct (Z.eq_dec i j) as [<-|].
      * left. rewrite Z.sub_diag in H2. cbn in H2. split; [congruence|reflexivity].
      * right. split; [lia|]. replace (Z.to_nat (j - i)) with (S (Z.to_nat (j - (i + 1)))) in H2 by lia. exact H2.
Qed.
Lemma true_segs_ge m : forall i s, In s (true_segs i m) -> i <= fst s /\ snd s = 1.
Proof.
  induction m as [|b m IH]; intros i s H; [destruct H|]. cbn in H. apply in_app_or in H as [H|H].
  - destruct b; [destruct H as [<-|[]]; cbn; lia | destruct H].
  - apply IH in H. lia.
Qed.
Lemma true_segs_start m : forall i, chain start_le (true_segs i m).
Proof.
  induction m as [|b m IH]; intros i; cbn; [exact I|].
  destruct b; cbn [app]; [|apply IH]. split; [|apply IH].
  intros u Hu. apply true_segs_ge in Hu. unfold start_le. cbn. lia.
Qed.
Lemma true_segs_positive m i : positive (true_segs i m).
Proof. intros s H. apply true_segs_ge in H. lia. Qed.

Lemma shrink_true m i : covers (shrink (true_segs 0 m)) i <-> mask_is m i true.
Proof.
  rewrite shrink_covers; [| apply true_segs_start | apply positive_nonneg, true_segs_positive].
  rewrite true_segs_covers, Z.sub_0_r. reflexivity.
Qed.

(** appending the rows of an extended mask to the rows of the old one *)
Lemma shrink_from_ge rest : forall e1 i, chain start_le rest -> nonneg (e1 :: rest) ->
  fst e1 <= i -> in_seg e1 i \/ covers rest i -> covers (shrink_from e1 rest) i.
Proof.
  induction rest as [|e2 t IH]; intros e1 i C N G H; cbn [shrink_from].
  - destruct H as [H|H]; [|destruct H as (s & [] & _)]. exists e1. split; [left; reflexivity|exact H].
  - unfold comp_ft, send. destruct C as [C1 C2].
    destruct (Z.ltb_spec (fst e1 + snd e1) (fst e2)) as [L|L]; cbn [negb].
    + rewrite covers_cons. destruct H as [H|H]; [left; exact H|]. right.
      apply shrink_from_covers.
      * split; assumption.
      * intros s Hs. apply N. right. exact Hs.
      * exact H.
    + apply IH; [exact C2 | | exact G |].
      * intros s [<-|Hs]; cbn [snd].
        { assert (0 <= snd e1) by (apply N; left; reflexivity). lia. }
        { apply N. right. right. exact Hs. }
      * rewrite covers_cons in H. unfold in_seg in *. cbn [fst snd]. destruct H as [H|[H|H]]; [left; lia | left; lia | right; exact H].
Qed.
Lemma shrink_from_prefix a : forall e rest, sorted_separated (e :: a) ->
  exists l e', e :: a = l ++ [e'] /\ shrink_from e (a ++ rest) = l ++ shrink_from e' rest.
Proof.
  induction a as [|x a IH]; intros e rest S.
  - exists [], e. split; reflexivity.
  - destruct S as [S1 S2]. cbn [app shrink_from].
    destruct (IH x rest S2) as (l & e' & E1 & E2).
    exists (e :: l), e'. split; [rewrite E1; reflexivity|].
    assert (H := S1 x (or_introl eq_refl)). unfold separated in H.
    unfold comp_ft, send. destruct (Z.ltb_spec (fst e + snd e) (fst x)); [|lia]. cbn [negb app].
    rewrite E2. reflexivity.
Qed.

Lemma active_rows_extend old m1 m2 :
  (forall i, covers old i <-> mask_is m1 i true) -> sorted_separated old -> nonneg old -> positive old ->
  (forall i, covers (active_rows old (m1 ++ m2)) i <-> mask_is (m1 ++ m2) i true).
Proof.
  intros C S N P. unfold active_rows. intros i.
  assert (Sub : mask_is m1 i true -> mask_is (m1 ++ m2) i true).
  { intros [A B]. split; [exact A|]. rewrite nth_error_app1; [exact B|]. apply nth_error_Some. congruence. }
  split.
  - intros H. apply shrink_sound in H. apply covers_app in H. destruct H as [H|H].
    + apply Sub, C, H.
    + apply true_segs_covers in H. rewrite Z.sub_0_r in H. exact H.
  - intros H. destruct old as [|e a].
    + cbn [app]. apply shrink_true, H.
    + cbn [app shrink]. destruct (shrink_from_prefix a e (true_segs 0 (m1 ++ m2)) S) as (l & e' & E1 & E2).
      rewrite E2, covers_app.
      assert (Cov : covers (l ++ [e']) i \/ ~ covers (e :: a) i).
      { rewrite <- E1. destruct H as [H1 H2]. destruct (nth_error m1 (Z.to_nat i)) as [b|] eqn:Eb.
        - assert (Some b = Some true).
          { rewrite <- Eb, <- H2. symmetry. apply nth_error_app1. apply nth_error_Some. congruence. }
          left. apply C. split; [exact H1|congruence].
        - right. intros Hc. apply C in Hc. destruct Hc. congruence. }
      assert (He' : fst e' <= i \/ covers l i \/ i < fst e' /\ ~ covers l i).
      { destruct (Z_le_gt_dec (fst e') i); [left; lia|].
        destruct (existsb (fun s => (fst s <=? i) && (i <? send s)) l) eqn:Ex.
        - right; left. apply existsb_exists in Ex as (s & Hs & Hb). exists s. split; [exact Hs|].
          apply andb_prop in Hb as [B1 B2]. unfold in_seg, send in *. lia.
        - right; right. split; [lia|]. intros (s & Hs & Hi). assert (existsb (fun s => (fst s <=? i) && (i <? send s)) l = true).
          { apply existsb_exists. exists s. split; [exact Hs|]. unfold in_seg, send in *. apply andb_true_intro. lia. }
          congruence. }
      destruct He' as [G|[G|[G1 G2]]]; [right | left; exact G | exfalso].
      * apply shrink_from_ge; [apply true_segs_start | | exact G |].
        { intros s [<-|Hs]; [|apply true_segs_ge in Hs; lia]. apply N. rewrite E1. apply in_or_app. right. left. reflexivity. }
        right. apply true_segs_covers. rewrite Z.sub_0_r. exact H.
      * (* i before the last old segment but not covered by old: i is inside the old mask *)
        assert (He : 0 < snd e') by (apply P; rewrite E1; apply in_or_app; right; left; reflexivity).
        assert (Hm : mask_is m1 (fst e') true).
        { apply C. rewrite E1. exists e'. split; [apply in_or_app; right; left; reflexivity|]. unfold in_seg. lia. }
        destruct Hm as [M1 M2]. destruct H as [H1 H2].
        assert (Z.to_nat (fst e') < length m1)%nat by (apply nth_error_Some; congruence).
        rewrite nth_error_app1 in H2 by lia.
        assert (Hc : covers (e :: a) i) by (apply C; split; assumption).
        rewrite E1, covers_app in Hc. destruct Hc as [Hc|(s & [<-|[]] & Hc)]; [exact (G2 Hc)|]. unfold in_seg in Hc. lia.
Qed.

Lemma ineq_rows_spec l : forall k i, In i (ineq_rows k l) <-> k <= i /\
  (nth_error l (Z.to_nat (i - k)) = Some Superior \/ nth_error l (Z.to_nat (i - k)) = Some Inferior).
Proof.
  induction l as [|t l IH]; intros k i.
  - cbn. split; [intros []|]. intros [_ [H|H]]; destruct (Z.to_nat (i - k)); discriminate H.
  - assert (Hk : k < i -> nth_error (t :: l) (Z.to_nat (i - k)) = nth_error l (Z.to_nat (i - (k + 1)))).
    { intros Hi. replace (Z.to_nat (i - k)) with (S (Z.to_nat (i - (k + 1)))) by lia. reflexivity. }
    assert (H0 : nth_error (t :: l) (Z.to_nat (k - k)) = Some t) by (rewrite Z.sub_diag; reflexivity).
    assert (Hn : In i (ineq_rows (k + 1) l) <-> k < i /\
      (nth_error (t :: l) (Z.to_nat (i - k)) = Some Superior \/ nth_error (t :: l) (Z.to_nat (i - k)) = Some Inferior)).
    { rewrite IH. split; intros [A B]; (split; [lia|]); rewrite Hk in * by lia; exact B. }
    destruct t; cbn [ineq_rows In]; rewrite Hn; split; intros H.
    + destruct H as [A B]. split; [lia|exact B].
    + destruct H as [A B]. destruct (Z.eq_dec k i) as [<-|]; [rewrite H0 in B; destruct B; discriminate | split; [lia|exact B]].
    + destruct H as [A B]. split; [lia|exact B].
    + destruct H as [A B]. destruct (Z.eq_dec k i) as [<-|]; [rewrite H0 in B; destruct B; discriminate | split; [lia|exact B]].
    + destruct H as [<-|[A B]]; [split; [lia|left; exact H0] | split; [lia|exact B]].
    + destruct H as [A B]. destruct (Z.eq_dec k i) as [<-|]; [left; reflexivity | right; split; [lia|exact B]].
    + destruct H as [<-|[A B]]; [split; [lia|right; exact H0] | split; [lia|exact B]].
    + destruct H as [A B]. destruct (Z.eq_dec k i) as [<-|]; [left; reflexivity | right; split; [lia|exact B]].
Qed.

Lemma indices_ok (comp : list cmp) :
  (forall i, In i (ineq_rows 0 comp) <-> row_is comp i Superior \/ row_is comp i Inferior) /\
  (forall i, covers (eq_segs comp) i <-> row_is comp i Equality) /\ sorted_separated (eq_segs comp).
Proof.
  destruct (eq_rows_props comp 0) as [P C]. assert (N := positive_nonneg _ P).
  split; [|split].
  - intros i. rewrite ineq_rows_spec, Z.sub_0_r. unfold row_is. tauto.
  - intros i. unfold eq_segs. rewrite normalise_covers by exact N. rewrite C, Z.sub_0_r. reflexivity.
  - apply normalise_separated, N.
Qed.
Lemma mask_rows_ok mask :
  (forall i, covers (active_rows [] mask) i <-> mask_is mask i true) /\
  (forall i, covers (inactive_rows mask) i <-> mask_is mask i false) /\
  sorted_separated (active_rows [] mask) /\ sorted_separated (inactive_rows mask) /\ positive (active_rows [] mask).
Proof.
  unfold active_rows, inactive_rows. cbn [app]. split; [|split; [|split; [|split]]].
  - apply shrink_true.
  - intros i. rewrite shrink_true. unfold mask_is. rewrite nth_error_map.
    destruct (nth_error mask (Z.to_nat i)) as [[]|]; cbn; intuition congruence.
  - apply shrink_separated, positive_nonneg, true_segs_positive.
  - apply shrink_separated, positive_nonneg, true_segs_positive.
  - apply shrink_positive, true_segs_positive.
Qed.
Lemma param_size_count l : param_size l = count_eq l.
Proof. unfold count_eq. induction l as [|[] l IH]; cbn; auto. Qed.

Lemma impl_new_ok {F} (f : F) n comp mask : rows_ok (impl_new f n comp mask) /\ m_psize (impl_new f n comp mask) = count_eq comp.
Proof.
  destruct (mask_rows_ok mask) as (A & B & C & D & _), (indices_ok comp) as (E & G & H).
  split; [repeat (split; try assumption)|]. apply param_size_count.
Qed.
Lemma impl_reach_ok {F} (c : impl F) : impl_reach c -> rows_ok c /\ m_psize c = count_eq (m_cmp c).
Proof.
  induction 1 as [f n comp mask | c comp R IH | c R IH | c R IH].
  - apply impl_new_ok.
  - destruct IH as [(A & B & C & D & _) _], (indices_ok comp) as (E & G & H).
    split; [repeat (split; try assumption)|]. apply param_size_count.
  - exact IH.
  - apply (impl_new_ok (m_fun c) (m_rhs c) (m_cmp c) (m_mask c)).
Qed.
Lemma impl_positive {F} (c : impl F) : impl_reach c -> positive (m_active c).
Proof. induction 1; cbn; auto; apply mask_rows_ok. Qed.

Lemma set_reach_ok {F} (s : impl F) l : set_reach s l ->
  rows_ok s /\ m_cmp s = concat (map m_cmp l) /\ m_mask s = concat (map m_mask l) /\ m_psize s = O /\ positive (m_active s).
Proof.
  induction 1 as [f | s l c R IH Rc].
  - split; [apply (impl_new_ok f 0 [] [])|]. repeat split. intros ? [].
  - destruct IH as ((A & B & C & D & _) & E1 & E2 & E3 & P).
    destruct (indices_ok (m_cmp s ++ m_cmp c)) as (I1 & I2 & I3).
    destruct (mask_rows_ok (m_mask s ++ m_mask c)) as (_ & M2 & _ & M4 & _).
    assert (N : nonneg (m_active s ++ true_segs 0 (m_mask s ++ m_mask c))).
    { apply nonneg_app. split; apply positive_nonneg; [exact P | apply true_segs_positive]. }
    split; [|split; [|split; [|split]]].
    + split; [|split; [exact M2|split; [|split; [exact M4|split; [exact I1|split; [exact I2|exact I3]]]]]].
      * apply active_rows_extend; try assumption. apply positive_nonneg, P.
      * apply shrink_separated, N.
    + cbn [m_cmp set_add]. rewrite E1, map_app, concat_app. cbn. rewrite app_nil_r. reflexivity.
    + cbn [m_mask set_add]. rewrite E2, map_app, concat_app. cbn. rewrite app_nil_r. reflexivity.
    + exact E3.
    + apply shrink_positive. apply positive_app. split; [exact P | apply true_segs_positive].
Qed.

(** equality *)
Lemma cmp_eqb_eq a b : cmp_eqb a b = true <-> a = b.
Proof. destruct a, b; cbn; split; congruence. Qed.
Lemma cmps_eqb_eq a : forall b, cmps_eqb a b = true <-> a = b.
Proof.
  induction a as [|x a IH]; intros [|y b]; cbn; try (split; congruence).
  rewrite andb_true_iff, cmp_eqb_eq, IH. split; [intros [-> ->]; reflexivity | intros H; injection H; auto].
Qed.
Lemma is_equal1_spec {F} (feq : F -> F -> bool) a b :
  is_equal1 feq a b = true <-> m_cmp a = m_cmp b /\ m_rhs a = m_rhs b /\ feq (m_fun a) (m_fun b) = true.
Proof.
  unfold is_equal1. rewrite <- cmps_eqb_eq, <- Nat.eqb_eq.
  destruct (cmps_eqb (m_cmp a) (m_cmp b)), (Nat.eqb (m_rhs a) (m_rhs b)), (feq (m_fun a) (m_fun b)); cbn; intuition congruence.
Qed.
Lemma is_equal_spec {F} (feq : F -> F -> bool) a b :
  is_equal feq a b = true <-> m_cmp a = m_cmp b /\ m_rhs a = m_rhs b /\ feq (m_fun a) (m_fun b) = true /\ feq (m_fun b) (m_fun a) = true.
Proof.
  unfold is_equal. pose proof (is_equal1_spec feq a b) as A. pose proof (is_equal1_spec feq b a) as B.
  destruct (is_equal1 feq a b).
  - rewrite B. destruct (proj1 A eq_refl) as (X & Y & Z). rewrite X, Y, Z. intuition.
  - split; [discriminate|]. intros (X & Y & Z & _). apply A. auto.
Qed.
Lemma is_equal_equiv {F} (feq : F -> F -> bool) :
  (forall a b : impl F, is_equal feq a b = is_equal feq b a) /\
  ((forall f, feq f f = true) -> forall a : impl F, is_equal feq a a = true) /\
  ((forall f g h, feq f g = true -> feq g h = true -> feq f h = true) ->
    forall a b c : impl F, is_equal feq a b = true -> is_equal feq b c = true -> is_equal feq a c = true).
Proof.
  split; [|split].
  - intros a b. apply eq_true_iff_eq. rewrite !is_equal_spec. intuition.
  - intros R a. apply is_equal_spec. auto.
  - intros T a b c H1 H2. apply is_equal_spec in H1 as (A1 & A2 & A3 & A4). apply is_equal_spec in H2 as (B1 & B2 & B3 & B4).
    apply is_equal_spec. repeat split; try congruence; eapply T; eassumption.
Qed.
Lemma mask_ignored {F} (feq : F -> F -> bool) (f : F) n comp m1 m2 : feq f f = true ->
  is_equal feq (impl_new f n comp m1) (impl_new f n comp m2) = true.
Proof. intros R. apply is_equal_spec. cbn. auto. Qed.

Lemma segs_eqb_eq a : forall b, segs_eqb a b = true <-> a = b.
Proof.
  induction a as [|[x1 x2] a IH]; intros [|[y1 y2] b]; cbn; try (split; congruence).
  unfold seg_eqb. cbn. rewrite !andb_true_iff, !Z.eqb_eq, IH. split; [intros [[-> ->] ->]; reflexivity | intros H; injection H; auto].
Qed.
Lemma expl_eqb_eq a b : expl_eqb a b = true <-> a = b.
Proof.
  unfold expl_eqb. rewrite !andb_true_iff, !segs_eqb_eq, Nat.eqb_eq. destruct a, b; cbn.
  split; [intros ((((-> & ->) & ->) & ->) & ->); reflexivity | intros H; injection H; intuition].
Qed.
Lemma lock_eqb_eq a b : lock_eqb a b = true <-> a = b.
Proof.
  unfold lock_eqb. rewrite !andb_true_iff, !Nat.eqb_eq, !Z.eqb_eq. destruct a, b; cbn.
  split; [intros (((-> & ->) & ->) & ->); reflexivity | intros H; injection H; intuition].
Qed.
Lemma eq_con_spec {F} (feq : F -> F -> bool) (a b : kcon F) : eq_con feq a b = true <-> same_constraint feq a b.
Proof.
  unfold eq_con, eq_noswap, same_constraint, as_explicit.
  destruct (kc_k a) as [|e|e l], (kc_k b) as [|e'|e' l'];
    rewrite ?andb_true_iff, ?is_equal1_spec, ?expl_eqb_eq, ?lock_eqb_eq; intuition (try congruence).
Qed.
Lemma eq_con_equiv {F} (feq : F -> F -> bool) :
  ((forall f g, feq f g = true -> feq g f = true) -> forall a b : kcon F, eq_con feq a b = eq_con feq b a) /\
  ((forall f, feq f f = true) -> forall a : kcon F, eq_con feq a a = true) /\
  ((forall f g h, feq f g = true -> feq g h = true -> feq f h = true) ->
    forall a b c : kcon F, eq_con feq a b = true -> eq_con feq b c = true -> eq_con feq a c = true).
Proof.
  split; [|split].
  - intros S a b. apply eq_true_iff_eq. rewrite !eq_con_spec. unfold same_constraint.
    destruct (kc_k a) as [|e|e l], (kc_k b) as [|e'|e' l']; intuition.
  - intros R a. apply eq_con_spec. unfold same_constraint. destruct (kc_k a); auto.
  - intros T a b c H1 H2. apply eq_con_spec in H1. apply eq_con_spec in H2. apply eq_con_spec. unfold same_constraint in *.
    destruct H1 as (A1 & A2 & A3 & A4), H2 as (B1 & B2 & B3 & B4).
    split; [congruence|]. split; [congruence|]. split; [eapply T; eassumption|].
    destruct (kc_k a) as [|e|e l], (kc_k b) as [|e'|e' l'], (kc_k c) as [|e''|e'' l'']; try contradiction; try congruence.
    + eapply T; eassumption.
    + destruct A4, B4. split; [congruence | eapply T; eassumption].
Qed.
Lemma eq_con_ignores {F} (feq : F -> F -> bool) (a : kcon F) mask act inact : (forall f, feq f f = true) ->
  let i := kc_i a in
  eq_con feq a (mkkcon (mkimpl (m_cmp i) (m_rhs i) (m_psize i) (m_fun i) mask act inact (m_ineq i) (m_eq i)) (kc_k a)) = true.
Proof. intros R i. apply eq_con_spec. unfold same_constraint. cbn. destruct (kc_k a); auto. Qed.

(** right hand side *)
Section Rhs.
Context {V : Type}.
Variable zero : V.
Variable mem : imp V -> list V -> Prop.
Variable okq : (Z -> V) -> Prop.
Variable nz : V -> bool.
Hypothesis nz0 : nz zero = false.

Lemma keep_eq_check t : forall v : list V, length v = length t ->
  forallb (fun p => match fst p with Equality => true | _ => negb (nz (snd p)) end) (combine t (keep_eq zero t v)) = true.
Proof.
  unfold keep_eq. induction t as [|a t IH]; intros [|b v] L; try discriminate L; [reflexivity|].
  cbn. rewrite IH by (cbn in L; lia). destruct a; cbn; rewrite ?nz0; reflexivity.
Qed.
Lemma rhs_from_config_spec (c : imp V) q : wf_imp zero mem okq c -> okq q ->
  exists r, rhs_from_config zero c q = Some r /\ mem c r /\
    s_log c r = keep_eq zero (s_cmp c) (s_log c (s_fun c q)) /\
    check_rhs nz true c r = true /\
    ((forall t, In t (s_cmp c) -> t = Equality) -> s_exp c (s_log c (s_fun c q)) = s_fun c q ->
     minus_refl zero mem c -> r = s_fun c q /\ s_minus c (s_fun c q) r = repeat zero (s_nv c)).
Proof.
  intros W OK. assert (W' := W). destruct W' as (W1 & W0 & W2 & W3 & W4 & W5 & W6 & W7).
  destruct (project_spec zero mem okq c (s_fun c q) W (W4 q OK)) as (P1 & P2 & P3).
  exists (proj zero c (s_fun c q)). split; [exact P1|]. split; [exact P2|].
  assert (L : s_log c (proj zero c (s_fun c q)) = keep_eq zero (s_cmp c) (s_log c (s_fun c q))) by (apply W5, W4, OK).
  assert (Ln : length (s_log c (s_fun c q)) = length (s_cmp c)) by (rewrite W1, W2; auto).
  split; [exact L|]. split.
  - unfold check_rhs. rewrite L. apply keep_eq_check, Ln.
  - intros E X M. assert (R : proj zero c (s_fun c q) = s_fun c q).
    { unfold proj. rewrite keep_eq_all; assumption. }
    split; [exact R|]. rewrite R. apply M, W4, OK.
Qed.
Lemma check_rhs_spec (c : imp V) r : length (s_cmp c) = length (s_log c r) -> (forall x, nz x = false -> x = zero) ->
  (check_rhs nz true c r = true <->
   forall k t x, nth_error (s_cmp c) k = Some t -> nth_error (s_log c r) k = Some x -> t = Equality \/ x = zero).
Proof.
  intros L Z0. unfold check_rhs. cbn [andb]. rewrite forallb_forall. split.
  - intros H k t x Ht Hx. assert (HI : In (t, x) (combine (s_cmp c) (s_log c r))).
    { revert k Ht Hx. generalize (s_cmp c), (s_log c r). induction l as [|a l IH]; intros [|b l0] [|k] Ht Hx; try discriminate.
      - cbn in *. injection Ht as ->. injection Hx as ->. left. reflexivity.
      - right. eapply IH; eassumption. }
    apply H in HI. cbn in HI. destruct t; [left; reflexivity|right|right|right];
      apply Z0, negb_true_iff; exact HI.
  - intros H [t x] HI. apply In_nth_error in HI as [k Hk]. cbn.
    assert (HK : nth_error (s_cmp c) k = Some t /\ nth_error (s_log c r) k = Some x).
    { revert k Hk. generalize (s_cmp c), (s_log c r). induction l as [|a l IH]; intros [|b l0] [|k] Hk; try discriminate.
      - cbn in *. injection Hk as -> ->. auto.
      - apply IH in Hk. exact Hk. }
    destruct HK as [A B]. destruct (H k t x A B) as [->| ->]; [reflexivity|]. rewrite nz0. destruct t; reflexivity.
Qed.
End Rhs.
