From Coq Require Import ZArith List Bool Reals Lia.
From Verif Require Import SegSpec SegModel EcsModel EcsSpec EcsRhsModel EcsRhsSpec EcsRhsProofs EcsMainProofs EcsFinalProofs
  ImplModel ImplSpec ImplProofs HierModel HierSpec HierProofs HierRhsProofs BySubModel BySubSpec BySubProofs BySubRhsProofs
  FdModel FdProofs TimeModel TimeSpec.
Import ListNotations.
Local Open Scope nat_scope.

(** One constraint *)
Section One.
Context {F V : Type}.
Notation tcon := (tcon F V).

Lemma set_fun_none (c : tcon) : set_fun c None = Some (mktcon (tc_i c) (tc_space c) None (tc_out c)).
Proof. reflexivity. Qed.
Lemma not_equality l : existsb (fun t => negb (cmp_eqb t Equality)) l = true <-> exists t, In t l /\ t <> Equality.
Proof.
  rewrite existsb_exists. split; intros (t & H & E); exists t; (split; [exact H|]); destruct t; cbn in *; congruence.
Qed.
Lemma set_fun_spec (c : tcon) (f : tfun V) :
  (set_fun c (Some f) = None <-> tf_in f <> 1 \/ tf_inv f <> 1 \/ tf_space f <> tc_space c \/ exists t, In t (m_cmp (tc_i c)) /\ t <> Equality) /\
  (forall c', set_fun c (Some f) = Some c' -> tc_fun c' = Some f /\ tc_i c' = tc_i c /\ tc_space c' = tc_space c /\ tc_out c' = tc_out c).
Proof.
  cbn [set_fun]. destruct (Nat.eqb_spec (tf_in f) 1) as [E1|E1]; cbn [negb orb]; [|split; [tauto|discriminate]].
  destruct (Nat.eqb_spec (tf_inv f) 1) as [E2|E2]; cbn [negb orb]; [|split; [tauto|discriminate]].
  destruct (Nat.eqb_spec (tf_space f) (tc_space c)) as [E3|E3]; cbn [negb]; [|split; [tauto|discriminate]].
  destruct (existsb _ (m_cmp (tc_i c))) eqn:E4.
  - apply not_equality in E4. split; [tauto|discriminate].
  - split.
    + split; [discriminate|]. intros [H|[H|[H|H]]]; try contradiction. apply not_equality in H. congruence.
    + intros c' H. injection H as <-. cbn. auto.
Qed.

Definition good (c : tcon) : Prop := match tc_fun c with None => True | Some f => tf_in f = 1 /\ tf_inv f = 1 /\ tf_space f = tc_space c end.
Lemma tstep_space (c : tcon) o : tc_space (tstep c o) = tc_space c.
Proof.
  destruct o as [[f|]|comp|v|t]; cbn [tstep]; try reflexivity.
  - destruct (set_fun c (Some f)) as [c'|] eqn:E; [|reflexivity]. apply (proj2 (set_fun_spec c f)) in E. tauto.
  - unfold at_time. destruct (tc_fun c); reflexivity.
Qed.
Lemma tstep_good (c : tcon) o : good c -> good (tstep c o).
Proof.
  intros G. destruct o as [[f|]|comp|v|t]; cbn [tstep]; try exact G.
  - destruct (set_fun c (Some f)) as [c'|] eqn:E; [|exact G]. destruct (set_fun_spec c f) as [S1 S2].
    destruct (S2 _ E) as (A & B & C & D). unfold good. rewrite A.
    assert (N : ~ (tf_in f <> 1 \/ tf_inv f <> 1 \/ tf_space f <> tc_space c \/ exists t, In t (m_cmp (tc_i c)) /\ t <> Equality)).
    { rewrite <- S1, E. discriminate. }
    rewrite C. repeat split; lia.
  - exact I.
  - unfold at_time, good in *. destruct (tc_fun c) as [f|] eqn:E; cbn; rewrite ?E; exact G.
Qed.
Definition eqs (c : tcon) : Prop := match tc_fun c with None => True | Some _ => all_equality (m_cmp (tc_i c)) end.
Lemma tstep_eqs (c : tcon) o : (forall comp, o <> SetType comp) -> eqs c -> eqs (tstep c o).
Proof.
  intros N G. destruct o as [[f|]|comp|v|t]; cbn [tstep]; try exact G.
  - destruct (set_fun c (Some f)) as [c'|] eqn:E; [|exact G]. destruct (set_fun_spec c f) as [S1 S2].
    destruct (S2 _ E) as (A & B & C & D). unfold eqs. rewrite A, B. intros t Ht.
    destruct t; try reflexivity; exfalso; assert (set_fun c (Some f) = None) by (apply S1; right; right; right; eexists; split; [exact Ht|discriminate]); congruence.
  - exact I.
  - contradiction (N comp eq_refl).
  - unfold at_time, eqs in *. destruct (tc_fun c) as [f|] eqn:E; cbn; rewrite ?E; exact G.
Qed.
Lemma run_good (i : impl F) space o (l : list (top V)) f :
  tc_fun (fold_left tstep l (new_con i space o)) = Some f ->
  tf_in f = 1 /\ tf_inv f = 1 /\ tf_space f = space /\
  (no_type_change l -> m_cmp (tc_i (fold_left tstep l (new_con i space o))) = m_cmp i /\ all_equality (m_cmp i)).
Proof.
  intros H.
  assert (G : good (fold_left tstep l (new_con i space o)) /\ tc_space (fold_left tstep l (new_con i space o)) = space).
  { assert (G0 : good (new_con i space o)) by exact I. assert (S0 : tc_space (new_con i space o) = space) by reflexivity.
    revert G0 S0. generalize (new_con i space o). clear H.
    induction l as [|a l IH]; intros c G0 S0; [split; assumption|]. cbn [fold_left]. apply IH; [apply tstep_good, G0|rewrite tstep_space; exact S0]. }
  destruct G as [G S]. unfold good in G. rewrite H, S in G. destruct G as (G1 & G2 & G3). repeat (split; [assumption|]).
  intros N.
  assert (E : eqs (fold_left tstep l (new_con i space o)) /\ m_cmp (tc_i (fold_left tstep l (new_con i space o))) = m_cmp i).
  { assert (G0 : eqs (new_con i space o)) by exact I. assert (S0 : m_cmp (tc_i (new_con i space o)) = m_cmp i) by reflexivity.
    revert G0 S0. clear H G1 G2 G3 S. generalize (new_con i space o).
    induction l as [|a l IH]; intros c G0 S0; [split; assumption|]. cbn [fold_left].
    assert (Na : forall comp, a <> SetType comp) by (intros comp ->; exact (N comp (or_introl eq_refl))).
    apply IH; [intros comp Hc; exact (N comp (or_intror Hc))|apply tstep_eqs; assumption|].
    rewrite <- S0. destruct a as [[g|]|comp|v|t]; cbn [tstep]; try reflexivity.
    - destruct (set_fun c (Some g)) as [c'|] eqn:E; [|reflexivity]. apply (proj2 (set_fun_spec c g)) in E. destruct E as (_ & -> & _). reflexivity.
    - contradiction (Na comp eq_refl).
    - unfold at_time. destruct (tc_fun c); reflexivity. }
  destruct E as [E1 E2]. split; [exact E2|]. unfold eqs in E1. rewrite H, E2 in E1. exact E1.
Qed.
Lemma at_time_spec (c : tcon) t : 
  (forall f, tc_fun c = Some f -> snd (at_time c t) = tf_val f t) /\
  (tc_fun c = None -> at_time c t = (c, tc_out c)) /\
  tc_i (fst (at_time c t)) = tc_i c /\ tc_fun (fst (at_time c t)) = tc_fun c.
Proof.
  unfold at_time. destruct (tc_fun c) as [f|] eqn:E; cbn.
  - split; [intros f' H; congruence|]. split; [discriminate|]. auto.
  - split; [discriminate|]. rewrite E. auto.
Qed.
End One.

(** The loop of the solver, for any solver whose setter changes one constraint *)
Section Loop.
Context {V St C O : Type}.
Variables (set : St -> C -> list V -> option (St * bool)) (psize : C -> nat) (get : St -> C -> O) (val : nat -> list V -> O).
Variables (Inv : St -> Prop) (l : list C) (ok : nat -> list V -> Prop).
Hypothesis step : forall s k c x, Inv s -> nth_error l k = Some c -> ok k x ->
  exists s', set s c x = Some (s', true) /\ Inv s' /\ get s' c = val k x /\
    forall j d, j <> k -> nth_error l j = Some d -> get s' d = get s d.

Lemma at_all_spec t : forall suf pre s gs, l = pre ++ suf -> Inv s -> length gs = length suf ->
  (forall i c g, nth_error suf i = Some c -> nth_error gs i = Some (Some g) -> psize c <> 0 -> ok (length pre + i) (g t)) ->
  exists s', at_all set psize s (combine suf gs) t = Some s' /\ Inv s' /\
    (forall j d, j < length pre -> nth_error l j = Some d -> get s' d = get s d) /\
    (forall i c g, nth_error suf i = Some c -> nth_error gs i = Some (Some g) -> psize c <> 0 -> get s' c = val (length pre + i) (g t)) /\
    (forall i c, nth_error suf i = Some c -> nth_error gs i = Some None \/ psize c = 0 -> get s' c = get s c).
Proof.
  induction suf as [|c suf IH]; intros pre s gs El I Lg OK.
  - exists s. cbn. split; [reflexivity|]. split; [exact I|]. split; [reflexivity|]. split; intros [|i]; discriminate.
  - destruct gs as [|g gs]; [discriminate|]. cbn [length] in Lg.
    assert (El' : l = (pre ++ [c]) ++ suf) by (rewrite <- app_assoc; exact El).
    assert (Lp : length (pre ++ [c]) = S (length pre)) by (rewrite app_length; cbn; lia).
    assert (Hc : nth_error l (length pre) = Some c) by (rewrite El, nth_error_app2, Nat.sub_diag by lia; reflexivity).
    assert (OK' : forall i d h, nth_error suf i = Some d -> nth_error gs i = Some (Some h) -> psize d <> 0 -> ok (length (pre ++ [c]) + i) (h t)).
    { intros i d h H1 H2 H3. rewrite Lp, Nat.add_succ_comm. exact (OK (S i) d h H1 H2 H3). }
    assert (Skip : (g = None \/ psize c = 0) -> exists s', at_all set psize s (combine suf gs) t = Some s' /\ Inv s' /\
      (forall j d, j < length pre -> nth_error l j = Some d -> get s' d = get s d) /\
      (forall i d h, nth_error (c :: suf) i = Some d -> nth_error (g :: gs) i = Some (Some h) -> psize d <> 0 -> get s' d = val (length pre + i) (h t)) /\
      (forall i d, nth_error (c :: suf) i = Some d -> nth_error (g :: gs) i = Some None \/ psize d = 0 -> get s' d = get s d)).
    { intros Hg. destruct (IH (pre ++ [c]) s gs El' I ltac:(lia) OK') as (s' & A1 & A2 & A3 & A4 & A5).
      exists s'. split; [exact A1|]. split; [exact A2|]. split; [intros j d Hj; apply A3; lia|]. split.
      - intros [|i] d h H1 H2 H3; cbn in H1, H2; [destruct Hg; congruence|]. rewrite <- Nat.add_succ_comm, <- Lp. exact (A4 i d h H1 H2 H3).
      - intros [|i] d H1 H2; cbn in H1, H2; [|exact (A5 i d H1 H2)]. injection H1 as <-. apply A3 with (j := length pre); [lia|exact Hc]. }
    cbn [combine at_all]. destruct g as [f|]; [|apply Skip; auto].
    destruct (Nat.eqb_spec (psize c) 0) as [E0|E0]; cbn [negb]; [apply Skip; auto|].
    destruct (step s (length pre) c (f t) I Hc) as (s1 & S1 & S2 & S3 & S4).
    { rewrite <- (Nat.add_0_r (length pre)). exact (OK 0 c f eq_refl eq_refl E0). }
    rewrite S1. destruct (IH (pre ++ [c]) s1 gs El' S2 ltac:(lia) OK') as (s' & A1 & A2 & A3 & A4 & A5).
    exists s'. split; [exact A1|]. split; [exact A2|]. split.
    { intros j d Hj Hd. rewrite (A3 j d) by (lia || exact Hd). apply S4 with (j := j); [lia|exact Hd]. }
    assert (Hsuf : forall i d, nth_error suf i = Some d -> nth_error l (S (length pre + i)) = Some d).
    { intros i d H. rewrite El', nth_error_app2, Lp by lia. rewrite <- H. f_equal. lia. }
    split.
    + intros [|i] d h H1 H2 H3; cbn in H1, H2.
      * injection H1 as <-. injection H2 as <-. rewrite Nat.add_0_r. rewrite (A3 (length pre) c) by (lia || exact Hc). exact S3.
      * rewrite <- Nat.add_succ_comm, <- Lp. exact (A4 i d h H1 H2 H3).
    + intros [|i] d H1 H2; cbn in H1, H2; [injection H1 as <-; destruct H2; [discriminate|contradiction]|].
      rewrite (A5 i d H1 H2). apply S4 with (j := S (length pre + i)); [lia|apply Hsuf, H1].
Qed.
End Loop.

Lemma at_all_ext {V St C} (set : St -> C -> list V -> option (St * bool)) psize t u : forall cs gs hs s,
  (forall i, match nth_error gs i, nth_error hs i with
             | Some (Some g), Some (Some h) => g t = h u | Some None, Some None => True | None, None => True | _, _ => False end) ->
  at_all set psize s (combine cs gs) t = at_all set psize s (combine cs hs) u.
Proof.
  induction cs as [|c cs IH]; intros [|g gs] [|h hs] s H; try reflexivity; try (specialize (H 0); cbn in H; try destruct g; try destruct h; contradiction).
  assert (H' := fun i => H (S i)). specialize (H 0). cbn in H, H'. cbn [combine at_all].
  destruct g as [g|], h as [h|]; try contradiction; [|apply IH, H'].
  destruct (negb _); [|apply IH, H']. rewrite H. destruct (set s c (h u)) as [[s' b]|]; [apply IH, H'|reflexivity].
Qed.

(** parameterSize *)
Lemma param_size_in l : param_size l <> 0 <-> In Equality l.
Proof.
  induction l as [|t l IH]; cbn; [tauto|]. destruct t; cbn; try (rewrite IH; split; [tauto|intros [H|H]; [discriminate|exact H]]). split; [auto|lia].
Qed.
Lemma reach_psize {F} (c : impl F) : impl_reach c -> m_psize c = param_size (m_cmp c).
Proof. induction 1; cbn; congruence. Qed.

(** The hierarchical solver *)
Section Hier.
Context {F V : Type}.
Variables (feq : F -> F -> bool) (zero : V) (mem : imp V -> list V -> Prop) (okq : (Z -> V) -> Prop).
Hypothesis EQ : equivalence feq.
Notation hreach := (hreach feq zero mem okq).

Definition same_but_rhs (s s' : hs F V) : Prop :=
  hcons s' = hcons s /\ prio s' = prio s /\ iqm s' = iqm s /\ ivm s' = ivm s /\ last_optional s' = last_optional s /\
  map l_cons (lvls s') = map l_cons (lvls s) /\ map l_cmp (lvls s') = map l_cmp (lvls s).

Lemma psize_varies s adds k c p : hreach s adds -> nth_error adds k = Some (c, p) -> (m_psize (ic_i c) <> 0 <-> In Equality (m_cmp (ic_i c))).
Proof.
  intros R Hk. assert (I := hreach_inv _ _ _ _ _ _ R). destruct (inv_wf _ _ _ _ _ _ I c p (nth_error_In _ _ Hk)) as (_ & _ & W & _).
  rewrite (reach_psize _ W). apply param_size_in.
Qed.

Lemma hier_at_spec s adds gs t : hreach s adds -> length gs = length adds ->
  (forall k c p g, nth_error adds k = Some (c, p) -> varies gs k c g -> length (g t) = s_nq (ic_s c)) ->
  exists s', hier_at feq s gs t = Some s' /\ hreach s' adds /\
    (forall k c p g, nth_error adds k = Some (c, p) -> varies gs k c g -> get_rhs_of feq s' (ic_f c) (s_nq (ic_s c)) = Some (Some (g t))) /\
    (forall k c p, nth_error adds k = Some (c, p) -> (forall g, ~ varies gs k c g) ->
       get_rhs_of feq s' (ic_f c) (s_nq (ic_s c)) = get_rhs_of feq s (ic_f c) (s_nq (ic_s c))) /\
    hcons s' = hcons s /\ prio s' = prio s /\ iqm s' = iqm s /\ ivm s' = ivm s /\ last_optional s' = last_optional s /\
    map l_cons (lvls s') = map l_cons (lvls s) /\ map l_cmp (lvls s') = map l_cmp (lvls s).
Proof.
  intros R Lg Hg.
  assert (Hc : hcons s = map fst adds) by (apply (proj1 (layout feq zero mem okq EQ s adds R))).
  destruct (at_all_spec (fun s (c : ic F V) x => set_rhs_of feq s (ic_f c) x) (fun c => m_psize (ic_i c))
    (fun s c => get_rhs_of feq s (ic_f c) (s_nq (ic_s c))) (fun _ x => Some (Some x))
    (fun s' => hreach s' adds /\ same_but_rhs s s') (map fst adds)
    (fun k x => forall c p, nth_error adds k = Some (c, p) -> length x = s_nq (ic_s c))) with (t := t) (suf := map fst adds) (pre := @nil (ic F V)) (s := s) (gs := gs)
    as (s' & A1 & (A2 & A2') & _ & A4 & A5).
  - intros s0 k c x [R0 S0] Hk Hx. rewrite nth_error_map in Hk. destruct (nth_error adds k) as [[c' p]|] eqn:Ek; [|discriminate]. injection Hk as <-.
    destruct (set_get feq zero mem okq EQ s0 adds k c' p (ic_f c') x R0 Ek (proj1 EQ _) (Hx _ _ eq_refl)) as (s1 & B1 & B2 & B3 & B4 & B5).
    exists s1. split; [exact B1|]. split.
    { split; [exact B2|]. unfold same_but_rhs in *. destruct S0 as (S1 & S2 & S3 & S4 & S5 & S6 & S7). destruct B5 as (T1 & T2 & T3 & T4 & T5 & T6 & T7).
      repeat split; congruence. }
    split; [exact B3|]. intros j d Hj Hd. rewrite nth_error_map in Hd. destruct (nth_error adds j) as [[d' r]|] eqn:Ed; [|discriminate]. injection Hd as <-.
    exact (B4 j d' r Hj Ed).
  - reflexivity.
  - split; [exact R|]. unfold same_but_rhs. repeat split.
  - rewrite map_length. exact Lg.
  - intros i c g H1 H2 H3 c0 p H0. cbn [length Nat.add] in H0. rewrite nth_error_map, H0 in H1. injection H1 as <-.
    apply (Hg i c0 p g H0). split; [exact H2|]. apply (psize_varies s adds i c0 p R H0), H3.
  - exists s'. unfold hier_at. rewrite Hc. split; [exact A1|]. split; [exact A2|]. split; [|split; [|rewrite <- Hc; exact A2']].
    + intros k c p g Hk [V1 V2]. apply (A4 k c g); [rewrite nth_error_map, Hk; reflexivity|exact V1|]. apply (psize_varies s adds k c p R Hk), V2.
    + intros k c p Hk NV. apply (A5 k c); [rewrite nth_error_map, Hk; reflexivity|].
      destruct (nth_error gs k) as [[g|]|] eqn:Eg; [right|left; reflexivity|].
      * destruct (Nat.eq_dec (m_psize (ic_i c)) 0) as [|N]; [assumption|]. exfalso. apply (NV g). split; [exact Eg|]. apply (psize_varies s adds k c p R Hk), N.
      * exfalso. apply nth_error_None in Eg. assert (k < length adds) by (apply nth_error_Some; congruence). lia.
Qed.

Lemma varies_dec (gs : list (option (V -> list V))) k (c : ic F V) : (exists g, varies gs k c g) \/ (forall g, ~ varies gs k c g).
Proof.
  destruct (nth_error gs k) as [[g|]|] eqn:E; [|right; intros g [H _]; congruence|right; intros g [H _]; congruence].
  destruct (in_dec (fun a b : cmp => ltac:(decide equality) : {a = b} + {a <> b}) Equality (m_cmp (ic_i c))) as [H|H].
  - left. exists g. split; assumption.
  - right. intros g' [_ H']. contradiction.
Qed.
Lemma varies_fun (gs : list (option (V -> list V))) k (c : ic F V) g h : varies gs k c g -> varies gs k c h -> g = h.
Proof. intros [A _] [B _]. congruence. Qed.

Lemma hier_history s adds gs t u : hreach s adds -> length gs = length adds ->
  (forall v k c p g, nth_error adds k = Some (c, p) -> varies gs k c g -> length (g v) = s_nq (ic_s c)) ->
  exists s1 s2 s3, hier_at feq s gs t = Some s1 /\ hier_at feq s1 gs u = Some s2 /\ hier_at feq s gs u = Some s3 /\
  forall k c p, nth_error adds k = Some (c, p) -> get_rhs_of feq s2 (ic_f c) (s_nq (ic_s c)) = get_rhs_of feq s3 (ic_f c) (s_nq (ic_s c)).
Proof.
  intros R Lg Hg.
  destruct (hier_at_spec s adds gs t R Lg (Hg t)) as (s1 & A1 & A2 & A3 & A4 & _).
  destruct (hier_at_spec s1 adds gs u A2 Lg (Hg u)) as (s2 & B1 & B2 & B3 & B4 & _).
  destruct (hier_at_spec s adds gs u R Lg (Hg u)) as (s3 & C1 & C2 & C3 & C4 & _).
  exists s1, s2, s3. repeat (split; [assumption|]). intros k c p Hk.
  destruct (varies_dec gs k c) as [[g W]|NV].
  - rewrite (B3 k c p g Hk W), (C3 k c p g Hk W). reflexivity.
  - rewrite (B4 k c p Hk NV), (A4 k c p Hk NV), (C4 k c p Hk NV). reflexivity.
Qed.
End Hier.

(** extraction of an interval *)
Lemma hier_extract {F} (feq : F -> F -> bool) (s : hs F R) (fs : list (option (nat * rfun))) t1 t2 t :
  hier_at feq s (map (option_map (fun f => on_coords (fst f) (extract (snd f) t1 t2))) fs) t =
  hier_at feq s (map (option_map (fun f => on_coords (fst f) (snd f))) fs) (if gtb t1 t2 then t1 - t else t1 + t)%R.
Proof.
  apply at_all_ext. intros i. rewrite !nth_error_map. destruct (nth_error fs i) as [[[n f]|]|]; cbn; auto.
  unfold on_coords. apply map_ext. intros k. apply extract_value.
Qed.
Lemma by_sub_extract {F} (feq : F -> F -> bool) zero (s : bs F R) (fs : list (option (nat * rfun))) t1 t2 t :
  by_sub_at feq zero s (map (option_map (fun f => on_coords (fst f) (extract (snd f) t1 t2))) fs) t =
  by_sub_at feq zero s (map (option_map (fun f => on_coords (fst f) (snd f))) fs) (if gtb t1 t2 then t1 - t else t1 + t)%R.
Proof.
  apply at_all_ext. intros i. rewrite !nth_error_map. destruct (nth_error fs i) as [[[n f]|]|]; cbn; auto.
  unfold on_coords. apply map_ext. intros k. apply extract_value.
Qed.

(** The solver by substitution *)
Section Sub.
Context {F V : Type}.
Variables (feq : F -> F -> bool) (zero : V) (iadd : Z -> Z -> Z) (mem : imp V -> list V -> Prop) (okq : (Z -> V) -> Prop).
Hypothesis EQ : equivalence feq.
Variables (P : con V (list V) -> Prop) (n m : Z).
Hypothesis HF : family n m P.
Notation breach := (breach feq zero iadd mem okq P n m).
Notation bc := (bc F V).
Notation bs := (bs F V).

(** reading the right hand side of a constraint treated explicitly *)
Lemma explicit_get (s : bs) l k c : breach s l -> nth_error (explicit_ones l) k = Some c -> ~ function_present feq l c ->
  (forall j d, j < k -> nth_error (explicit_ones l) j = Some d -> feq (bc_f d) (bc_f c) = false) ->
  bget_of feq s c = Some (nth_error (rhsl (bs_e s)) k).
Proof.
  intros R Hk Hf Hfirst. pose proof (breach_inv feq zero iadd mem okq P n m HF _ _ R) as I.
  pose proof (bi_h _ _ _ _ _ _ _ _ _ _ I) as Hh. pose proof (bi_ex _ _ _ _ _ _ _ _ _ _ I) as Ex.
  pose proof (bi_all _ _ _ _ _ _ _ _ _ _ I) as All.
  assert (Hno : forall d p, In (d, p) (numeric_ones l) -> feq (ic_f d) (bc_f c) = false).
  { intros d p Hd. destruct (feq (ic_f d) (bc_f c)) eqn:E; [|reflexivity]. exfalso. apply Hf. apply numeric_In in Hd as (d' & Hd & <-). exists d', p. auto. }
  assert (Hse : exists e, as_explicit (bc_k c) = Some e).
  { assert (H : In (bc_con c) (map Some (excons l))). { rewrite <- All. apply in_map. eapply nth_error_In, Hk. }
    apply in_map_iff in H as (y & H & _). unfold bc_con in H. destruct (as_explicit (bc_k c)) as [e|]; [eauto|discriminate]. }
  destruct Hse as [e Hse].
  destruct (set_unknown feq zero mem okq _ _ (bc_f c) [] (s_nq (ic_s (bc_c c))) Hh Hno) as [_ U2].
  unfold bget_of. rewrite U2, Hse. f_equal. unfold get_rhs_con.
  assert (Hlt : k < length (bs_imps s)) by (unfold bs_imps; rewrite map_length, Ex; apply nth_error_Some; congruence).
  assert (S1 : same_as feq s c k = true).
  { unfold same_as. rewrite Ex, Hk. apply orb_true_iff. right. destruct EQ as (E1 & _). apply E1. }
  assert (S2 : forall j, j < k -> same_as feq s c j = false).
  { intros j Hj. unfold same_as. rewrite Ex. destruct (nth_error (explicit_ones l) j) as [d|] eqn:Ed; [|reflexivity].
    pose proof (Hfirst j d Hj Ed) as E. rewrite E, orb_false_r. destruct (beq feq d c) eqn:Eb; [|reflexivity].
    apply eq_con_spec in Eb. destruct Eb as (_ & _ & Eb & _). cbn in Eb. unfold bc_f, ic_f in E. congruence. }
  pose proof (find_idx_spec (same_as feq s c) (length (bs_imps s)) 0) as Sf.
  destruct (find_idx (same_as feq s c) (length (bs_imps s)) 0) as [i|].
  - destruct Sf as (B1 & B2 & B3). assert (i = k); [|subst; reflexivity].
    destruct (Nat.lt_trichotomy i k) as [H|[H|H]]; [rewrite S2 in B2 by exact H; discriminate|exact H|]. rewrite B3 in S1 by lia. discriminate.
  - rewrite Sf in S1 by lia. discriminate.
Qed.

(** positions of distinct constraints *)
Lemma explicit_split (l : list (bc * how)) c : In (c, Explicitly) l -> exists k, nth_error (explicit_ones l) k = Some c.
Proof. intros H. apply In_nth_error. apply explicit_In, H. Qed.

Section Distinct.
Variable l : list (bc * how).
Hypothesis D : distinct_functions feq l.
Lemma feq_refl f : feq f f = true. Proof. exact (proj1 EQ f). Qed.
Lemma feq_sym f g : feq f g = feq g f.
Proof. destruct EQ as (_ & S & _). destruct (feq f g) eqn:A, (feq g f) eqn:B; try reflexivity; [apply S in A|apply S in B]; congruence. Qed.
Lemma explicit_order j k c d : j < k -> nth_error (explicit_ones l) j = Some d -> nth_error (explicit_ones l) k = Some c -> feq (bc_f d) (bc_f c) = false.
Proof.
  clear HF. revert j k D. unfold explicit_ones. induction l as [|a r IH]; intros j k D' L Hd Hc; [destruct j; discriminate|].
  assert (Dr : distinct_functions feq r). { intros i i' x y N H1 H2. apply (D' (S i) (S i') x y); [lia|exact H1|exact H2]. }
  cbn [filter] in Hd, Hc. destruct (is_explicit a) eqn:E; [|exact (IH j k Dr L Hd Hc)].
  cbn [map] in Hd, Hc. destruct k as [|k]; [lia|]. cbn in Hc. destruct j as [|j]; cbn in Hd; [|exact (IH j k Dr ltac:(lia) Hd Hc)].
  injection Hd as <-. apply nth_error_In in Hc. apply in_map_iff in Hc as (b & <- & Hb). apply filter_In in Hb as [Hb _]. apply In_nth_error in Hb as [i Hi].
  apply (D' 0 (S i) a b); [lia|reflexivity|exact Hi].
Qed.
Lemma not_present i c : nth_error l i = Some (c, Explicitly) -> ~ function_present feq l c.
Proof.
  intros Hi (d & p & Hd & E). apply In_nth_error in Hd as [j Hj].
  assert (j <> i) by (intros ->; congruence). pose proof (D j i _ _ H Hj Hi) as E'. cbn in E'. congruence.
Qed.

Lemma sub_step s k a x : breach s l -> nth_error l k = Some a -> mem (ic_s (bc_c (fst a))) x ->
  exists s', bset_of feq zero s (fst a) x = Some (s', true) /\ breach s' l /\ bget_of feq s' (fst a) = Some (Some (stored zero a x)) /\
    (forall j b, j <> k -> nth_error l j = Some b -> bget_of feq s' (fst b) = bget_of feq s (fst b)) /\
    bs_ex s' = bs_ex s /\ bs_cons s' = bs_cons s /\ bs_free s' = bs_free s.
Proof.
  intros R Hk Hx. destruct a as [c h]. cbn [fst] in *.
  assert (W : wf_bc zero mem okq P m c) by (apply (bi_wf _ _ _ _ _ _ _ _ _ _ (breach_inv feq zero iadd mem okq P n m HF _ _ R) c h), (nth_error_In _ _ Hk)).
  assert (Lx : length x = s_nq (ic_s (bc_c c))) by (destruct W as ((_ & _ & _ & W & _) & _); apply W, Hx).
  assert (Next : forall s' b, bset_of feq zero s c x = Some (s', b) -> breach s' l).
  { intros s' b Hs. eapply br_set; [exact R| |exact Hs]. intros d h' Hd E. apply In_nth_error in Hd as [j Hj].
    destruct (Nat.eq_dec j k) as [->|N]; [|pose proof (D j k _ _ N Hj Hk) as E'; cbn in E'; congruence]. rewrite Hk in Hj. injection Hj as <- <-. exact Hx. }
  destruct h as [|p].
  - (* explicit *)
    destruct (explicit_split l c (nth_error_In _ _ Hk)) as [ke Hke].
    destruct (explicit_set_get feq zero iadd mem okq EQ P n m HF s l ke c x R Hke (not_present k c Hk)
      (fun j d Hj Hd => explicit_order j ke c d Hj Hd Hke) Hx) as (s' & A1 & A2 & A3 & A4 & A5 & A6 & A7 & A8).
    exists s'. split; [exact A1|]. assert (R' := Next _ _ A1). split; [exact R'|]. split; [exact A2|]. split; [|auto].
    intros j [d h] Nj Hj. cbn [fst]. destruct h as [|p].
    + destruct (explicit_split l d (nth_error_In _ _ Hj)) as [je Hje].
      rewrite (explicit_get s' l je d R' Hje (not_present j d Hj) (fun i e Hi He => explicit_order i je d e Hi He Hje)).
      rewrite (explicit_get s l je d R Hje (not_present j d Hj) (fun i e Hi He => explicit_order i je d e Hi He Hje)).
      f_equal. apply A3. intros ->. assert (c = d) by congruence. subst d.
      pose proof (D j k _ _ Nj Hj Hk) as E. cbn in E. rewrite feq_refl in E. discriminate.
    + unfold bget_of. rewrite A5. 
      assert (Hn : In (bc_c d, p) (numeric_ones l)) by (apply numeric_In; exists d; split; [exact (nth_error_In _ _ Hj)|reflexivity]).
      apply In_nth_error in Hn as [i Hi].
      pose proof (bi_h _ _ _ _ _ _ _ _ _ _ (breach_inv feq zero iadd mem okq P n m HF _ _ R)) as Hh.
      destruct (lookup_at feq zero mem okq EQ _ _ (bc_f d) i _ _ (hreach_inv _ _ _ _ _ _ Hh) Hi (feq_refl _)) as (lv & L1 & L2 & _ & L4 & L5).
      unfold get_rhs_of. rewrite L1, L2, L4. destruct (segment _ _ _); reflexivity.
  - (* numerical *)
    assert (Hn : In (bc_c c, p) (numeric_ones l)) by (apply numeric_In; exists c; split; [exact (nth_error_In _ _ Hk)|reflexivity]).
    apply In_nth_error in Hn as [kn Hkn].
    destruct (numeric_set_get feq zero iadd mem okq EQ P n m HF s l kn (bc_c c) p c x R Hkn (feq_refl _) eq_refl Lx) as (s' & A1 & A2 & A3 & A4 & A5 & A6 & A7).
    exists s'. split; [exact A1|]. assert (R' := Next _ _ A1). split; [exact R'|]. split; [exact A2|]. split; [|auto].
    intros j [d h] Nj Hj. cbn [fst]. destruct h as [|p'].
    + destruct (explicit_split l d (nth_error_In _ _ Hj)) as [je Hje].
      rewrite (explicit_get s' l je d R' Hje (not_present j d Hj) (fun i e Hi He => explicit_order i je d e Hi He Hje)).
      rewrite (explicit_get s l je d R Hje (not_present j d Hj) (fun i e Hi He => explicit_order i je d e Hi He Hje)).
      rewrite A4. reflexivity.
    + assert (Hn : In (bc_c d, p') (numeric_ones l)) by (apply numeric_In; exists d; split; [exact (nth_error_In _ _ Hj)|reflexivity]).
      apply In_nth_error in Hn as [i Hi].
      assert (Ni : i <> kn).
      { intros ->. pose proof (D j k _ _ Nj Hj Hk) as E. cbn in E. unfold bc_f in E. rewrite Hkn in Hi. injection Hi as H1 _. rewrite H1, feq_refl in E. discriminate. }
      pose proof (A3 i _ _ Ni Hi) as E.
      pose proof (bi_h _ _ _ _ _ _ _ _ _ _ (breach_inv feq zero iadd mem okq P n m HF _ _ R)) as Hh.
      assert (K : exists y, get_rhs_of feq (bs_h s) (bc_f d) (s_nq (ic_s (bc_c d))) = Some (Some y)).
      { destruct (lookup_at feq zero mem okq EQ _ _ (bc_f d) i _ _ (hreach_inv _ _ _ _ _ _ Hh) Hi (feq_refl _)) as (lv & L1 & L2 & _ & L4 & L5).
        unfold get_rhs_of. rewrite L1, L2, L4. unfold segment.
        destruct L5 as (_ & _ & _ & _ & _ & _ & _ & _ & L9).
        destruct (Nat.leb_spec (sum_nq (at_level (firstn i (numeric_ones l)) p') + s_nq (ic_s (bc_c d))) (length (l_rhs lv))) as [|Hgt]; [eauto|].
        exfalso. rewrite L9, (offset_end _ _ _ _ Hi) in Hgt. pose proof (offset_total (numeric_ones l) (S i) p'). lia. }
      destruct K as [y K]. unfold bget_of. unfold bc_f in *. rewrite E, K. reflexivity.
Qed.
End Distinct.

Lemma by_sub_at_spec s l gs t : breach s l -> distinct_functions feq l -> length gs = length l ->
  (forall k a g, nth_error l k = Some a -> varies gs k (bc_c (fst a)) g -> mem (ic_s (bc_c (fst a))) (g t)) ->
  exists s', by_sub_at feq zero s gs t = Some s' /\ breach s' l /\
    (forall k a g, nth_error l k = Some a -> varies gs k (bc_c (fst a)) g -> bget_of feq s' (fst a) = Some (Some (stored zero a (g t)))) /\
    (forall k a, nth_error l k = Some a -> (forall g, ~ varies gs k (bc_c (fst a)) g) -> bget_of feq s' (fst a) = bget_of feq s (fst a)) /\
    bs_ex s' = bs_ex s /\ bs_cons s' = bs_cons s /\ bs_free s' = bs_free s.
Proof.
  intros R D Lg Hg. pose proof (breach_inv feq zero iadd mem okq P n m HF _ _ R) as I.
  assert (Hc : bs_cons s = map fst l) by apply I.
  assert (Ps : forall k a, nth_error l k = Some a -> (m_psize (ic_i (bc_c (fst a))) <> 0 <-> In Equality (m_cmp (ic_i (bc_c (fst a)))))).
  { intros k [c h] Hk. destruct (bi_wf _ _ _ _ _ _ _ _ _ _ I c h (nth_error_In _ _ Hk)) as ((_ & _ & W & _) & _). cbn [fst]. rewrite (reach_psize _ W). apply param_size_in. }
  destruct (at_all_spec (fun s (c : bc) x => bset_of feq zero s c x) (fun c => m_psize (ic_i (bc_c c)))
    (fun s c => bget_of feq s c) (fun k x => match nth_error l k with Some a => Some (Some (stored zero a x)) | None => None end)
    (fun s' => breach s' l /\ bs_ex s' = bs_ex s /\ bs_cons s' = bs_cons s /\ bs_free s' = bs_free s) (map fst l)
    (fun k x => forall a, nth_error l k = Some a -> mem (ic_s (bc_c (fst a))) x)) with (t := t) (suf := map fst l) (pre := @nil bc) (s := s) (gs := gs)
    as (s' & A1 & (A2 & A2') & _ & A4 & A5).
  - intros s0 k c x (R0 & S1 & S2 & S3) Hk Hx. rewrite nth_error_map in Hk. destruct (nth_error l k) as [a|] eqn:Ek; [|discriminate]. injection Hk as <-.
    destruct (sub_step l D s0 k a x R0 Ek (Hx _ eq_refl)) as (s1 & B1 & B2 & B3 & B4 & B5 & B6 & B7).
    exists s1. split; [exact B1|]. split; [repeat split; congruence|]. split; [exact B3|].
    intros j d Hj Hd. rewrite nth_error_map in Hd. destruct (nth_error l j) as [b|] eqn:Eb; [|discriminate]. injection Hd as <-. exact (B4 j b Hj Eb).
  - reflexivity.
  - auto.
  - rewrite map_length. exact Lg.
  - intros i c g H1 H2 H3 a H0. cbn [length Nat.add] in H0. rewrite nth_error_map, H0 in H1. injection H1 as <-.
    apply (Hg i a g H0). split; [exact H2|]. apply (Ps i a H0), H3.
  - exists s'. unfold by_sub_at. rewrite Hc. split; [exact A1|]. split; [exact A2|]. split; [|split; [|rewrite <- Hc; exact A2']].
    + intros k a g Hk [V1 V2]. rewrite (A4 k (fst a) g); [cbn [length Nat.add]; rewrite Hk; reflexivity|rewrite nth_error_map, Hk; reflexivity|exact V1|apply (Ps k a Hk), V2].
    + intros k a Hk NV. apply (A5 k (fst a)); [rewrite nth_error_map, Hk; reflexivity|].
      destruct (nth_error gs k) as [[g|]|] eqn:Eg; [right|left; reflexivity|].
      * destruct (Nat.eq_dec (m_psize (ic_i (bc_c (fst a)))) 0) as [|N]; [assumption|]. exfalso. apply (NV g). split; [exact Eg|]. apply (Ps k a Hk), N.
      * exfalso. apply nth_error_None in Eg. assert (k < length l) by (apply nth_error_Some; congruence). lia.
Qed.
End Sub.
