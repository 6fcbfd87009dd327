From Coq Require Import ZArith List Bool Lia.
From Verif Require Import SegSpec SegModel ViewModel EcsModel EcsSpec EcsRhsModel EcsRhsSpec EcsRhsProofs EcsMainProofs EcsFinalProofs.
From Verif Require Import ImplModel ImplSpec ImplProofs HierModel HierSpec HierProofs HierRhsProofs BySubModel BySubSpec.
Import ListNotations.
Local Open Scope nat_scope.

(** the explicit set does not look at right hand sides when adding *)
Lemma with_rhs_same {V Rh} (st : ecs V Rh) : with_rhs st (rhsl st) = st.
Proof. destruct st; reflexivity. Qed.
Lemma with_rhs_twice {V Rh} (st : ecs V Rh) a b : with_rhs (with_rhs st a) b = with_rhs st b.
Proof. reflexivity. Qed.
Lemma add_with_rhs {V Rh} iadd fuel (st : ecs V Rh) rl c :
  add iadd fuel (with_rhs st rl) c =
  match add iadd fuel st c with
  | (st', Added i) => (with_rhs st' (rl ++ [c_rhs0 c]), Added i)
  | (st', r) => (with_rhs st' rl, r)
  end.
Proof.
  unfold add. destruct (c_out c) as [|o [|]]; try reflexivity. destruct (c_outv c) as [|ov [|]]; try reflexivity.
  destruct (existsb _ (c_in c)); [reflexivity|]. destruct (existsb _ (c_cmp c)); [reflexivity|].
  cbn [with_rhs nq nv data argF derF outArgs outDers inArgs inDers rhsl].
  destruct (negb (seg_inb (nq st) o)); [reflexivity|]. destruct (existsb _ (vread _ _)); [reflexivity|].
  destruct (loop_check _ _ _ _ _ _) as [[|]| |]; try reflexivity.
  destruct (negb (seg_inb (nv st) ov)); [reflexivity|].
  destruct (diff_sl _ _); [|reflexivity]. destruct (upd_in (inArgs st) _ _); [|reflexivity].
  destruct (diff_sl _ _); [|reflexivity]. destruct (upd_in _ _ _); [|reflexivity].
  destruct (order_all _ _ _ _ _ _ _); reflexivity.
Qed.

Section BySub.
Context {F V : Type}.
Variable feq : F -> F -> bool.
Variable zero : V.
Variable iadd : Z -> Z -> Z.
Variable mem : imp V -> list V -> Prop.
Variable okq : (Z -> V) -> Prop.
Variable P : con V (list V) -> Prop.
Variables n m : Z.
Notation bc := (bc F V).
Notation bs := (bs F V).
Notation breach := (breach feq zero iadd mem okq P n m).
Notation wf_bc := (wf_bc zero mem okq P m).
Notation hreach := (hreach feq zero mem okq).

Definition imps (l : list bc) : list (imp V) := map (fun c => ic_s (bc_c c)) l.

Record binv (s : bs) (l : list (bc * how)) : Prop := mkbinv {
  bi_e : exists st, reach iadd P n m st /\ bs_e s = with_rhs st (rhsl (bs_e s));
  bi_data : data (bs_e s) = excons l;
  bi_all : map bc_con (explicit_ones l) = map Some (excons l);
  bi_len : length (rhsl (bs_e s)) = length (explicit_ones l);
  bi_rhs : forall i c r, nth_error (imps (explicit_ones l)) i = Some c -> nth_error (rhsl (bs_e s)) i = Some r ->
    mem c r /\ proj zero c r = r;
  bi_ex : bs_ex s = explicit_ones l;
  bi_cons : bs_cons s = map fst l;
  bi_h : hreach (bs_h s) (numeric_ones l);
  bi_free : bs_free s = notOutDers (bs_e s);
  bi_wf : forall c h, In (c, h) l -> wf_bc c }.

Lemma explicit_ones_app l1 l2 : explicit_ones (l1 ++ l2) = explicit_ones l1 ++ explicit_ones l2 :> list bc.
Proof. unfold explicit_ones. rewrite filter_app, map_app. reflexivity. Qed.
Lemma excons_app l1 l2 : excons (l1 ++ l2 : list (bc * how)) = excons l1 ++ excons l2.
Proof. unfold excons. rewrite explicit_ones_app, flat_map_app. reflexivity. Qed.
Lemma numeric_ones_app l1 l2 : numeric_ones (l1 ++ l2 : list (bc * how)) = numeric_ones l1 ++ numeric_ones l2.
Proof. unfold numeric_ones. rewrite flat_map_app. reflexivity. Qed.
Lemma explicit_In l c : In c (explicit_ones l) <-> In (c, Explicitly) (l : list (bc * how)).
Proof.
  unfold explicit_ones. rewrite in_map_iff. split.
  - intros ([d h] & <- & H). apply filter_In in H as [H1 H2]. destruct h; [exact H1|discriminate].
  - intros H. exists (c, Explicitly). split; [reflexivity|]. apply filter_In. auto.
Qed.
Lemma numeric_In l c p : In (c, p) (numeric_ones l) <-> exists d : bc, In (d, Numerically p) l /\ bc_c d = c.
Proof.
  unfold numeric_ones. rewrite in_flat_map. split.
  - intros ([d h] & H1 & H2). cbn in H2. destruct h; [destruct H2|]. destruct H2 as [H2|[]]. injection H2 as <- <-. exists d. auto.
  - intros (d & H1 & <-). exists (d, Numerically p). split; [exact H1|]. left. reflexivity.
Qed.

Lemma imps_ex s l : binv s l -> bs_imps s = imps (explicit_ones l).
Proof. intros I. unfold bs_imps. rewrite (bi_ex _ _ I). reflexivity. Qed.
Lemma imps_wf s l : binv s l -> forall c, In c (imps (explicit_ones l)) -> wf_imp zero mem okq c.
Proof.
  intros I c H. apply in_map_iff in H as (d & <- & H). apply explicit_In in H. apply (bi_wf _ _ I) in H as [H _]. apply H.
Qed.

Lemma with_h_inv s l h : binv s l -> hreach h (numeric_ones l) ->
  binv (bs_rhs s h (rhsl (bs_e s))) l.
Proof.
  intros I H. unfold bs_rhs. rewrite with_rhs_same. destruct I. constructor; cbn; assumption.
Qed.
Lemma with_rl_inv s l h rl : binv s l -> hreach h (numeric_ones l) -> length rl = length (explicit_ones l) ->
  (forall i c r, nth_error (imps (explicit_ones l)) i = Some c -> nth_error rl i = Some r -> mem c r /\ proj zero c r = r) ->
  binv (bs_rhs s h rl) l.
Proof.
  intros I H L R. destruct I. constructor; cbn; try assumption.
  destruct bi_e0 as (st & A & B). exists st. split; [exact A|]. rewrite B. reflexivity.
Qed.

Lemma bs_eta (s : bs) h : bs_rhs s h (rhsl (bs_e s)) = mkbs h (bs_e s) (bs_ex s) (bs_cons s) (bs_free s).
Proof. unfold bs_rhs. rewrite with_rhs_same. reflexivity. Qed.

Hypothesis HF : family n m P.

(** one addition *)
Lemma badd_num_inv s l c p s' : binv s l -> wf_bc c -> badd_num feq s c p = (s', BYes) ->
  binv s' (l ++ [(c, Numerically p)]) /\ bs_ex s' = bs_ex s.
Proof.
  intros I W H. unfold badd_num in H. destruct (hadd feq (bs_h s) (bc_c c) p) as [h|] eqn:E; [|discriminate].
  injection H as <-. split; [|reflexivity]. destruct I. destruct W as (W1 & W2 & W3).
  constructor; cbn; rewrite ?excons_app, ?explicit_ones_app, ?numeric_ones_app; cbn; rewrite ?app_nil_r; try assumption.
  - rewrite bi_cons0, map_app. reflexivity.
  - econstructor 2; eassumption.
  - intros d h' Hd. apply in_app_or in Hd as [Hd|[Hd|[]]]; [eapply bi_wf0, Hd|]. injection Hd as <- <-. repeat split; assumption || apply W1.
Qed.
Lemma excons_one c x : bc_con c = Some x -> excons [(c : bc, Explicitly)] = [x].
Proof. intros E. unfold excons. cbn. rewrite E. reflexivity. Qed.
Lemma badd_ex_inv s l c x e i : binv s l -> wf_bc c -> bc_con c = Some x ->
  (exists fuel, add iadd fuel (bs_e s) x = (e, Added i)) ->
  binv (changed (mkbs (bs_h s) e (bs_ex s ++ [c]) (bs_cons s ++ [c]) (bs_free s))) (l ++ [(c, Explicitly)]) /\
  rhsl e = rhsl (bs_e s) ++ [c_rhs0 x].
Proof.
  intros I W Ec (fuel & Ea). destruct I. destruct W as (W1 & W2 & W3).
  destruct bi_e0 as (st & R & Es). rewrite Es, add_with_rhs in Ea.
  destruct (add iadd fuel st x) as [st' r] eqn:Est. destruct r; try (injection Ea; discriminate).
  injection Ea as <- <-.
  destruct (@add_any_fuel _ _ iadd P n m HF st st' x fuel _ R (W3 _ Ec) Est) as (_ & A2 & _).
  destruct (A2 _ eq_refl) as (A3 & A4 & A5).
  assert (Ed : data (bs_e s) = data st) by (rewrite Es; reflexivity).
  split; [|cbn; rewrite Es; reflexivity].
  constructor; cbn [changed bs_e bs_ex bs_cons bs_h bs_free]; rewrite ?excons_app, ?explicit_ones_app, ?numeric_ones_app, ?(excons_one c x Ec).
  - exists st'. split; [econstructor 2; [exact R|exact (W3 _ Ec)|exact Est]|]. reflexivity.
  - cbn. rewrite A5, <- Ed, bi_data0. reflexivity.
  - rewrite !map_app, bi_all0. cbn. rewrite Ec. reflexivity.
  - cbn. rewrite !app_length, bi_len0. reflexivity.
  - intros k d r Hd Hr. cbn [rhsl with_rhs] in Hr. unfold imps in Hd. rewrite map_app in Hd.
    apply nth_error_snoc in Hr as [[G Hr]|[-> <-]].
    + rewrite nth_error_app1 in Hd by (rewrite map_length; lia). eapply bi_rhs0; eassumption.
    + rewrite nth_error_app2 in Hd by (rewrite map_length; lia). rewrite map_length, bi_len0, Nat.sub_diag in Hd. cbn in Hd. injection Hd as <-.
      assert (Hx : c_rhs0 x = s_neutral (ic_s (bc_c c))).
      { unfold bc_con in Ec. destruct (as_explicit (bc_k c)); [|discriminate]. injection Ec as <-. reflexivity. }
      rewrite Hx. destruct W1 as (_ & _ & _ & (_ & _ & _ & _ & _ & _ & B1 & B2) & _). auto.
  - rewrite bi_ex0. reflexivity.
  - rewrite bi_cons0, map_app. reflexivity.
  - cbn. rewrite app_nil_r. apply hr_update. exact bi_h0.
  - reflexivity.
  - intros d h' Hd. apply in_app_or in Hd as [Hd|[Hd|[]]]; [eapply bi_wf0, Hd|]. injection Hd as <- <-. repeat split; assumption || apply W1.
Qed.

Lemma rhs_size_total (cs : list (imp V)) : rhs_size cs = total_size cs.
Proof. induction cs as [|c cs IH]; [reflexivity|]. unfold rhs_size, total_size in *. cbn. unfold rhs_size in IH. f_equal. exact IH. Qed.

Lemma app_self_nil {A} (l x : list A) : l ++ x = l -> x = [].
Proof. intros H. assert (length (l ++ x) = length l) by congruence. rewrite app_length in H0. destruct x; [reflexivity|cbn in H0; lia]. Qed.

Lemma breach_inv s l : breach s l -> binv s l.
Proof.
  induction 1 as [|s l c p fuel s' R I W H E|s l c p fuel s' R I W H E|s l c x s' b R I M H|s l v s' R I M H|s l q s' R I M H|s l b R I].
  - constructor; cbn; try reflexivity.
    + exists (init n m). split; [constructor|reflexivity].
    + intros [|i] c r Hc; discriminate Hc.
    + constructor.
    + intros c h [].
  - unfold badd in H. destruct (bcontains feq s c); [discriminate|].
    destruct (bc_con c) as [x|] eqn:Ec.
    + destruct (add iadd fuel (bs_e s) x) as [e o] eqn:Ea. destruct o; try discriminate.
      * injection H as <-. eapply badd_ex_inv; eauto.
      * apply (badd_num_inv s l) in H as [_ H]; [|assumption|assumption]. rewrite E in H. apply app_self_nil in H. discriminate.
    + apply (badd_num_inv s l) in H as [_ H]; [|assumption|assumption]. rewrite E in H. apply app_self_nil in H. discriminate.
  - unfold badd in H. destruct (bcontains feq s c); [discriminate|].
    destruct (bc_con c) as [x|] eqn:Ec.
    + destruct (add iadd fuel (bs_e s) x) as [e o] eqn:Ea. destruct o; try discriminate.
      * injection H as <-. cbn in E. apply app_self_nil in E. discriminate.
      * eapply (badd_num_inv s l); eassumption.
    + eapply (badd_num_inv s l); eassumption.
  - unfold bset_of in H. destruct (set_rhs_of feq (bs_h s) (bc_f c) x) as [[h [|]]|] eqn:Eh; [| |discriminate].
    + injection H as <- <-. apply with_h_inv; [exact I|]. eapply hr_rhs; [apply (bi_h _ _ I)|exact Eh].
    + destruct (as_explicit (bc_k c)) as [e|]; [|injection H as <- <-; exact I].
      unfold set_rhs_con in H. pose proof (find_idx_spec (same_as feq s c) (length (bs_imps s)) 0) as Fi.
      destruct (find_idx _ _ _) as [k|].
      * destruct Fi as (_ & F2 & _). unfold set_rhs in H.
        destruct (nth_error (bs_imps s) k) as [ci|] eqn:Ek; [|discriminate].
        destruct (project zero ci x) as [y|] eqn:Ey; [|discriminate]. injection H as <- <-.
        rewrite (imps_ex _ _ I) in Ek. unfold same_as in F2. rewrite (bi_ex _ _ I) in F2.
        unfold imps in Ek. rewrite nth_error_map in Ek. destruct (nth_error (explicit_ones l) k) as [d|] eqn:Ed; [|discriminate].
        cbn in Ek. injection Ek as <-.
        assert (Hd : In (d, Explicitly) l) by (apply explicit_In; eapply nth_error_In, Ed).
        assert (Mx : mem (ic_s (bc_c d)) x).
        { apply (M d Explicitly Hd). apply orb_true_iff in F2 as [F2|F2]; [|exact F2].
          apply eq_con_spec in F2 as (_ & _ & F3 & _). exact F3. }
        assert (Wd : wf_imp zero mem okq (ic_s (bc_c d))) by (destruct (bi_wf _ _ I _ _ Hd) as (Wd & _); apply Wd).
        destruct (project_spec zero mem okq _ _ Wd Mx) as (P1 & P2 & P3). rewrite P1 in Ey. injection Ey as <-.
        assert (Hk : k < length (rhsl (bs_e s))) by (rewrite (bi_len _ _ I); apply nth_error_Some; congruence).
        destruct (set_nth_spec (rhsl (bs_e s)) k (proj zero (ic_s (bc_c d)) x) Hk) as (S1 & S2 & S3).
        apply with_rl_inv; [exact I|apply (bi_h _ _ I)|rewrite S1; apply (bi_len _ _ I)|].
        intros i ci r Hc Hr. destruct (Nat.eq_dec i k) as [->|Hik].
        -- rewrite S2 in Hr. injection Hr as <-. unfold imps in Hc. rewrite nth_error_map, Ed in Hc. cbn in Hc. injection Hc as <-. auto.
        -- rewrite S3 in Hr by exact Hik. eapply (bi_rhs _ _ I); eassumption.
      * injection H as <- <-. apply with_h_inv; [exact I|apply (bi_h _ _ I)].
  - unfold bset_whole in H. destruct (_ && _); [|discriminate].
    destruct (set_rhs_whole (bs_h s) _) as [h|] eqn:Eh; [|discriminate].
    destruct (set_all zero (bs_imps s) _) as [rl|] eqn:Ea; [|discriminate]. injection H as <-.
    rewrite (imps_ex _ _ I), rhs_size_total in Ea.
    destruct (set_all_spec zero mem okq (imps (explicit_ones l)) (imps_wf _ _ I) _ M) as (A1 & A2 & A3 & A4 & A5).
    assert (Er : rl = projs zero (imps (explicit_ones l)) (pieces (imps (explicit_ones l)) (firstn (total_size (imps (explicit_ones l))) v)))
      by (pose proof (eq_trans (eq_sym Ea) A1) as E; injection E as ->; reflexivity).
    apply with_rl_inv; [exact I|eapply hr_whole; [apply (bi_h _ _ I)|exact Eh]| |].
    + rewrite Er. etransitivity; [exact A2|]. unfold imps. rewrite map_length. reflexivity.
    + rewrite Er. exact A5.
  - unfold bconfig in H. destruct (rhs_config zero (bs_h s) q) as [h|] eqn:Eh; [|discriminate].
    destruct (from_input_all zero (bs_imps s) _ q) as [rl|] eqn:Ea; [|discriminate]. injection H as <-.
    rewrite (imps_ex _ _ I) in Ea.
    destruct (from_input_all_spec zero mem okq (imps (explicit_ones l)) (rhsl (bs_e s)) q M (imps_wf _ _ I)) as (rl' & E1 & E2).
    { rewrite (bi_len _ _ I). unfold imps. rewrite map_length. reflexivity. }
    rewrite Ea in E1. injection E1 as ->. subst rl'.
    apply with_rl_inv; [exact I|eapply hr_config; [apply (bi_h _ _ I)|exact M|exact Eh]| |].
    + unfold imps. rewrite !map_length. reflexivity.
    + intros i c r Hc Hr. rewrite nth_error_map, Hc in Hr. cbn in Hr. injection Hr as <-.
      pose proof (imps_wf _ _ I c (nth_error_In _ _ Hc)) as Wc.
      assert (Mc : mem c (s_fun c q)) by (apply Wc, M).
      destruct (project_spec zero mem okq c _ Wc Mc) as (_ & P2 & P3). auto.
  - destruct I. constructor; cbn; try assumption. apply hr_optional. assumption.
Qed.

(** C41: what add does *)
Lemma present_spec s l c : binv s l -> (bcontains feq s c = true <-> present feq l c).
Proof.
  intros I. unfold bcontains. rewrite (bi_cons _ _ I), existsb_exists. unfold present. split.
  - intros (d & Hd & E). apply in_map_iff in Hd as ([d' h] & <- & Hd). exists d', h. split; [exact Hd|]. apply eq_con_spec, E.
  - intros (d & h & Hd & E). exists d. split; [|apply eq_con_spec, E]. apply in_map_iff. exists (d, h). auto.
Qed.
Lemma num_outcome s l c p : breach s l -> wf_bc c -> bcontains feq s c = false ->
  (function_present feq l c -> badd_num feq s c p = (s, BThrow)) /\
  (~ function_present feq l c -> exists s', badd_num feq s c p = (s', BYes) /\ bs_e s' = bs_e s /\ bs_ex s' = bs_ex s /\
     hadd feq (bs_h s) (bc_c c) p = Some (bs_h s')).
Proof.
  intros R W Hn. pose proof (breach_inv _ _ R) as I. pose proof (bi_h _ _ I) as H. apply hreach_inv in H.
  pose proof (hadd_throws feq zero mem okq (bs_h s) (numeric_ones l) (bc_c c) p H) as T.
  unfold badd_num. destruct (hadd feq (bs_h s) (bc_c c) p) as [h|] eqn:E.
  - split.
    + intros (d & q & Hd & Hf). exfalso. destruct T as [_ T]. assert (Hx : Some h = None); [|discriminate]. apply T.
      exists (bc_c d), q. split; [apply numeric_In; exists d; auto|exact Hf].
    + intros _. eexists. split; [reflexivity|]. auto.
  - split; [reflexivity|]. intros Hn'. exfalso. apply Hn'. destruct T as [T _]. destruct (T eq_refl) as (d & q & Hd & Hf).
    apply numeric_In in Hd as (d' & Hd & <-). exists d', q. auto.
Qed.

Definition numerically (s : bs) l c p (r : bs * bout) : Prop :=
  (function_present feq l c -> r = (s, BThrow)) /\
  (~ function_present feq l c -> exists s', r = (s', BYes) /\ breach s' (l ++ [(c, Numerically p)]) /\ bs_e s' = bs_e s).

Lemma excons_data s l : breach s l -> data (bs_e s) = excons l.
Proof. intros R. apply bi_data, breach_inv, R. Qed.

Lemma badd_spec s l c p : breach s l -> wf_bc c ->
  exists fuel0, forall fuel, fuel0 <= fuel ->
  (present feq l c -> badd feq iadd fuel s c p = (s, BNo)) /\
  (~ present feq l c ->
    (forall x, bc_con c = Some x -> acceptable (excons l) x ->
      exists s', badd feq iadd fuel s c p = (s', BYes) /\ breach s' (l ++ [(c, Explicitly)]) /\
        bs_h s' = update (bs_h s) /\ rhsl (bs_e s') = rhsl (bs_e s) ++ [s_neutral (ic_s (bc_c c))]) /\
    (forall x, bc_con c = Some x -> ~ acceptable (excons l) x ->
      (badd feq iadd fuel s c p = (s, BThrow) /\ meet (c_in x) (c_out x)) \/
      numerically s l c p (badd feq iadd fuel s c p)) /\
    (bc_con c = None -> numerically s l c p (badd feq iadd fuel s c p))).
Proof.
  intros R W. pose proof (breach_inv _ _ R) as I.
  assert (Hnum : forall fuel, bcontains feq s c = false -> badd feq iadd fuel s c p = badd_num feq s c p ->
            numerically s l c p (badd feq iadd fuel s c p)).
  { intros fuel Hn E. destruct (num_outcome s l c p R W Hn) as [N1 N2]. split.
    - intros H. rewrite E. apply N1, H.
    - intros H. destruct (N2 H) as (s' & A1 & A2 & A3 & A4). exists s'. rewrite E. split; [exact A1|]. split; [|exact A2].
      rewrite <- E in A1. eapply br_numeric; eassumption. }
  destruct (bcontains feq s c) eqn:Eb.
  - exists 0. intros fuel _. split.
    + intros _. unfold badd. rewrite Eb. reflexivity.
    + intros Hn. exfalso. apply Hn. apply (present_spec s l c I), Eb.
  - assert (Hp : ~ present feq l c) by (intros H; apply (present_spec s l c I) in H; congruence).
    destruct (bc_con c) as [x|] eqn:Ec.
    + destruct (bi_e _ _ I) as (st & Rst & Es).
      destruct W as (W1 & W2 & W3). pose proof (W3 _ Ec) as Px.
      destruct (@add_iff _ _ iadd P n m HF st x Rst Px) as (fuel0 & Hadd).
      assert (Ed : data st = excons l) by (rewrite <- (bi_data _ _ I), Es; reflexivity).
      exists fuel0. intros fuel Hle. split; [contradiction|]. intros _. destruct (Hadd fuel Hle) as [A1 A2].
      rewrite Ed in A1, A2. split; [|split; [|discriminate]].
      * intros y Hy Acc. injection Hy as <-. destruct (A1 Acc) as (st' & B1 & B2 & B3).
        assert (Ea : add iadd fuel (bs_e s) x = (with_rhs st' (rhsl (bs_e s) ++ [c_rhs0 x]), Added (length (excons l)))).
        { rewrite Es, add_with_rhs, B1. reflexivity. }
        eexists. split; [unfold badd; rewrite Eb, Ec, Ea; reflexivity|]. split.
        -- eapply (br_explicit _ _ _ _ _ _ _ _ s l c p fuel); [exact R|repeat split; assumption || apply W1| |reflexivity].
           unfold badd. rewrite Eb, Ec, Ea. reflexivity.
        -- split; [reflexivity|]. cbn. unfold bc_con in Ec. destruct (as_explicit (bc_k c)); [|discriminate]. injection Ec as <-. reflexivity.
      * intros y Hy Acc. injection Hy as <-. destruct (A2 Acc) as [B|B].
        -- right. apply Hnum; [reflexivity|]. unfold badd. rewrite Eb, Ec, Es, add_with_rhs, B. reflexivity.
        -- left. split; [unfold badd; rewrite Eb, Ec, Es, add_with_rhs, B; reflexivity|].
           destruct (@add_any_fuel _ _ iadd P n m HF st st x fuel _ Rst Px B) as (_ & _ & _ & _ & H). apply H. reflexivity.
    + exists 0. intros fuel _. split; [contradiction|]. intros _. split; [discriminate|]. split; [discriminate|].
      intros _. apply Hnum; [reflexivity|]. unfold badd. rewrite Eb, Ec. reflexivity.
Qed.

Lemma breach_state s l : breach s l ->
  bs_cons s = map fst l /\ bs_ex s = explicit_ones l /\ data (bs_e s) = excons l /\
  map bc_con (explicit_ones l) = map Some (excons l) /\ hreach (bs_h s) (numeric_ones l) /\
  (forall i, covers (bs_free s) i <-> free_var m (excons l) i) /\ sorted_separated (bs_free s) /\
  (forall c, In c (map fst l) -> (forall f, feq f f = true) -> bcontains feq s c = true).
Proof.
  intros R. pose proof (breach_inv _ _ R) as I. destruct (bi_e _ _ I) as (st & Rst & Es).
  destruct (@index_sets _ _ iadd P n m HF st Rst) as (_ & _ & _ & _ & A & _ & S).
  assert (Ed : data st = excons l) by (rewrite <- (bi_data _ _ I), Es; reflexivity).
  assert (Ef : bs_free s = notOutDers st) by (rewrite (bi_free _ _ I), Es; reflexivity).
  split; [apply I|]. split; [apply I|]. split; [apply I|]. split; [apply I|]. split; [apply I|].
  split; [intros i; rewrite Ef, A, Ed; reflexivity|]. split.
  - rewrite Ef. rewrite Forall_forall in S. apply S. cbn. tauto.
  - intros c Hc Hr. unfold bcontains. rewrite (bi_cons _ _ I). apply existsb_exists. exists c. split; [exact Hc|].
    destruct (eq_con_equiv feq) as (_ & E & _). apply E, Hr.
Qed.
End BySub.
