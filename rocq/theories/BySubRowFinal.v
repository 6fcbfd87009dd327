From Coq Require Import ZArith List Bool Lia Sorted.
From Verif Require Import SegSpec SegModel SegProofs ViewModel ViewProofs EcsModel EcsSpec EcsProofs EcsOrderProofs EcsRhsModel EcsRhsSpec EcsMainProofs EcsFinalProofs EcsJacProofs.
From Verif Require Import ImplModel ImplSpec ImplProofs HierModel HierSpec HierProofs HierRhsProofs BySubModel BySubSpec BySubProofs BySubRowProofs.
Import ListNotations.
Local Open Scope nat_scope.

Lemma dof_rows_rhs {V Rh} (st : ecs V Rh) rl l : forall M i, dof_rows (with_rhs st rl) M i l = dof_rows st M i l.
Proof. induction l as [|c l IH]; intros M i; [reflexivity|]. cbn [dof_rows]. rewrite IH. reflexivity. Qed.
Lemma dof_deps_rhs {V Rh} (st : ecs V Rh) rl junk : dof_deps junk (with_rhs st rl) = dof_deps junk st.
Proof. unfold dof_deps. rewrite dof_rows_rhs. reflexivity. Qed.

Section Final.
Context {F V : Type}.
Variables (feq : F -> F -> bool) (zero : V) (iadd : Z -> Z -> Z) (mem : imp V -> list V -> Prop) (okq : (Z -> V) -> Prop).
Hypothesis EQ : equivalence feq.
Notation hreach := (hreach feq zero mem okq).

Lemma hreach_wf (s : hs F V) adds : hreach s adds -> forall c p, In (c, p) adds -> wf_ic zero mem okq c.
Proof.
  induction 1; intros d r Hd; try (eapply IHhreach; eassumption).
  - destruct Hd.
  - apply in_app_or in Hd as [Hd|[Hd|[]]]; [eapply IHhreach, Hd|]. injection Hd as <- <-. assumption.
Qed.
Lemma at_level_In (adds : list (ic F V * nat)) p c : In c (at_level adds p) <-> In (c, p) adds.
Proof.
  unfold at_level. rewrite in_map_iff. split.
  - intros ([d r] & <- & H). apply filter_In in H as [H E]. cbn in E. apply Nat.eqb_eq in E. subst. exact H.
  - intros H. exists (c, p). split; [reflexivity|]. apply filter_In. split; [exact H|]. cbn. apply Nat.eqb_refl.
Qed.

(** rows for an arbitrary test [act] *)
Lemma level_rows (s : hs F V) adds act p l : hreach s adds -> nth_error (lvls s) p = Some l ->
  StronglySorted Z.lt (indices (active_rows_of_J act l)) /\
  cardinal (active_rows_of_J act l) = Z.of_nat (length (indices (active_rows_of_J act l))) /\
  forall r, In r (indices (active_rows_of_J act l)) <-> exists k c, active_row (at_level adds p) r k c /\ act c = true.
Proof.
  intros R Hp. destruct (layout feq zero mem okq EQ s adds R) as (_ & _ & L & _). destruct (L p l Hp) as (Lc & _).
  destruct (rows_of_level zero mem okq act l) as (A & B & C).
  - intros c Hc. rewrite Lc in Hc. apply at_level_In in Hc. eapply hreach_wf; eassumption.
  - split; [exact A|]. split; [exact B|]. intros r. rewrite C, Lc. reflexivity.
Qed.
Lemma dim_sum act (ls : list (lvl F V)) :
  (forall l, In l ls -> cardinal (active_rows_of_J act l) = Z.of_nat (length (indices (active_rows_of_J act l)))) ->
  fold_right (fun l n => (cardinal (active_rows_of_J act l) + n)%Z) 0%Z ls
  = Z.of_nat (list_sum (map (fun l => length (indices (active_rows_of_J act l))) ls)).
Proof.
  induction ls as [|l ls IH]; intros H; [reflexivity|]. cbn [fold_right map]. rewrite IH by (intros; apply H; right; assumption).
  rewrite (H l (or_introl eq_refl)). unfold list_sum. cbn [fold_right]. lia.
Qed.
Lemma dim_rows (s : hs F V) adds act : hreach s adds ->
  reduced_dim act s = Z.of_nat (list_sum (map (fun l => length (indices (active_rows_of_J act l))) (lvls s))).
Proof.
  intros R. apply dim_sum. intros l Hl. apply In_nth_error in Hl as [p Hp]. apply (level_rows s adds act p l R Hp).
Qed.

Lemma rows_hier (s : hs F V) adds free : hreach s adds ->
  (forall p l, nth_error (lvls s) p = Some l ->
     let rows := indices (active_rows_of_J (act_free free) l) in
     StronglySorted Z.lt rows /\
     forall r, In r rows <-> exists k c, active_row (at_level adds p) r k c /\ exists i, covers free i /\ uses c i) /\
  reduced_dim (act_free free) s = Z.of_nat (list_sum (map (fun l => length (indices (active_rows_of_J (act_free free) l))) (lvls s))).
Proof.
  intros R. split; [|eapply dim_rows, R]. intros p l Hp. destruct (level_rows s adds (act_free free) p l R Hp) as (A & _ & C).
  split; [exact A|]. intros r. rewrite C. split; intros (k & c & H1 & H2); exists k, c; (split; [exact H1|]); apply act_free_spec, H2.
Qed.

Variables (P : con V (list V) -> Prop) (n m : Z).
Hypothesis HF : family n m P.
Hypothesis EX : exact_add iadd.
Notation breach := (breach feq zero iadd mem okq P n m).

Lemma breach_adp (s : bs F V) l : breach s l -> forall c p, In (c, p) (numeric_ones l) -> length (ic_adp c) = Z.to_nat m.
Proof.
  intros R c p H. pose proof (breach_inv feq zero iadd mem okq P n m HF _ _ R) as I.
  apply numeric_In in H as (d & Hd & <-). destruct (bi_wf _ _ _ _ _ _ _ _ _ _ I _ _ Hd) as (_ & L & _). exact L.
Qed.

Lemma rows_bysub (s : bs F V) l junk : breach s l ->
  (forall p lv, nth_error (lvls (bs_h s)) p = Some lv ->
     let rows := indices (active_rows_of_J (act_bs iadd junk (bs_e s) (bs_free s)) lv) in
     StronglySorted Z.lt rows /\
     forall r, In r rows <-> exists k c, active_row (at_level (numeric_ones l) p) r k c /\
       exists i, free_var m (excons l) i /\ reaches (excons l) c i) /\
  reduced_dim (act_bs iadd junk (bs_e s) (bs_free s)) (bs_h s)
    = Z.of_nat (list_sum (map (fun lv => length (indices (active_rows_of_J (act_bs iadd junk (bs_e s) (bs_free s)) lv))) (lvls (bs_h s)))).
Proof.
  intros R. pose proof (breach_inv feq zero iadd mem okq P n m HF _ _ R) as I. pose proof (bi_h _ _ _ _ _ _ _ _ _ _ I) as Hh.
  split; [|eapply dim_rows, Hh]. intros p lv Hp. destruct (level_rows _ _ (act_bs iadd junk (bs_e s) (bs_free s)) p lv Hh Hp) as (A & _ & C).
  split; [exact A|]. intros r. rewrite C.
  destruct (bi_e _ _ _ _ _ _ _ _ _ _ I) as (st & Rst & Es). pose proof (bi_data _ _ _ _ _ _ _ _ _ _ I) as Ed.
  pose proof (bi_free _ _ _ _ _ _ _ _ _ _ I) as Ef.
  assert (Ed' : data st = excons l) by (rewrite <- Ed, Es; reflexivity).
  assert (Ha : forall c : ic F V, act_bs iadd junk (bs_e s) (bs_free s) c = act_bs iadd junk st (notOutDers st) c).
  { intros c. rewrite Ef, Es. unfold act_bs. rewrite dof_deps_rhs. reflexivity. }
  assert (K : forall k c, active_row (at_level (numeric_ones l) p) r k c ->
    (act_bs iadd junk (bs_e s) (bs_free s) c = true <-> exists i, free_var m (excons l) i /\ reaches (excons l) c i)).
  { intros k c (r0 & K1 & _). rewrite Ha, <- Ed'. apply (act_bs_spec iadd EX P n m HF st junk c Rst).
    apply nth_error_In, at_level_In in K1. eapply breach_adp; eassumption. }
  split; intros (k & c & H1 & H2); exists k, c; (split; [exact H1|]); apply (K k c H1), H2.
Qed.

Lemma implicit_dof_spec (s : bs F V) l : breach s l ->
  (forall p, p < nlevels (numeric_ones l) -> at_level (numeric_ones l) p <> []) ->
  exists rows, implicit_dof iadd s = Some rows /\ sorted_separated rows /\
  forall i, covers rows i <-> free_var m (excons l) i /\ exists c p, In (c, p) (numeric_ones l) /\ reaches (excons l) c i.
Proof.
  intros R NE. pose proof (breach_inv feq zero iadd mem okq P n m HF _ _ R) as I. pose proof (bi_h _ _ _ _ _ _ _ _ _ _ I) as Hh.
  destruct (bi_e _ _ _ _ _ _ _ _ _ _ I) as (st & Rst & Es). pose proof (bi_data _ _ _ _ _ _ _ _ _ _ I) as Ed.
  pose proof (reach_inv iadd P n m st HF Rst) as Iv. pose proof (i_der _ _ _ _ _ Iv) as [T1 T2].
  assert (Ed' : data st = excons l) by (rewrite <- Ed, Es; reflexivity).
  assert (Env : nv (bs_e s) = m) by (rewrite Es; apply (i_nv _ _ _ _ _ Iv)).
  destruct (layout feq zero mem okq EQ _ _ Hh) as (_ & LL & L & _).
  assert (Lc : forall p lv, nth_error (lvls (bs_h s)) p = Some lv -> l_cons lv = at_level (numeric_ones l) p) by (intros p lv Hp; apply (L p lv Hp)).
  destruct (adp_loop_spec zero okq (Z.to_nat m) (lvls (bs_h s))) with (a := repeat false (Z.to_nat m)) as (adp & A1 & A2 & A3).
  - intros lv Hl. apply In_nth_error in Hl as [p Hp]. rewrite (Lc p lv Hp). apply NE. rewrite <- LL. apply nth_error_Some. congruence.
  - intros lv c Hl Hc. apply In_nth_error in Hl as [p Hp]. rewrite (Lc p lv Hp) in Hc. apply at_level_In in Hc. eapply breach_adp; eassumption.
  - apply repeat_length.
  - unfold implicit_dof, solver_adp. rewrite Env, A1. eexists. split; [reflexivity|].
    match goal with |- context [from_logical ?w] => destruct (from_logical_spec w) as (B1 & B2 & _) end. split; [exact B2|].
    assert (A3' : forall k, nth_error adp k = Some true <-> exists c p, In (c, p) (numeric_ones l) /\ nth_error (ic_adp c) k = Some true).
    { intros k. rewrite A3. split.
      - intros [H|(lv & c & H1 & H2 & H3)]; [apply nth_error_In, repeat_spec in H; discriminate|].
        apply In_nth_error in H1 as [p Hp]. rewrite (Lc p lv Hp) in H2. apply at_level_In in H2. exists c, p. auto.
      - intros (c & p & H1 & H2). right. assert (Hp : p < length (lvls (bs_h s))).
        { rewrite LL. unfold nlevels. clear -H1. induction (numeric_ones l) as [|[d r] t IH]; [destruct H1|]. cbn [map]. change (p < Nat.max (S r) (list_max (map (fun a => S (snd a)) t))).
          destruct H1 as [H1|H1]; [injection H1 as <- <-; lia|]. specialize (IH H1). lia. }
        destruct (nth_error (lvls (bs_h s)) p) as [lv|] eqn:Ep; [|apply nth_error_None in Ep; lia].
        exists lv, c. split; [eapply nth_error_In, Ep|]. split; [rewrite (Lc p lv Ep); apply at_level_In, H1|exact H2]. }
    assert (Lo : idof_loop iadd (bs_e s) 0 adp (fun _ => 0%Z) = idof_loop iadd st 0 adp (fun _ => 0%Z)).
    { rewrite Es. clear. generalize 0%Z at 1 3. generalize (fun _ : Z => 0%Z). induction adp as [|b adp IH]; intros o i; [reflexivity|]. cbn. rewrite <- IH. reflexivity. }
    intros i. rewrite B1, Lo. pose proof (idof_spec zero okq iadd EX P n m HF st Rst adp 0%Z (fun _ => 0%Z)) as S.
    cbv zeta in S. specialize (S ltac:(intros j; split; [lia|reflexivity]) i). destruct S as (S1 & S2 & S3). rewrite Ed' in S2.
    set (out := idof_loop iadd st 0 adp (fun _ => 0%Z)) in *.
    assert (Hn : (0 <= i)%Z /\ nth_error (map (fun k => negb (Z.eqb (out (Z.of_nat k)) 0)) (seq 0 (length adp))) (Z.to_nat i) = Some true
                 <-> (0 <= i < m)%Z /\ (0 < out i)%Z).
    { rewrite nth_error_map. destruct (Z.ltb_spec i 0); [split; intros [? ?]; lia|].
      destruct (Z.ltb_spec i m) as [Hi|Hi].
      - rewrite (nth_error_nth' _ 0) by (rewrite seq_length; lia). rewrite seq_nth by lia. cbn. rewrite Z2Nat.id by lia.
        destruct (Z.eqb_spec (out i) 0) as [E|E]; cbn; split; intros [? H1]; try discriminate; try lia; split; try lia. reflexivity.
      - replace (nth_error (seq 0 (length adp)) (Z.to_nat i)) with (@None nat); [split; [intros [_ H1]; discriminate|lia]|].
        symmetry. apply nth_error_None. rewrite seq_length. lia. }
    rewrite Hn, S3. clear Hn S3.
    assert (Der : forall k, (0 <= derF st k)%Z <-> outputv (excons l) k).
    { intros k. rewrite <- Ed'. split.
      - intros H. destruct (T2 k H) as (d & D1 & D2). exists d. split; [eapply nth_error_In, D1|exact D2].
      - intros (d & D1 & D2). apply In_nth_error in D1 as [j D1]. rewrite (T1 _ _ _ D1 D2). lia. }
    split.
    + intros [Hi [H|(k & K1 & K2)]]; [lia|]. cbn [Z.add] in K2. apply A3' in K1 as (c & p & C1 & C2).
      assert (Uk : uses c (Z.of_nat k)) by (split; [lia|rewrite Nat2Z.id; exact C2]).
      replace (0 + Z.of_nat k)%Z with (Z.of_nat k) in K2 by lia.
      destruct K2 as [[K2 ->]|[K2 K3]].
      * split; [split; [exact Hi|rewrite <- Der; lia]|]. exists c, p. split; [exact C1|]. left. exact Uk.
      * destruct (T2 _ K2) as (d & D1 & D2).
        destruct (@deps_spec _ _ iadd P n m HF EX st _ d i Rst D1) as [_ D3]. rewrite Ed' in D3. destruct (proj1 D3 K3) as [D4 D5].
        split; [split; [exact Hi|exact D5]|]. exists c, p. split; [exact C1|]. right. exists (Z.of_nat k), d.
        split; [exact Uk|]. split; [rewrite <- Ed'; eapply nth_error_In, D1|]. auto.
    + intros [[Hi Ho] (c & p & C1 & C2)]. split; [exact Hi|]. right. destruct C2 as [U|(o & d & U & Hd & Hc & Hn)].
      * exists (Z.to_nat i). split; [apply A3'; exists c, p; split; [exact C1|apply U]|]. left.
        replace (0 + Z.of_nat (Z.to_nat i))%Z with i by lia. split; [|reflexivity].
        destruct (Z.ltb_spec (derF st i) 0) as [H|H]; [exact H|]. apply Der in H. contradiction.
      * destruct U as [U1 U2]. exists (Z.to_nat o). split; [apply A3'; exists c, p; auto|]. right.
        replace (0 + Z.of_nat (Z.to_nat o))%Z with o by lia.
        rewrite <- Ed' in Hd. apply In_nth_error in Hd as [j Hj]. rewrite (T1 _ _ _ Hj Hc). split; [lia|]. rewrite Nat2Z.id.
        destruct (@deps_spec _ _ iadd P n m HF EX st _ d i Rst Hj) as [_ D3]. rewrite Ed' in D3. apply D3. auto.
Qed.

Lemma implicit_dof_gap (s : bs F V) l : breach s l -> (0 < m)%Z ->
  (exists p, p < nlevels (numeric_ones l) /\ at_level (numeric_ones l) p = []) -> implicit_dof iadd s = None.
Proof.
  intros R Hm (p & Hp & He). pose proof (breach_inv feq zero iadd mem okq P n m HF _ _ R) as I. pose proof (bi_h _ _ _ _ _ _ _ _ _ _ I) as Hh.
  destruct (bi_e _ _ _ _ _ _ _ _ _ _ I) as (st & Rst & Es). pose proof (reach_inv iadd P n m st HF Rst) as Iv.
  assert (Env : nv (bs_e s) = m) by (rewrite Es; apply (i_nv _ _ _ _ _ Iv)).
  destruct (layout feq zero mem okq EQ _ _ Hh) as (_ & LL & L & _).
  assert (Lc : forall p lv, nth_error (lvls (bs_h s)) p = Some lv -> l_cons lv = at_level (numeric_ones l) p) by (intros q lv Hq; apply (L q lv Hq)).
  unfold implicit_dof, solver_adp. rewrite Env. rewrite (adp_loop_gap zero okq (Z.to_nat m)); [reflexivity| | | |lia].
  - destruct (nth_error (lvls (bs_h s)) p) as [lv|] eqn:Ep; [|apply nth_error_None in Ep; lia].
    exists lv. split; [eapply nth_error_In, Ep|]. rewrite (Lc _ _ Ep). exact He.
  - intros lv c Hl Hc. apply In_nth_error in Hl as [q Hq]. rewrite (Lc q lv Hq) in Hc. apply at_level_In in Hc. eapply breach_adp; eassumption.
  - apply repeat_length.
Qed.
End Final.
