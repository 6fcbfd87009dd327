From Coq Require Import ZArith List Bool Lia.
From Verif Require Import SegSpec SegModel EcsModel EcsSpec EcsRhsModel EcsRhsSpec EcsRhsProofs EcsMainProofs EcsFinalProofs.
From Verif Require Import ImplModel ImplSpec ImplProofs HierModel HierSpec HierProofs HierRhsProofs BySubModel BySubSpec BySubProofs.
Import ListNotations.
Local Open Scope nat_scope.

Section Rhs.
Context {F V : Type}.
Variables (feq : F -> F -> bool) (zero : V) (iadd : Z -> Z -> Z) (mem : imp V -> list V -> Prop) (okq : (Z -> V) -> Prop).
Hypothesis EQ : equivalence feq.
Variables (P : con V (list V) -> Prop) (n m : Z).
Hypothesis HF : family n m P.
Notation breach := (breach feq zero iadd mem okq P n m).
Notation bc := (bc F V).
Notation bs := (bs F V).

(** a constraint treated numerically, given by any constraint with an equal function *)
Lemma numeric_set_get (s : bs) l k c p c' x : breach s l ->
  nth_error (numeric_ones l) k = Some (c, p) -> feq (ic_f c) (bc_f c') = true ->
  s_nq (ic_s (bc_c c')) = s_nq (ic_s c) -> length x = s_nq (ic_s c) ->
  exists s', bset_of feq zero s c' x = Some (s', true) /\ bget_of feq s' c' = Some (Some x) /\
    (forall j d r, j <> k -> nth_error (numeric_ones l) j = Some (d, r) ->
       get_rhs_of feq (bs_h s') (ic_f d) (s_nq (ic_s d)) = get_rhs_of feq (bs_h s) (ic_f d) (s_nq (ic_s d))) /\
    bs_e s' = bs_e s /\ bs_ex s' = bs_ex s /\ bs_cons s' = bs_cons s /\ bs_free s' = bs_free s.
Proof.
  intros R Hk Hf Hn Hx. pose proof (bi_h _ _ _ _ _ _ _ _ _ _ (breach_inv feq zero iadd mem okq P n m HF _ _ R)) as Hh.
  destruct (set_get feq zero mem okq EQ _ _ _ _ _ _ _ Hh Hk Hf Hx) as (h & A1 & A2 & A3 & A4 & _).
  exists (bs_rhs s h (rhsl (bs_e s))). unfold bset_of. rewrite A1. split; [reflexivity|]. split.
  - unfold bget_of. cbn [bs_rhs bs_h]. rewrite Hn, A3. reflexivity.
  - split; [exact A4|]. cbn. rewrite with_rhs_same. auto.
Qed.

(** a constraint treated explicitly, when no numerical one has an equal function *)
Lemma explicit_set_get (s : bs) l k c x : breach s l ->
  nth_error (explicit_ones l) k = Some c -> ~ function_present feq l c ->
  (forall j d, j < k -> nth_error (explicit_ones l) j = Some d -> feq (bc_f d) (bc_f c) = false) ->
  mem (ic_s (bc_c c)) x ->
  exists s', bset_of feq zero s c x = Some (s', true) /\ bget_of feq s' c = Some (Some (proj zero (ic_s (bc_c c)) x)) /\
    (forall j, j <> k -> nth_error (rhsl (bs_e s')) j = nth_error (rhsl (bs_e s)) j) /\
    nth_error (rhsl (bs_e s')) k = Some (proj zero (ic_s (bc_c c)) x) /\
    bs_h s' = bs_h s /\ bs_ex s' = bs_ex s /\ bs_cons s' = bs_cons s /\ bs_free s' = bs_free s.
Proof.
  intros R Hk Hf Hfirst Hx. pose proof (breach_inv feq zero iadd mem okq P n m HF _ _ R) as I.
  pose proof (bi_h _ _ _ _ _ _ _ _ _ _ I) as Hh. pose proof (bi_ex _ _ _ _ _ _ _ _ _ _ I) as Ex. pose proof (bi_len _ _ _ _ _ _ _ _ _ _ I) as Len.
  pose proof (bi_all _ _ _ _ _ _ _ _ _ _ I) as All.
  assert (Hno : forall d p, In (d, p) (numeric_ones l) -> feq (ic_f d) (bc_f c) = false).
  { intros d p Hd. destruct (feq (ic_f d) (bc_f c)) eqn:E; [|reflexivity]. exfalso. apply Hf. apply numeric_In in Hd as (d' & Hd & <-). exists d', p. auto. }
  assert (Hse : exists e, as_explicit (bc_k c) = Some e).
  { assert (H : In (bc_con c) (map Some (excons l))). { rewrite <- All. apply in_map. eapply nth_error_In, Hk. }
    apply in_map_iff in H as (y & H & _). unfold bc_con in H. destruct (as_explicit (bc_k c)) as [e|]; [eauto|discriminate]. }
  destruct Hse as [e Hse].
  assert (Hin : In (c, Explicitly) l) by (apply explicit_In; eapply nth_error_In, Hk).
  assert (Wc : wf_imp zero mem okq (ic_s (bc_c c))). { destruct (bi_wf _ _ _ _ _ _ _ _ _ _ I _ _ Hin) as (W & _). apply W. }
  assert (Li : length (rhsl (bs_e s)) = length (bs_imps s)) by (unfold bs_imps; rewrite map_length, Ex; exact Len).
  assert (Hki : nth_error (bs_imps s) k = Some (ic_s (bc_c c))) by (unfold bs_imps; rewrite nth_error_map, Ex, Hk; reflexivity).
  assert (S1 : same_as feq s c k = true).
  { unfold same_as. rewrite Ex, Hk. apply orb_true_iff. right. destruct EQ as (E1 & _). apply E1. }
  assert (S2 : forall j, j < k -> same_as feq s c j = false).
  { intros j Hj. unfold same_as. rewrite Ex. destruct (nth_error (explicit_ones l) j) as [d|] eqn:Ed; [|reflexivity].
    pose proof (Hfirst j d Hj Ed) as E. rewrite E, orb_false_r. destruct (beq feq d c) eqn:Eb; [|reflexivity].
    apply eq_con_spec in Eb. destruct Eb as (_ & _ & Eb & _). cbn in Eb. unfold bc_f, ic_f in E. congruence. }
  destruct (set_get_con zero mem okq (same_as feq s c) (bs_imps s) (rhsl (bs_e s)) x k _ Li Hki S1 S2 Wc Hx) as (rl & A1 & A2 & A3).
  exists (bs_rhs s (bs_h s) rl).
  destruct (set_unknown feq zero mem okq _ _ (bc_f c) x (s_nq (ic_s (bc_c c))) Hh Hno) as [U1 U2].
  assert (G : get_rhs_con (same_as feq s c) (bs_imps s) rl = Some (proj zero (ic_s (bc_c c)) x)) by exact A2.
  split; [unfold bset_of; rewrite U1, Hse, A1; reflexivity|]. split; [|split; [exact A3|]].
  - unfold bget_of. cbn [bs_rhs bs_h]. rewrite U2, Hse. f_equal. exact A2.
  - split; [|auto]. cbn. unfold get_rhs_con in G. destruct (find_idx (same_as feq s c) (length (bs_imps s)) 0) as [i|] eqn:Ef; [|discriminate].
    pose proof (find_idx_spec (same_as feq s c) (length (bs_imps s)) 0) as Sf. rewrite Ef in Sf. destruct Sf as (B1 & B2 & B3).
    assert (i = k); [|subst; exact G]. destruct (Nat.lt_trichotomy i k) as [H|[H|H]]; [rewrite S2 in B2 by exact H; discriminate|exact H|].
    rewrite B3 in S1 by lia. discriminate.
Qed.

Lemma set_get_unknown (s : bs) l c x : breach s l ->
  (forall d h, In (d, h) l -> feq (bc_f d) (bc_f c) = false) ->
  bset_of feq zero s c x = Some (s, false) /\ bget_of feq s c = Some None.
Proof.
  intros R Hf. pose proof (breach_inv feq zero iadd mem okq P n m HF _ _ R) as I.
  pose proof (bi_h _ _ _ _ _ _ _ _ _ _ I) as Hh. pose proof (bi_ex _ _ _ _ _ _ _ _ _ _ I) as Ex.
  assert (Hno : forall d p, In (d, p) (numeric_ones l) -> feq (ic_f d) (bc_f c) = false).
  { intros d p Hd. apply numeric_In in Hd as (d' & Hd & <-). eapply Hf, Hd. }
  destruct (set_unknown feq zero mem okq _ _ (bc_f c) x (s_nq (ic_s (bc_c c))) Hh Hno) as [U1 U2].
  assert (S : forall j, j < length (bs_imps s) -> same_as feq s c j = false).
  { intros j _. unfold same_as. rewrite Ex. destruct (nth_error (explicit_ones l) j) as [d|] eqn:Ed; [|reflexivity].
    apply nth_error_In, explicit_In in Ed. pose proof (Hf _ _ Ed) as E. rewrite E, orb_false_r. destruct (beq feq d c) eqn:Eb; [|reflexivity].
    apply eq_con_spec in Eb. destruct Eb as (_ & _ & Eb & _). cbn in Eb. unfold bc_f, ic_f in E. congruence. }
  destruct (set_con_missing zero (same_as feq s c) (bs_imps s) (rhsl (bs_e s)) x S) as [M1 M2].
  unfold bset_of, bget_of. rewrite U1, U2. destruct (as_explicit (bc_k c)); [|auto]. rewrite M1, M2. split; [|reflexivity].
  f_equal. f_equal. unfold bs_rhs. rewrite with_rhs_same. destruct s. reflexivity.
Qed.

(** C29: read then write the whole vector *)
Lemma hier_write_back (h : hs F V) adds : HierSpec.hreach feq zero mem okq h adds -> (nlevels adds = 0 \/ nlevels adds = 1 /\
   Forall2 (fun c y => s_exp c (s_log c y) = y) (map ic_s (at_level adds 0)) (pieces (map ic_s (at_level adds 0)) (get_rhs_whole h))) ->
  length (get_rhs_whole h) = sum_nq (at_level adds 0) /\ set_rhs_whole h (get_rhs_whole h) = Some h.
Proof.
  intros R [N|[N Hl]]; destruct (layout feq zero mem okq EQ _ _ R) as (_ & LL & L & _); rewrite N in LL.
  - assert (adds = []) as -> by (destruct adds as [|a t]; [reflexivity|]; change (Nat.max (S (snd a)) (list_max (map (fun b => S (snd b)) t)) = 0) in N; lia).
    destruct h as [ls pr iq iv hc lo]. cbn in LL. destruct ls; [|discriminate LL]. split; reflexivity.
  - assert (Lh : length (get_rhs_whole h) = sum_nq (at_level adds 0)).
    { unfold get_rhs_whole. destruct (lvls h) as [|lv [|]] eqn:El; try discriminate LL. cbn. rewrite app_nil_r. apply (L 0 lv). reflexivity. }
    split; [exact Lh|]. destruct (whole_one_level feq zero mem okq _ _ (get_rhs_whole h) R N Lh Hl) as (h' & A & _ & B). rewrite A, B; reflexivity.
Qed.

Lemma whole_write_back (s : bs) l : breach s l ->
  (nlevels (numeric_ones l) = 0 \/ nlevels (numeric_ones l) = 1 /\
   Forall2 (fun c y => s_exp c (s_log c y) = y) (map ic_s (at_level (numeric_ones l) 0)) (pieces (map ic_s (at_level (numeric_ones l) 0)) (get_rhs_whole (bs_h s)))) ->
  (explicit_ones l = [] \/ sum_nq (at_level (numeric_ones l) 0) = 0) ->
  bset_whole zero s (bget_whole s) = Some s.
Proof.
  intros R N E. pose proof (breach_inv feq zero iadd mem okq P n m HF _ _ R) as I.
  pose proof (bi_h _ _ _ _ _ _ _ _ _ _ I) as Hh. pose proof (bi_ex _ _ _ _ _ _ _ _ _ _ I) as Ex. pose proof (bi_len _ _ _ _ _ _ _ _ _ _ I) as Len.
  destruct (hier_write_back _ _ Hh N) as [Lh Wh].
  assert (W : forall c, In c (bs_imps s) -> wf_imp zero mem okq c).
  { intros c H. apply in_map_iff in H as (d & <- & H). rewrite Ex in H. apply explicit_In in H. destruct (bi_wf _ _ _ _ _ _ _ _ _ _ I _ _ H) as (Hw & _). apply Hw. }
  assert (Li : length (rhsl (bs_e s)) = length (bs_imps s)) by (unfold bs_imps; rewrite map_length, Ex; exact Len).
  assert (Hr : forall i c r, nth_error (bs_imps s) i = Some c -> nth_error (rhsl (bs_e s)) i = Some r -> mem c r /\ proj zero c r = r).
  { intros i c r H1 H2. eapply (bi_rhs _ _ _ _ _ _ _ _ _ _ I); [|exact H2]. unfold bs_imps in H1. rewrite Ex in H1. exact H1. }
  pose proof (projected_write_all zero mem okq (bs_imps s) W (rhsl (bs_e s)) Li Hr) as Wa.
  assert (Lb : length (concat (rhsl (bs_e s))) = rhs_size (bs_imps s)).
  { rewrite rhs_size_total. unfold total_size. clear -W Li Hr. revert W Li Hr. generalize (rhsl (bs_e s)). induction (bs_imps s) as [|c cs IH]; intros [|r rl] W L H; try discriminate L; [reflexivity|].
    cbn. rewrite app_length, (IH rl). { f_equal. apply (W c (or_introl eq_refl)). apply (H 0 c r eq_refl eq_refl). }
    intros; apply W; right; assumption. cbn in L; lia. intros i; apply (H (S i)). }
  unfold bset_whole, bget_whole, get_all. rewrite app_length, Lb, Lh.
  replace (Nat.leb _ _) with true by (symmetry; apply Nat.leb_le; lia). replace (Nat.leb _ _) with true by (symmetry; apply Nat.leb_le; lia). cbn [andb].
  rewrite firstn_app, Lh, Nat.sub_diag, firstn_O, app_nil_r. rewrite <- Lh, firstn_all, Wh.
  replace (firstn (rhs_size (bs_imps s)) (get_rhs_whole (bs_h s) ++ concat (rhsl (bs_e s)))) with (concat (rhsl (bs_e s))).
  - rewrite Wa. unfold bs_rhs. rewrite with_rhs_same. destruct s. reflexivity.
  - destruct E as [E|E].
    + assert (Hi : bs_imps s = []) by (unfold bs_imps; rewrite Ex, E; reflexivity). rewrite Hi in *. destruct (rhsl (bs_e s)); [reflexivity|discriminate Li].
    + rewrite E in Lh. destruct (get_rhs_whole (bs_h s)); [|discriminate Lh]. cbn. rewrite <- Lb, firstn_all. reflexivity.
Qed.

(** C30 *)
Lemma addition_rhs (s : bs) l c p fuel s' : breach s l -> wf_bc zero mem okq P m c -> badd feq iadd fuel s c p = (s', BYes) ->
  exists h, breach s' (l ++ [(c, h)]) /\
  (forall d r, In (d, r) (numeric_ones (l ++ [(c, h)])) ->
     get_rhs_of feq (bs_h s') (ic_f d) (s_nq (ic_s d)) = Some (Some (s_neutral (ic_s d)))) /\
  rhsl (bs_e s') = rhsl (bs_e s) ++ match h with Explicitly => [s_neutral (ic_s (bc_c c))] | _ => [] end.
Proof.
  intros R W A. pose proof (breach_inv feq zero iadd mem okq P n m HF _ _ R) as I.
  pose proof (bi_h _ _ _ _ _ _ _ _ _ _ I) as Hh.
  assert (Num : badd_num feq s c p = (s', BYes) -> exists h, breach s' (l ++ [(c, h)]) /\
    (forall d r, In (d, r) (numeric_ones (l ++ [(c, h)])) -> get_rhs_of feq (bs_h s') (ic_f d) (s_nq (ic_s d)) = Some (Some (s_neutral (ic_s d)))) /\
    rhsl (bs_e s') = rhsl (bs_e s) ++ match h with Explicitly => [s_neutral (ic_s (bc_c c))] | _ => [] end).
  { intros B. unfold badd_num in B. destruct (hadd feq (bs_h s) (bc_c c) p) as [h|] eqn:Eh; [|discriminate]. injection B as <-.
    exists (Numerically p). split; [eapply br_numeric; [exact R|exact W|exact A|reflexivity]|]. split.
    - rewrite numeric_ones_app. cbn [numeric_ones flat_map snd fst app bs_h]. apply (add_resets feq zero mem okq EQ (bs_h s) _ _ _ _ Hh (proj1 W) Eh).
    - cbn. rewrite app_nil_r. reflexivity. }
  pose proof A as A0. unfold badd in A. destruct (bcontains feq s c); [discriminate|]. destruct (bc_con c) as [x|] eqn:Ec; [|exact (Num A)].
  destruct (bi_e _ _ _ _ _ _ _ _ _ _ I) as (st & Rst & Es).
  destruct (add iadd fuel (bs_e s) x) as [e r] eqn:Ea. destruct r; try discriminate; [|exact (Num A)].
  injection A as <-. exists Explicitly. split; [eapply br_explicit; [exact R|exact W|exact A0|reflexivity]|]. split.
  - rewrite numeric_ones_app. cbn [numeric_ones flat_map snd fst app bs_h changed]. rewrite app_nil_r. apply (update_resets feq zero mem okq EQ _ _ Hh).
  - cbn. rewrite Es, add_with_rhs in Ea. destruct (add iadd fuel st x) as [e' r'] eqn:Ea'.
    destruct r'; inversion Ea; subst. cbn. unfold bc_con in Ec. destruct (as_explicit (bc_k c)); [|discriminate]. injection Ec as <-. reflexivity.
Qed.
End Rhs.
