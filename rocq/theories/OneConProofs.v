(** Satisfaction of one constraint of the solver by substitution. *)
From Coq Require Import ZArith List Bool Lia Floats.SpecFloat.
From Verif Require Import EcsModel EcsSpec EcsRhsModel EcsRhsSpec EcsRhsProofs NanModel NanProofs ImplModel ImplSpec HierModel HierSpec HierProofs HierRhsProofs
  HierErrProofs BySubModel BySubSpec BySubProofs AccModel AccSpec AccProofs OneConModel.
Import ListNotations.
Local Open Scope nat_scope.

Section P.
Context {F V : Type}.
Variable feq : F -> F -> bool.
Variable zero : V.
Variable iadd : Z -> Z -> Z.
Variable mem : imp V -> list V -> Prop.
Variable okq : (Z -> V) -> Prop.
Hypothesis E : equivalence feq.
Variable P : con V (list V) -> Prop.
Variables n m : Z.
Hypothesis HF : family n m P.
Variable sqn : list V -> spec_float.
Notation bc := (bc F V).
Notation bs := (bs F V).
Notation breach := (breach feq zero iadd mem okq P n m).
Notation bcon_sat := (bcon_sat feq zero sqn).

Lemma err_length (s : bs) l q i c r : breach s l -> nth_error (explicit_ones l) i = Some c -> nth_error (rhsl (bs_e s)) i = Some r ->
  length (s_minus (ic_s (bc_c c)) (s_fun (ic_s (bc_c c)) q) r) = s_nv (ic_s (bc_c c)).
Proof.
  intros R Hc Hr. pose proof (breach_inv _ _ _ _ _ _ _ _ HF _ _ R) as I.
  assert (Hin := nth_error_In _ _ Hc). apply explicit_In in Hin. destruct (bi_wf _ _ _ _ _ _ _ _ _ _ I _ _ Hin) as ((_ & _ & _ & W4 & W5 & W6) & _ & _).
  apply W6; [apply W5|]. destruct (bi_rhs _ _ _ _ _ _ _ _ _ _ I i (ic_s (bc_c c)) r) as [M _]; [unfold imps; rewrite nth_error_map, Hc; reflexivity|exact Hr|].
  destruct W4 as (_ & W4 & _). apply W4, M.
Qed.

Lemma numeric_test (s : bs) l c p sqthr d q error : breach s l -> In (c, Numerically p) l -> length error = s_nv (ic_s (bc_c c)) ->
  exists r, get_rhs_of feq (bs_h s) (bc_f c) (s_nq (ic_s (bc_c c))) = Some (Some r) /\ length r = s_nq (ic_s (bc_c c)) /\
  let e := masked zero (m_mask (ic_i (bc_c c))) (s_minus (ic_s (bc_c c)) (s_fun (ic_s (bc_c c)) q) r) in
  bcon_sat s c sqthr d q error = Some (flt (sqn e) sqthr, true, e) /\ hcon_sat feq zero sqn (bs_h s) (bc_c c) sqthr q = Some (flt (sqn e) sqthr, true, e).
Proof.
  intros R Hc L. pose proof (breach_inv _ _ _ _ _ _ _ _ HF _ _ R) as I.
  destruct (hcon_sat_spec feq zero mem okq (fun a _ => a) (fun a _ => a) (fun a => a) (fun _ _ => true) sqn E (bs_h s) (numeric_ones l) (bc_c c) p q sqthr (bi_h _ _ _ _ _ _ _ _ _ _ I)) as (r & A1 & A2 & A3).
  { apply numeric_In. exists c. auto. }
  exists r. split; [exact A1|]. split; [exact A2|]. cbv zeta in *. unfold OneConModel.bcon_sat. rewrite L, Nat.eqb_refl, A3. auto.
Qed.
Lemma explicit_test (s : bs) l c i sqthr d q error : breach s l -> nth_error (explicit_ones l) i = Some c ->
  (forall b p, In (b, Numerically p) l -> feq (bc_f b) (bc_f c) = false) ->
  (forall j b, j < i -> nth_error (explicit_ones l) j = Some b -> feq (bc_f b) (bc_f c) = false) ->
  length error = s_nv (ic_s (bc_c c)) ->
  exists r, nth_error (rhsl (bs_e s)) i = Some r /\
  let e := s_minus (ic_s (bc_c c)) (s_fun (ic_s (bc_c c)) q) r in
  bcon_sat s c sqthr d q error = Some (flt (sqn e) (fmul d d), true, e).
Proof.
  intros R Hc Nn Ne L. pose proof (breach_inv _ _ _ _ _ _ _ _ HF _ _ R) as I. pose proof (bi_len _ _ _ _ _ _ _ _ _ _ I) as Lr.
  destruct (nth_error (rhsl (bs_e s)) i) as [r|] eqn:Hr.
  2:{ apply nth_error_None in Hr. assert (i < length (explicit_ones l)) by (apply nth_error_Some; congruence). lia. }
  exists r. split; [reflexivity|]. cbv zeta. unfold OneConModel.bcon_sat. rewrite L, Nat.eqb_refl.
  rewrite (hcon_sat_unknown feq zero mem okq sqn (bs_h s) (numeric_ones l)); [|apply I|].
  2:{ intros b p Hb. apply numeric_In in Hb as (b' & Hb & <-). apply (Nn _ _ Hb). }
  rewrite (con_satisfied_spec sqn (same_function feq s c) (bs_imps s) (rhsl (bs_e s)) q d i (ic_s (bc_c c)) r).
  - rewrite (err_length s l q i c r R Hc Hr), Nat.eqb_refl. reflexivity.
  - rewrite (imps_ex _ _ _ _ _ _ _ _ _ _ I). unfold imps. rewrite map_length. exact Lr.
  - rewrite (imps_ex _ _ _ _ _ _ _ _ _ _ I). unfold imps. rewrite nth_error_map, Hc. reflexivity.
  - exact Hr.
  - unfold same_function. rewrite (bi_ex _ _ _ _ _ _ _ _ _ _ I), Hc. apply (proj1 E).
  - intros j Hj. unfold same_function. rewrite (bi_ex _ _ _ _ _ _ _ _ _ _ I). destruct (nth_error (explicit_ones l) j) as [b|] eqn:Hb; [|reflexivity]. apply (Ne j b Hj Hb).
Qed.
Lemma unknown_test (s : bs) l c sqthr d q error : breach s l -> (forall b h, In (b, h) l -> feq (bc_f b) (bc_f c) = false) ->
  length error = s_nv (ic_s (bc_c c)) -> bcon_sat s c sqthr d q error = Some (false, false, error).
Proof.
  intros R H L. pose proof (breach_inv _ _ _ _ _ _ _ _ HF _ _ R) as I.
  unfold OneConModel.bcon_sat. rewrite L, Nat.eqb_refl.
  rewrite (hcon_sat_unknown feq zero mem okq sqn (bs_h s) (numeric_ones l)); [|apply I|].
  2:{ intros b p Hb. apply numeric_In in Hb as (b' & Hb & <-). apply (H _ _ Hb). }
  unfold con_satisfied. pose proof (find_idx_spec (same_function feq s c) (length (bs_imps s)) 0) as G.
  destruct (find_idx _ _ 0) as [k|]; [|reflexivity]. destruct G as (_ & G & _). unfold same_function in G. rewrite (bi_ex _ _ _ _ _ _ _ _ _ _ I) in G.
  destruct (nth_error (explicit_ones l) k) as [b|] eqn:Hb; [|discriminate]. apply nth_error_In, explicit_In in Hb. rewrite (H _ _ Hb) in G. discriminate.
Qed.
Lemma all_tests (add sub : V -> V -> V) (neg : V -> V) (ltb : V -> V -> bool) (s : bs) l ineq sqthr d q :
  breach s l -> (last_optional (bs_h s) = true -> numeric_ones l <> []) ->
  flt fzero sqthr = true -> flt fzero (fmul d d) = true ->
  (forall c p, In (c, Numerically p) l -> forall t, In t (s_cmp (ic_s (bc_c c))) -> t <> Superior /\ t <> Inferior) ->
  (forall b c p, In (b, Numerically p) l -> In (c, Explicitly) l -> feq (bc_f b) (bc_f c) = false) ->
  (forall i j b c, nth_error (explicit_ones l) i = Some b -> nth_error (explicit_ones l) j = Some c -> feq (bc_f b) (bc_f c) = true -> i = j) ->
  (forall c h b error e, In (c, h) l -> bcon_sat s c sqthr d q error = Some (b, true, e) -> isnan (sqn e) = false) ->
  let ok c := forall error, length error = s_nv (ic_s (bc_c c)) -> exists e, bcon_sat s c sqthr d q error = Some (true, true, e) in
  (bsat zero add sub neg ltb sqn sqthr d ineq s q = Some true <->
   (forall c p, In (c, Numerically p) l -> p < counted (bs_h s) (numeric_ones l) -> ok c) /\ (forall c, In (c, Explicitly) l -> ok c)).
Proof.
  intros R NE F1 F2 Heq Sn Se Hn ok. pose proof (breach_inv _ _ _ _ _ _ _ _ HF _ _ R) as I.
  assert (Zr : forall c : bc, length (repeat zero (s_nv (ic_s (bc_c c)))) = s_nv (ic_s (bc_c c))) by (intros; apply repeat_length).
  assert (PC : hsat zero add sub neg ltb sqn (bs_h s) ineq sqthr q = Some true <-> forall c p, In (c, Numerically p) l -> p < counted (bs_h s) (numeric_ones l) -> ok c).
  { rewrite (per_constraint feq zero mem okq add sub neg ltb sqn E (bs_h s) (numeric_ones l) ineq sqthr q (bi_h _ _ _ _ _ _ _ _ _ _ I) NE F1).
    - split.
      + intros H c p Hc Hp error L. destruct (H (bc_c c) p) as [e He]; [apply numeric_In; exists c; auto|exact Hp|].
        destruct (numeric_test s l c p sqthr d q error R Hc L) as (r & _ & _ & A & B). rewrite He in B. injection B as B1 B2. rewrite A, <- B1. eexists; reflexivity.
      + intros H c p Hc Hp. apply numeric_In in Hc as (c' & Hc & <-). destruct (H _ _ Hc Hp _ (Zr c')) as [e He].
        destruct (numeric_test s l c' p sqthr d q _ R Hc (Zr c')) as (r & _ & _ & A & B). rewrite He in A. injection A as A1 A2. rewrite B, <- A1. eexists; reflexivity.
    - intros c p Hc. apply numeric_In in Hc as (c' & Hc & <-). apply (Heq _ _ Hc).
    - intros c p b e Hc He. apply numeric_In in Hc as (c' & Hc & <-). destruct (numeric_test s l c' p sqthr d q _ R Hc (Zr c')) as (r & _ & _ & A & B).
      rewrite He in B. injection B as -> ->. apply (Hn _ _ _ _ _ Hc A). }
  assert (T : forall i c error, nth_error (explicit_ones l) i = Some c -> length error = s_nv (ic_s (bc_c c)) -> exists r, nth_error (rhsl (bs_e s)) i = Some r /\
    let e := s_minus (ic_s (bc_c c)) (s_fun (ic_s (bc_c c)) q) r in bcon_sat s c sqthr d q error = Some (flt (sqn e) (fmul d d), true, e)).
  { intros i c error Hc L. apply (explicit_test s l c i sqthr d q error R Hc); [|  |exact L].
    - intros b p Hb. apply (Sn b c p Hb). apply explicit_In. eapply nth_error_In; eassumption.
    - intros j b Hj Hb. destruct (feq (bc_f b) (bc_f c)) eqn:Ef; [|reflexivity]. pose proof (Se j i b c Hb Hc Ef). lia. }
  assert (PE : fst (is_satisfied sqn (bs_imps s) (rhsl (bs_e s)) q d minus_one) = true <-> forall c, In (c, Explicitly) l -> ok c).
  { destruct (is_satisfied_spec sqn (bs_imps s) (rhsl (bs_e s)) q d minus_one) as [S1 _].
    { rewrite (imps_ex _ _ _ _ _ _ _ _ _ _ I). unfold imps. rewrite map_length. apply I. }
    assert (Et : eff_thr d minus_one = d) by reflexivity. rewrite Et in S1. rewrite S1. rewrite (imps_ex _ _ _ _ _ _ _ _ _ _ I). unfold imps. split.
    - intros [_ B] c Hc error L. apply explicit_In, In_nth_error in Hc as [i Hi]. destruct (T i c error Hi L) as (r & Hr & A). cbv zeta in A.
      assert (X := B i (ic_s (bc_c c)) r). rewrite nth_error_map, Hi in X. specialize (X eq_refl Hr).
      assert (Hin := nth_error_In _ _ Hi). apply explicit_In in Hin. pose proof (Hn _ _ _ _ _ Hin A) as N. destruct X as [X|X]; [congruence|]. rewrite A, X. eexists; reflexivity.
    - intros H. split; [exact F2|]. intros i c r Hc Hr. rewrite nth_error_map in Hc. destruct (nth_error (explicit_ones l) i) as [c'|] eqn:Hi; [|discriminate]. injection Hc as <-.
      assert (Hin := nth_error_In _ _ Hi). apply explicit_In in Hin. destruct (H _ Hin _ (Zr c')) as [e He]. destruct (T i c' _ Hi (Zr c')) as (r' & Hr' & A). rewrite Hr in Hr'. injection Hr' as <-.
      cbv zeta in A. rewrite He in A. injection A as A _. right. symmetry. exact A. }
  rewrite <- PC, <- PE. unfold bsat, both. destruct (hsat zero add sub neg ltb sqn (bs_h s) ineq sqthr q) as [[|]|]; split; try tauto; try (intros; discriminate).
  - intros H. injection H as H. auto.
  - intros [_ H]. now rewrite H.
Qed.
End P.
