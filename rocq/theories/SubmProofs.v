(** What definesSubmanifoldOf says about the configurations accepted by two solvers. *)
From Coq Require Import ZArith List Bool Lia Floats.SpecFloat.
From Verif Require Import SegModel EcsModel EcsSpec EcsRhsModel EcsRhsSpec EcsRhsProofs NanModel ImplModel ImplSpec
  HierModel HierSpec HierProofs HierRhsProofs HierErrProofs BySubModel BySubSpec BySubProofs BySubMergeProofs
  AccModel AccSpec AccProofs.
Import ListNotations.
Local Open Scope nat_scope.

Section P.
Context {F V : Type}.
Variable feq : F -> F -> bool.
Variable zero : V.
Variable mem : imp V -> list V -> Prop.
Variable okq : (Z -> V) -> Prop.
Variables (add sub : V -> V -> V) (neg : V -> V) (ltb : V -> V -> bool) (sqn : list V -> spec_float).
Hypothesis E : equivalence feq.

Lemma hsub_iff (s o : hs F V) adds oadds : hreach feq zero mem okq s adds -> hreach feq zero mem okq o oadds ->
  (hsub feq s o = true <-> forall c p, In (c, p) oadds -> exists d r, In (d, r) adds /\ feq (ic_f d) (ic_f c) = true).
Proof.
  intros Rs Ro. assert (Is := hreach_inv _ _ _ _ _ _ Rs). assert (Io := hreach_inv _ _ _ _ _ _ Ro).
  unfold hsub. rewrite (submanifold_spec feq), (inv_cons _ _ _ _ _ _ Is), (inv_cons _ _ _ _ _ _ Io). split.
  - intros H c p Hc. destruct (H (ic_f c)) as (g & G1 & G2).
    { rewrite map_map. apply in_map_iff. exists (c, p). auto. }
    rewrite map_map in G1. apply in_map_iff in G1 as ((d, r) & <- & G). eauto.
  - intros H f Hf. rewrite map_map in Hf. apply in_map_iff in Hf as ((c, p) & <- & Hc).
    destruct (H c p Hc) as (d & r & D1 & D2). exists (ic_f d). split; [|exact D2].
    rewrite map_map. apply in_map_iff. exists (d, r). auto.
Qed.

Lemma hsub_sat (s o : hs F V) adds oadds thr sqthr q :
  hreach feq zero mem okq s adds -> hreach feq zero mem okq o oadds -> (last_optional o = true -> oadds <> []) ->
  (last_optional s = true -> adds <> []) ->
  hsub feq s o = true ->
  (forall d r c p, In (d, r) adds -> In (c, p) oadds -> p < counted o oadds -> feq (ic_f d) (ic_f c) = true ->
     r < counted s adds /\ ic_s d = ic_s c /\ m_mask (ic_i d) = m_mask (ic_i c) /\
     get_rhs_of feq s (ic_f d) (s_nq (ic_s d)) = get_rhs_of feq o (ic_f c) (s_nq (ic_s c))) ->
  hsat zero add sub neg ltb sqn s thr sqthr q = Some true -> hsat zero add sub neg ltb sqn o thr sqthr q = Some true.
Proof.
  intros Rs Ro No Ns Hsub Hsame Hs.
  destruct (hsat_spec feq zero mem okq add sub neg ltb sqn E s adds thr sqthr q Rs Ns) as (b & B1 & B2).
  destruct (hsat_spec feq zero mem okq add sub neg ltb sqn E o oadds thr sqthr q Ro No) as (b' & B1' & B2').
  rewrite B1 in Hs. injection Hs as ->. rewrite B1'. f_equal. apply B2'.
  destruct (proj1 B2 eq_refl) as [T1 T2]. split; [exact T1|].
  intros c p r Hc Hp Hr. destruct (proj1 (hsub_iff s o adds oadds Rs Ro) Hsub c p Hc) as (d & k & D1 & D2).
  destruct (Hsame d k c p D1 Hc Hp D2) as (K1 & K2 & K3 & K4).
  specialize (T2 d k r D1 K1). rewrite K4 in T2. specialize (T2 Hr). unfold con_error in *. rewrite K2, K3 in T2. exact T2.
Qed.
End P.

Section B.
Context {F V : Type}.
Variable feq : F -> F -> bool.
Variable zero : V.
Variable iadd : Z -> Z -> Z.
Variable mem : imp V -> list V -> Prop.
Variable okq : (Z -> V) -> Prop.
Hypothesis E : equivalence feq.
Variable P : con V (list V) -> Prop.
Variables n m : Z.
Hypothesis HF : family n m P.
Variables (add sub : V -> V -> V) (neg : V -> V) (ltb : V -> V -> bool) (sqn : list V -> spec_float).
Notation breach := (breach feq zero iadd mem okq P n m).

Lemma bsub_iff (s o : bs F V) l lo : breach s l -> breach o lo ->
  (bsub feq s o = true <-> forall c h, In (c, h) lo -> exists d k, In (d, k) l /\ feq (bc_f d) (bc_f c) = true).
Proof.
  intros Rs Ro. assert (Is := breach_inv _ _ _ _ _ _ _ _ HF _ _ Rs). assert (Io := breach_inv _ _ _ _ _ _ _ _ HF _ _ Ro).
  unfold bsub. rewrite (submanifold_spec feq), (bi_cons _ _ _ _ _ _ _ _ _ _ Is), (bi_cons _ _ _ _ _ _ _ _ _ _ Io). split.
  - intros H c p Hc. destruct (H (bc_f c)) as (g & G1 & G2).
    { rewrite map_map. apply in_map_iff. exists (c, p). auto. }
    rewrite map_map in G1. apply in_map_iff in G1 as ((d, r) & <- & G). eauto.
  - intros H f Hf. rewrite map_map in Hf. apply in_map_iff in Hf as ((c, p) & <- & Hc).
    destruct (H c p Hc) as (d & r & D1 & D2). exists (bc_f d). split; [|exact D2].
    rewrite map_map. apply in_map_iff. exists (d, r). auto.
Qed.

Lemma in_numeric (l : list (bc F V * how)) c p : In (c, p) (numeric_ones l) <-> exists b, bc_c b = c /\ In (b, Numerically p) l.
Proof.
  unfold numeric_ones. rewrite in_flat_map. split.
  - intros ((b & h) & H1 & H2). cbn [snd fst] in H2. destruct h as [|r]; [destruct H2|]. destruct H2 as [H2|[]].
    injection H2 as <- <-. eauto.
  - intros (b & <- & H). exists (b, Numerically p). split; [exact H|]. left. reflexivity.
Qed.
Lemma in_explicit (l : list (bc F V * how)) c : In c (explicit_ones l) <-> In (c, Explicitly) l.
Proof.
  unfold explicit_ones. rewrite in_map_iff. split.
  - intros ((b & h) & <- & H). apply filter_In in H as [H1 H2]. destruct h; [exact H1|discriminate H2].
  - intros H. exists (c, Explicitly). split; [reflexivity|]. apply filter_In. split; [exact H|reflexivity].
Qed.

Lemma bsub_sat (s o : bs F V) l lo ineq d sqthr q :
  breach s l -> breach o lo ->
  (last_optional (bs_h s) = true -> numeric_ones l <> []) -> (last_optional (bs_h o) = true -> numeric_ones lo <> []) ->
  bsub feq s o = true ->
  (forall b h c k, In (b, h) l -> In (c, k) lo -> feq (bc_f b) (bc_f c) = true ->
     match k with
     | Explicitly => h = Explicitly /\ ic_s (bc_c b) = ic_s (bc_c c)
     | Numerically p => p < counted (bs_h o) (numeric_ones lo) ->
         (exists r, h = Numerically r /\ r < counted (bs_h s) (numeric_ones l)) /\
         ic_s (bc_c b) = ic_s (bc_c c) /\ m_mask (ic_i (bc_c b)) = m_mask (ic_i (bc_c c)) /\
         get_rhs_of feq (bs_h s) (bc_f b) (s_nq (ic_s (bc_c b))) = get_rhs_of feq (bs_h o) (bc_f c) (s_nq (ic_s (bc_c c)))
     end) ->
  (forall i b j c, nth_error (explicit_ones l) i = Some b -> nth_error (explicit_ones lo) j = Some c -> feq (bc_f b) (bc_f c) = true ->
     nth_error (rhsl (bs_e s)) i = nth_error (rhsl (bs_e o)) j) ->
  bsat zero add sub neg ltb sqn sqthr d ineq s q = Some true -> bsat zero add sub neg ltb sqn sqthr d ineq o q = Some true.
Proof.
  intros Rs Ro Ns No Hsub Hsame Hrhs Hs.
  destruct (proj1 (verdicts feq zero iadd mem okq E P n m HF add sub neg ltb sqn s l ineq d Rs Ns) sqthr q) as (b & B1 & B2).
  destruct (proj1 (verdicts feq zero iadd mem okq E P n m HF add sub neg ltb sqn o lo ineq d Ro No) sqthr q) as (b' & B1' & B2').
  rewrite B1 in Hs. injection Hs as ->. rewrite B1'. f_equal. apply B2'.
  destruct (proj1 B2 eq_refl) as (T1 & T2 & T3 & T4). split; [exact T1|]. split; [exact T2|]. split.
  - intros c p r Hc Hp Hr. apply in_numeric in Hc as (c' & <- & Hc).
    destruct (proj1 (bsub_iff s o l lo Rs Ro) Hsub c' _ Hc) as (e & k & D1 & D2).
    destruct (Hsame e k c' _ D1 Hc D2 Hp) as ((t & -> & K1) & K2 & K3 & K4).
    assert (D : In (bc_c e, t) (numeric_ones l)) by (apply in_numeric; eauto).
    specialize (T3 (bc_c e) t r D K1). unfold bc_f in K4. rewrite K4 in T3. specialize (T3 Hr).
    unfold con_error in *. rewrite K2, K3 in T3. exact T3.
  - intros j c r Hc Hr. assert (Ic : In (c, Explicitly) lo) by (apply in_explicit; eapply nth_error_In; exact Hc).
    destruct (proj1 (bsub_iff s o l lo Rs Ro) Hsub c _ Ic) as (e & k & D1 & D2).
    destruct (Hsame e k c _ D1 Ic D2) as (-> & K).
    apply in_explicit in D1. apply In_nth_error in D1 as (i & Hi).
    specialize (T4 i e r Hi). rewrite (Hrhs i e j c Hi Hc D2) in T4. specialize (T4 Hr). rewrite K in T4. exact T4.
Qed.
End B.
