(** Reachable states of the hierarchical solver and right hand sides (C27-C30). *)
From Coq Require Import ZArith List Bool Lia Floats.SpecFloat.
From Verif Require Import SegModel SegSpec SegProofs EcsModel EcsRhsModel EcsRhsSpec EcsRhsProofs NanModel ImplModel ImplSpec ImplProofs
  HierModel HierSpec HierProofs.
Import ListNotations.
Local Open Scope nat_scope.

Section P.
Context {F V : Type}.
Variable feq : F -> F -> bool.
Variable zero : V.
Variable mem : imp V -> list V -> Prop.
Variable okq : (Z -> V) -> Prop.
Notation wf_ic := (wf_ic zero mem okq).
Notation ic := (ic F V).
Notation hs := (hs F V).
Notation lvl := (lvl F V).
Notation inv := (inv feq zero mem okq).
Notation hreach := (hreach feq zero mem okq).

Lemma lvl_rhs_ok (l : lvl) cs r : lvl_ok l cs -> length r = sum_nq cs -> lvl_ok (lvl_rhs l r) cs.
Proof. intros (A1 & A2 & A3 & A4 & A5 & A6 & A7 & A8 & A9) L. unfold lvl_ok, lvl_rhs. cbn. repeat (split; [assumption|]). exact L. Qed.

Lemma with_lvls_inv (s : hs) adds ls : inv s adds -> length ls = length (lvls s) ->
  (forall p l, nth_error ls p = Some l -> lvl_ok l (at_level adds p)) ->
  inv (mkhs ls (prio s) (iqm s) (ivm s) (hcons s) (last_optional s)) adds.
Proof.
  intros [I1 I2 I3 I4 I5 I6 I7 I8] L H. constructor; cbn; try assumption. rewrite L. exact I5.
Qed.
Lemma upd_rhs_inv (s : hs) adds p r s' : inv s adds -> length r = sum_nq (at_level adds p) ->
  upd_rhs s p r = Some s' -> inv s' adds.
Proof.
  intros I Lr H. unfold upd_rhs in H. destruct (nth_error (lvls s) p) as [l|] eqn:E; [|discriminate]. injection H as <-.
  assert (Hp : p < length (lvls s)) by (apply nth_error_Some; congruence).
  apply with_lvls_inv; [exact I | apply set_nth_spec, Hp |].
  intros k l' H. destruct (Nat.eq_dec k p) as [->|Hk].
  - rewrite (proj1 (proj2 (set_nth_spec _ _ _ Hp))) in H. injection H as <-. apply lvl_rhs_ok; [|exact Lr]. apply (inv_lvl _ _ _ _ _ _ I _ _ E).
  - rewrite (proj2 (proj2 (set_nth_spec _ _ _ Hp))) in H by exact Hk. apply (inv_lvl _ _ _ _ _ _ I _ _ H).
Qed.
Lemma set_rhs_of_inv (s : hs) adds f x s' b : inv s adds -> set_rhs_of feq s f x = Some (s', b) -> inv s' adds.
Proof.
  intros I H. unfold set_rhs_of in H.
  destruct (find_f feq f (iqm s)) as [iq|]; [|injection H as <- <-; exact I].
  destruct (find_f feq f (prio s)) as [p|]; [|injection H as <- <-; exact I].
  destruct (nth_error (lvls s) p) as [l|] eqn:El; [|discriminate].
  destruct (set_segment (l_rhs l) iq x) as [r|] eqn:Er; [|discriminate].
  destruct (upd_rhs s p r) as [s1|] eqn:Eu; [|discriminate]. injection H as <- <-.
  eapply upd_rhs_inv; [exact I| |exact Eu]. rewrite (set_segment_length _ _ _ _ Er).
  apply (inv_lvl _ _ _ _ _ _ I _ _ El).
Qed.
Lemma level_rhs_config_length cs : (forall c : ic, In c cs -> wf_ic c) -> forall q r, okq q ->
  level_rhs_config zero cs q = Some r -> length r = sum_nq cs.
Proof.
  induction cs as [|c cs IH]; intros W q r OK H; cbn in H; [injection H as <-; reflexivity|].
  destruct (W c (or_introl eq_refl)) as (_ & _ & _ & Wc & _).
  destruct (rhs_from_config zero (ic_s c) q) as [x|] eqn:Ex; [|discriminate].
  destruct (level_rhs_config zero cs q) as [r'|] eqn:Er; [|discriminate]. injection H as <-.
  unfold rhs_from_config in Ex. assert (Wc' := Wc). destruct Wc' as (W1 & W0 & W2 & W3 & W4 & W5 & W6 & W7).
  destruct (project_spec zero mem okq (ic_s c) (s_fun (ic_s c) q) Wc (W4 q OK)) as (P1 & P2 & P3).
  rewrite P1 in Ex. injection Ex as <-. rewrite app_length, (W0 _ P2).
  rewrite (IH (fun d h => W d (or_intror h)) q r' OK Er). reflexivity.
Qed.
Lemma rhs_config_inv (s : hs) adds q s' : inv s adds -> okq q -> rhs_config zero s q = Some s' -> inv s' adds.
Proof.
  intros I OK H. unfold rhs_config in H. destruct (rhs_config_lvls zero (lvls s) q) as [ls|] eqn:E; [|discriminate]. injection H as <-.
  assert (G : forall (l0 ls : list lvl), rhs_config_lvls zero l0 q = Some ls -> length ls = length l0 /\
    forall p l, nth_error ls p = Some l -> exists l1 r, nth_error l0 p = Some l1 /\ level_rhs_config zero (l_cons l1) q = Some r /\ l = lvl_rhs l1 r).
  { induction l0 as [|l1 l0 IH]; intros ls' H; cbn in H.
    - injection H as <-. split; [reflexivity|]. intros [|p] l Hp; discriminate.
    - destruct (level_rhs_config zero (l_cons l1) q) as [r|] eqn:Er; [|discriminate].
      destruct (rhs_config_lvls zero l0 q) as [t'|] eqn:Et; [|discriminate]. injection H as <-.
      destruct (IH _ eq_refl) as [L Hn]. split; [cbn; congruence|]. intros [|p] l Hp; cbn in Hp.
      + injection Hp as <-. exists l1, r. auto.
      + destruct (Hn _ _ Hp) as (l2 & r2 & A). exists l2, r2. exact A. }
  destruct (G _ _ E) as [L Hn]. apply with_lvls_inv; [exact I|exact L|].
  intros p l Hp. destruct (Hn _ _ Hp) as (l1 & r & A1 & A2 & ->).
  assert (Ok := inv_lvl _ _ _ _ _ _ I _ _ A1). apply lvl_rhs_ok; [exact Ok|].
  destruct Ok as (A3 & _). rewrite A3 in A2. eapply level_rhs_config_length; [|exact OK|exact A2].
  intros c Hc. apply at_level_In in Hc. eapply (inv_wf _ _ _ _ _ _ I), Hc.
Qed.
Lemma set_whole_nth (ls : list lvl) : forall iq v ls', set_whole ls iq v = Some ls' -> length ls' = length ls /\
  forall p l, nth_error ls' p = Some l -> exists l1 r, nth_error ls p = Some l1 /\ length r = length (l_rhs l1) /\ l = lvl_rhs l1 r.
Proof.
  induction ls as [|l0 ls IH]; intros iq v ls' H; cbn in H.
  - destruct (Nat.eqb iq (length v)); [|discriminate]. injection H as <-. split; [reflexivity|]. intros [|p] l Hp; discriminate.
  - destruct (segment v iq (l_nq l0)) as [x|]; [|discriminate]. destruct (segment (l_rhs l0) iq (l_nq l0)) as [y|]; [|discriminate].
    destruct (set_segment (l_rhs l0) iq _) as [r|] eqn:Er; [|discriminate].
    destruct (set_whole ls _ v) as [t'|] eqn:Et; [|discriminate]. injection H as <-.
    destruct (IH _ _ _ Et) as [L Hn]. split; [cbn; congruence|]. intros [|p] l Hp; cbn in Hp.
    + injection Hp as <-. exists l0, r. split; [reflexivity|]. split; [eapply set_segment_length, Er|reflexivity].
    + destruct (Hn _ _ Hp) as (l2 & r2 & A). exists l2, r2. exact A.
Qed.
Lemma set_rhs_whole_inv (s : hs) adds v s' : inv s adds -> set_rhs_whole s v = Some s' -> inv s' adds.
Proof.
  intros I H. unfold set_rhs_whole in H. destruct (set_whole (lvls s) 0 v) as [ls|] eqn:E; [|discriminate]. injection H as <-.
  destruct (set_whole_nth _ _ _ _ E) as [L Hn]. apply with_lvls_inv; [exact I|exact L|].
  intros p l Hp. destruct (Hn _ _ Hp) as (l1 & r & A1 & A2 & ->). assert (Ok := inv_lvl _ _ _ _ _ _ I _ _ A1).
  apply lvl_rhs_ok; [exact Ok|]. rewrite A2. apply Ok.
Qed.
Lemma hreach_inv s adds : hreach s adds -> inv s adds.
Proof.
  induction 1.
  - constructor; cbn; try reflexivity; try (split; [reflexivity|]);
      try (intros [|k]; discriminate); try (intros [|p] l; discriminate); try (intros j [|k]; discriminate); try (intros c p []).
  - eapply (proj1 (hadd_spec _ _ _ _ _ _ _ _ _ IHhreach H0 H1)).
  - apply update_inv, IHhreach.
  - eapply set_rhs_of_inv; eassumption.
  - unfold rhs_config_of in H0. destruct (find_f feq (ic_f c) (iqm s)); [|injection H0 as <- <-; exact IHhreach].
    destruct (find_f feq (ic_f c) (prio s)); [|injection H0 as <- <-; exact IHhreach].
    destruct (rhs_from_config zero (ic_s c) q); [|discriminate]. eapply set_rhs_of_inv; eassumption.
  - eapply rhs_config_inv; eassumption.
  - eapply set_rhs_whole_inv; eassumption.
  - destruct IHhreach as [I1 I2 I3 I4 I5 I6 I7 I8]. constructor; assumption.
Qed.

(** C27 *)
Section Eq.
Hypothesis E : equivalence feq.

Lemma no_earlier (s : hs) adds f k c p : inv s adds -> nth_error adds k = Some (c, p) -> feq (ic_f c) f = true ->
  forall j d r, j <> k -> nth_error adds j = Some (d, r) -> feq (ic_f d) f = false.
Proof.
  intros I Hk Hf j d r Hj Hd. destruct (feq (ic_f d) f) eqn:G; [|reflexivity]. destruct E as (Er & Es & Et).
  assert (X1 : feq (ic_f d) (ic_f c) = true) by (eapply Et; [exact G|apply Es, Hf]).
  assert (X2 : feq (ic_f c) (ic_f d) = true) by (apply Es, X1).
  destruct (Nat.lt_total j k) as [L|[L|L]]; [|contradiction|].
  - rewrite (inv_nodup _ _ _ _ _ _ I _ _ _ _ _ _ L Hd Hk) in X1. discriminate.
  - rewrite (inv_nodup _ _ _ _ _ _ I _ _ _ _ _ _ L Hk Hd) in X2. discriminate.
Qed.
Lemma lookup_at (s : hs) adds f k c p : inv s adds -> nth_error adds k = Some (c, p) -> feq (ic_f c) f = true ->
  exists l, find_f feq f (prio s) = Some p /\ find_f feq f (iqm s) = Some (sum_nq (at_level (firstn k adds) p)) /\
  find_f feq f (ivm s) = Some (sum_nv (at_level (firstn k adds) p)) /\ nth_error (lvls s) p = Some l /\ lvl_ok l (at_level adds p).
Proof.
  intros I Hk Hf. assert (Hl : p < length (lvls s)).
  { rewrite (inv_len _ _ _ _ _ _ I). eapply nlevels_In, nth_error_In, Hk. }
  destruct (nth_error (lvls s) p) as [l|] eqn:El; [|apply nth_error_None in El; lia].
  exists l. edestruct (lookups feq zero mem okq s adds f k c p I Hk Hf) as (A & B & C).
  - intros j d r Hj Hd. apply (no_earlier s adds f k c p I Hk Hf j d r); [lia|exact Hd].
  - repeat (split; [assumption|]). split; [reflexivity|]. apply (inv_lvl _ _ _ _ _ _ I _ _ El).
Qed.

Lemma layout (s : hs) adds : hreach s adds ->
  hcons s = map fst adds /\ length (lvls s) = nlevels adds /\
  (forall p l, nth_error (lvls s) p = Some l ->
     l_cons l = at_level adds p /\ l_nq l = sum_nq (at_level adds p) /\ l_nv l = sum_nv (at_level adds p) /\
     length (l_rhs l) = sum_nq (at_level adds p) /\ l_cmp l = concat (map (fun c => m_cmp (ic_i c)) (at_level adds p))) /\
  (forall k c p, nth_error adds k = Some (c, p) ->
     find_f feq (ic_f c) (prio s) = Some p /\
     find_f feq (ic_f c) (iqm s) = Some (sum_nq (at_level (firstn k adds) p)) /\
     find_f feq (ic_f c) (ivm s) = Some (sum_nv (at_level (firstn k adds) p)) /\
     sum_nq (at_level (firstn k adds) p) + s_nq (ic_s c) <= sum_nq (at_level adds p)) /\
  (forall j k c d p, j < k -> nth_error adds j = Some (c, p) -> nth_error adds k = Some (d, p) ->
     sum_nq (at_level (firstn j adds) p) + s_nq (ic_s c) <= sum_nq (at_level (firstn k adds) p)) /\
  (forall c p, hadd feq s c p = None <-> exists d r, In (d, r) adds /\ feq (ic_f d) (ic_f c) = true).
Proof.
  intros R. assert (I := hreach_inv _ _ R).
  split; [apply I|]. split; [apply I|]. split; [|split; [|split]].
  - intros p l Hp. destruct (inv_lvl _ _ _ _ _ _ I _ _ Hp) as (A1 & A2 & A3 & A4 & A5 & A6 & A7 & A8 & A9). auto.
  - intros k c p Hk. destruct (lookup_at s adds (ic_f c) k c p I Hk) as (l & A & B & C & D & G); [apply (proj1 E)|].
    repeat (split; [assumption|]). rewrite (offset_end _ _ _ _ Hk). apply offset_total.
  - intros j k c d p L Hj Hk. rewrite (offset_end _ _ _ _ Hj). apply offset_mono. lia.
  - intros c p. eapply hadd_throws, I.
Qed.

(** C28 *)
Lemma set_get (s : hs) adds k c p f x : hreach s adds -> nth_error adds k = Some (c, p) -> feq (ic_f c) f = true ->
  length x = s_nq (ic_s c) ->
  exists s', set_rhs_of feq s f x = Some (s', true) /\ hreach s' adds /\
    get_rhs_of feq s' f (s_nq (ic_s c)) = Some (Some x) /\
    (forall j d r, j <> k -> nth_error adds j = Some (d, r) ->
       get_rhs_of feq s' (ic_f d) (s_nq (ic_s d)) = get_rhs_of feq s (ic_f d) (s_nq (ic_s d))) /\
    hcons s' = hcons s /\ prio s' = prio s /\ iqm s' = iqm s /\ ivm s' = ivm s /\ last_optional s' = last_optional s /\
    map l_cons (lvls s') = map l_cons (lvls s) /\ map l_cmp (lvls s') = map l_cmp (lvls s).
Proof.
  intros R Hk Hf Lx. assert (I := hreach_inv _ _ R).
  destruct (lookup_at s adds f k c p I Hk Hf) as (l & A & B & _ & D & G).
  assert (G' := G). destruct G' as (G1 & G2 & G3 & G4 & G5 & G6 & G7 & G8 & G9).
  assert (Hb : sum_nq (at_level (firstn k adds) p) + length x <= length (l_rhs l)).
  { rewrite G9, Lx, (offset_end _ _ _ _ Hk). apply offset_total. }
  assert (Hs : exists r, set_segment (l_rhs l) (sum_nq (at_level (firstn k adds) p)) x = Some r).
  { unfold set_segment. destruct (Nat.leb_spec (sum_nq (at_level (firstn k adds) p) + length x) (length (l_rhs l))); [eauto|lia]. }
  destruct Hs as [r Hr].
  assert (Hp : p < length (lvls s)) by (apply nth_error_Some; congruence).
  destruct (set_nth_spec (lvls s) p (lvl_rhs l r) Hp) as (S1 & S2 & S3).
  set (s' := mkhs (set_nth (lvls s) p (lvl_rhs l r)) (prio s) (iqm s) (ivm s) (hcons s) (last_optional s)).
  assert (Hset : set_rhs_of feq s f x = Some (s', true)).
  { unfold set_rhs_of. rewrite B, A, D, Hr. unfold upd_rhs. rewrite D. reflexivity. }
  exists s'. split; [exact Hset|]. split; [eapply hr_rhs; eassumption|]. split; [|split].
  - unfold get_rhs_of. cbn [prio iqm lvls s']. rewrite A, B, S2. cbn [l_rhs lvl_rhs].
    rewrite <- Lx. rewrite (set_segment_get _ _ _ _ Hr). reflexivity.
  - intros j d t Hj Hd. destruct (lookup_at s adds (ic_f d) j d t I Hd) as (l2 & A2 & B2 & _ & D2 & F2); [apply (proj1 E)|].
    unfold get_rhs_of. cbn [prio iqm lvls s']. rewrite A2, B2, D2.
    destruct (Nat.eq_dec t p) as [->|Ht]; [|rewrite S3 by exact Ht; rewrite D2; reflexivity].
    rewrite S2. rewrite D in D2. injection D2 as <-. cbn [l_rhs lvl_rhs].
    rewrite (set_segment_other _ _ _ _ _ _ Hr); [reflexivity|]. rewrite Lx.
    destruct (Nat.lt_total j k) as [L|[L|L]]; [left|contradiction|right].
    + rewrite (offset_end _ _ _ _ Hd). apply offset_mono. lia.
    + rewrite (offset_end _ _ _ _ Hk). apply offset_mono. lia.
  - cbn. repeat (split; [reflexivity|]).
    assert (M : forall B (g : lvl -> B), g (lvl_rhs l r) = g l -> map g (set_nth (lvls s) p (lvl_rhs l r)) = map g (lvls s)).
    { intros B0 g Hg. apply nth_error_ext. intros i. rewrite !nth_error_map. destruct (Nat.eq_dec i p) as [->|Hi].
      - rewrite S2, D. cbn. congruence.
      - rewrite S3 by exact Hi. reflexivity. }
    split; apply M; reflexivity.
Qed.
Lemma set_unknown (s : hs) adds f x nq : hreach s adds -> (forall c p, In (c, p) adds -> feq (ic_f c) f = false) ->
  set_rhs_of feq s f x = Some (s, false) /\ get_rhs_of feq s f nq = Some None.
Proof.
  intros R H. destruct (lookups_none _ _ _ _ _ _ f (hreach_inv _ _ R) H) as [A B].
  unfold set_rhs_of, get_rhs_of. rewrite A, B. auto.
Qed.

(** a segment of a concatenation *)
Lemma segment_concat (cs : list ic) (g : ic -> list V) pre c post : (forall d, In d cs -> length (g d) = s_nq (ic_s d)) ->
  cs = pre ++ c :: post -> segment (concat (map g cs)) (sum_nq pre) (s_nq (ic_s c)) = Some (g c).
Proof.
  intros H ->. assert (Lp : length (concat (map g pre)) = sum_nq pre).
  { assert (H' : forall d, In d pre -> length (g d) = s_nq (ic_s d)) by (intros d Hd; apply H, in_or_app; auto).
    clear -H'. induction pre as [|d pre IH]; [reflexivity|]. cbn [map concat]. rewrite app_length, H' by (left; reflexivity).
    rewrite IH by (intros e He; apply H'; right; exact He). reflexivity. }
  assert (Lc : length (g c) = s_nq (ic_s c)) by (apply H, in_or_app; right; left; reflexivity).
  unfold segment. rewrite map_app, concat_app. cbn [map concat].
  rewrite !app_length, Lp, Lc. destruct (Nat.leb_spec (sum_nq pre + s_nq (ic_s c)) (sum_nq pre + (s_nq (ic_s c) + length (concat (map g post))))); [|lia].
  rewrite <- Lp. rewrite skipn_exact by reflexivity. rewrite <- Lc. rewrite firstn_exact by reflexivity. reflexivity.
Qed.
Lemma at_level_split adds k c p : nth_error (adds : list (ic * nat)) k = Some (c, p) ->
  at_level adds p = at_level (firstn k adds) p ++ c :: at_level (skipn (S k) adds) p.
Proof.
  intros H. rewrite <- (firstn_skipn (S k) adds) at 1. rewrite at_level_app, (firstn_S_nth _ _ _ H), at_level_snoc, Nat.eqb_refl.
  rewrite <- app_assoc. reflexivity.
Qed.
Lemma wf_neutral (c : ic) : wf_ic c -> length (s_neutral (ic_s c)) = s_nq (ic_s c).
Proof. intros (_ & _ & _ & H & _). destruct H as (_ & H1 & _ & _ & _ & _ & H2 & _). apply H1, H2. Qed.
(** C30 *)
Lemma neutral_get (s : hs) adds : inv s adds -> (forall l, In l (lvls s) -> l_rhs l = neutral_rhs (l_cons l)) ->
  forall k d r, nth_error adds k = Some (d, r) -> get_rhs_of feq s (ic_f d) (s_nq (ic_s d)) = Some (Some (s_neutral (ic_s d))).
Proof.
  intros I N k d r Hd. destruct (lookup_at s adds (ic_f d) k d r I Hd) as (l & A & B & _ & D & G); [apply (proj1 E)|].
  unfold get_rhs_of. rewrite A, B, D. rewrite (N l) by (eapply nth_error_In, D).
  destruct G as (G1 & _). rewrite G1. unfold neutral_rhs.
  rewrite (segment_concat (at_level adds r) (fun c => s_neutral (ic_s c)) (at_level (firstn k adds) r) d (at_level (skipn (S k) adds) r)); [reflexivity | | apply at_level_split, Hd].
  intros e He. apply wf_neutral. apply at_level_In in He. eapply (inv_wf _ _ _ _ _ _ I), He.
Qed.
Lemma add_resets (s : hs) adds c p s' : hreach s adds -> wf_ic c -> hadd feq s c p = Some s' ->
  forall d r, In (d, r) (adds ++ [(c, p)]) -> get_rhs_of feq s' (ic_f d) (s_nq (ic_s d)) = Some (Some (s_neutral (ic_s d))).
Proof.
  intros R W H d r Hd. destruct (hadd_spec _ _ _ _ _ _ _ _ _ (hreach_inv _ _ R) W H) as [I N].
  apply In_nth_error in Hd as [k Hd]. eapply neutral_get; eassumption.
Qed.
Lemma update_resets (s : hs) adds : hreach s adds ->
  forall d r, In (d, r) adds -> get_rhs_of feq (update s) (ic_f d) (s_nq (ic_s d)) = Some (Some (s_neutral (ic_s d))).
Proof.
  intros R d r Hd. apply In_nth_error in Hd as [k Hd]. eapply neutral_get; [apply update_inv, hreach_inv, R| |exact Hd].
  intros l Hl. cbn in Hl. apply in_map_iff in Hl as (l0 & <- & _). reflexivity.
Qed.

(** C29 *)
Lemma set_whole_defined (ls : list lvl) : forall iq v, (forall l, In l ls -> length (l_rhs l) = l_nq l) ->
  set_whole ls iq v <> None -> forall i l, nth_error ls i = Some l -> iq + list_sum (map l_nq (firstn i ls)) = 0.
Proof.
  induction ls as [|l0 ls IH]; intros iq v L H i l Hi; [destruct i; discriminate|].
  cbn in H. destruct (segment v iq (l_nq l0)) as [x|]; [|congruence]. destruct (segment (l_rhs l0) iq (l_nq l0)) as [y|] eqn:Ey; [|congruence].
  unfold segment in Ey. rewrite L in Ey by (left; reflexivity).
  destruct (Nat.leb_spec (iq + l_nq l0) (l_nq l0)) as [Le|]; [|discriminate].
  destruct i as [|i]; [cbn; lia|]. cbn [nth_error] in Hi.
  destruct (set_segment _ _ _); [|congruence]. destruct (set_whole ls (iq + l_nq l0) v) eqn:Et; [|congruence].
  assert (Ht := IH (iq + l_nq l0) v (fun l h => L l (or_intror h)) ltac:(congruence) i l Hi).
  cbn [firstn map]. change (list_sum (l_nq l0 :: map l_nq (firstn i ls))) with (l_nq l0 + list_sum (map l_nq (firstn i ls))). lia.
Qed.
Lemma whole_needs_empty (s : hs) adds v : hreach s adds -> set_rhs_whole s v <> None ->
  forall p, S p < nlevels adds -> sum_nq (at_level adds p) = 0.
Proof.
  intros R H p Hp. assert (I := hreach_inv _ _ R).
  unfold set_rhs_whole in H. destruct (set_whole (lvls s) 0 v) as [ls'|] eqn:Es; [|congruence].
  assert (Hl : exists l, nth_error (lvls s) (S p) = Some l).
  { destruct (nth_error (lvls s) (S p)) eqn:X; [eauto|]. apply nth_error_None in X. rewrite (inv_len _ _ _ _ _ _ I) in X. lia. }
  destruct Hl as [l Hl].
  assert (G : forall l, In l (lvls s) -> length (l_rhs l) = l_nq l).
  { intros l' Hl'. apply In_nth_error in Hl' as [j Hj]. destruct (inv_lvl _ _ _ _ _ _ I _ _ Hj) as (_ & -> & _ & _ & _ & _ & _ & _ & ->). reflexivity. }
  assert (Z := set_whole_defined _ 0 v G ltac:(congruence) _ _ Hl).
  assert (Hl0 : exists l0, nth_error (lvls s) p = Some l0).
  { destruct (nth_error (lvls s) p) eqn:X; [eauto|]. apply nth_error_None in X. rewrite (inv_len _ _ _ _ _ _ I) in X. lia. }
  destruct Hl0 as [l0 Hl0]. destruct (inv_lvl _ _ _ _ _ _ I _ _ Hl0) as (_ & <- & _).
  rewrite (firstn_S_nth _ _ _ Hl0), map_app, list_sum_app in Z. cbn in Z. lia.
Qed.
Lemma explog_length (cs : list ic) : forall x, (forall c, In c cs -> wf_ic c) -> Forall2 mem (map ic_s cs) (pieces (map ic_s cs) x) ->
  length x = sum_nq cs -> length (explog cs x) = sum_nq cs.
Proof.
  induction cs as [|c cs IH]; intros x W M L; [reflexivity|]. cbn [explog map pieces] in *. inversion M as [|? ? ? ? M1 M2]; subst.
  rewrite app_length. destruct (W c (or_introl eq_refl)) as (_ & _ & _ & (W1 & W0 & W2 & W3 & _) & _).
  rewrite (W0 _ (W3 _ (W2 _ M1))). rewrite IH; [reflexivity | intros d Hd; apply W; right; exact Hd | exact M2 |].
  rewrite skipn_length, L. change (sum_nq (c :: cs)) with (s_nq (ic_s c) + sum_nq cs). lia.
Qed.
Lemma explog_id (cs : list ic) : forall x, Forall2 (fun c y => s_exp c (s_log c y) = y) (map ic_s cs) (pieces (map ic_s cs) x) ->
  length x = sum_nq cs -> explog cs x = x.
Proof.
  induction cs as [|c cs IH]; intros x M L; cbn [explog map pieces] in *.
  - destruct x; [reflexivity|discriminate L].
  - inversion M as [|? ? ? ? M1 M2]; subst. rewrite M1, IH; [apply firstn_skipn | exact M2 |].
    rewrite skipn_length, L. change (sum_nq (c :: cs)) with (s_nq (ic_s c) + sum_nq cs). lia.
Qed.
Lemma whole_one_level (s : hs) adds v : hreach s adds -> nlevels adds = 1 ->
  length v = sum_nq (at_level adds 0) ->
  Forall2 (fun c y => s_exp c (s_log c y) = y) (map ic_s (at_level adds 0)) (pieces (map ic_s (at_level adds 0)) v) ->
  exists s', set_rhs_whole s v = Some s' /\ get_rhs_whole s' = v /\ (v = get_rhs_whole s -> s' = s).
Proof.
  intros R N L M. assert (I := hreach_inv _ _ R). assert (Ln := inv_len _ _ _ _ _ _ I). rewrite N in Ln.
  destruct s as [ls pr iq iv hc lo]. cbn [lvls] in Ln. destruct ls as [|l [|l2 ls]]; try discriminate Ln.
  destruct (inv_lvl _ _ _ _ _ _ I 0 l eq_refl) as (A1 & A2 & _ & _ & _ & _ & _ & _ & A9).
  unfold set_rhs_whole. cbn [lvls set_whole]. unfold segment, set_segment. rewrite A1, A2, A9, L. cbn [plus skipn firstn app].
  rewrite Nat.leb_refl. replace (firstn (sum_nq (at_level adds 0)) v) with v by (rewrite <- L, firstn_all; reflexivity).
  rewrite explog_id by assumption. rewrite L, Nat.leb_refl. rewrite Nat.eqb_refl.
  rewrite (skipn_all2 (l_rhs l)) by lia. rewrite app_nil_r. cbn [prio iqm ivm hcons last_optional].
  eexists. split; [reflexivity|]. unfold get_rhs_whole. cbn [lvls map concat l_rhs lvl_rhs]. rewrite app_nil_r. split; [reflexivity|].
  rewrite app_nil_r. intros ->. destruct l; reflexivity.
Qed.
End Eq.
End P.
