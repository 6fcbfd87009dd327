(** Error and satisfaction tests of the hierarchical solver (C22, C23, C31, C32). *)
From Coq Require Import ZArith List Bool Lia ZifyBool Reals Lra Floats.SpecFloat.
From Verif Require Import SegModel SegSpec SegProofs EcsModel EcsRhsModel EcsRhsSpec EcsRhsProofs NanModel NanProofs ImplModel ImplSpec ImplProofs
  HierModel HierSpec HierProofs HierRhsProofs.
Import ListNotations.
Local Open Scope nat_scope.

Section P.
Context {F V : Type}.
Variable feq : F -> F -> bool.
Variable zero : V.
Variable mem : imp V -> list V -> Prop.
Variable okq : (Z -> V) -> Prop.
Variables (add sub : V -> V -> V) (neg : V -> V) (ltb : V -> V -> bool).
Notation wf_ic := (wf_ic zero mem okq).
Notation ic := (ic F V).
Notation hs := (hs F V).
Notation lvl := (lvl F V).
Notation inv := (inv feq zero mem okq).
Notation hreach := (hreach feq zero mem okq).
Notation row_error := (row_error zero add sub neg ltb).
Notation rows_error := (rows_error zero add sub neg ltb).
Notation con_error := (con_error zero add sub neg ltb).
Notation apply_cmp := (apply_cmp zero add sub neg ltb).

(** comparison row by row *)
Fixpoint cmp_rows (thr : V) (ts : list cmp) (xs : list V) : list V :=
  match ts, xs with
  | t :: ts', x :: xs' => row_error thr t true x :: cmp_rows thr ts' xs'
  | _, _ => []
  end.
Definition satisfied_row (thr : V) (t : cmp) (x : V) : bool :=
  match t with Superior => negb (ltb x thr) | Inferior => negb (ltb (neg thr) x) | _ => false end.
Fixpoint sat_rows (i : nat) (thr : V) (ts : list cmp) (xs : list V) : list nat :=
  match ts, xs with
  | t :: ts', x :: xs' => (if satisfied_row thr t x then [i] else []) ++ sat_rows (S i) thr ts' xs'
  | _, _ => []
  end.
Lemma set_nth_mid {A} (a : list A) x b y : set_nth (a ++ x :: b) (length a) y = a ++ y :: b.
Proof. induction a as [|z a IH]; cbn; [reflexivity|]. rewrite IH. reflexivity. Qed.
Lemma nth_error_mid {A} (a : list A) x b : nth_error (a ++ x :: b) (length a) = Some x.
Proof. induction a as [|z a IH]; cbn; [reflexivity|]. exact IH. Qed.

Lemma apply_cmp_rows thr ts : forall pre es epre, length epre = length pre -> length es = length ts ->
  apply_cmp (pre ++ ts) (ineq_pos (length pre) ts) thr (epre ++ es)
  = Some (epre ++ cmp_rows thr ts es, sat_rows (length pre) thr ts es).
Proof.
  induction ts as [|t ts IH]; intros pre es epre Lp Le.
  - destruct es; [|discriminate Le]. reflexivity.
  - destruct es as [|x es]; [discriminate Le|]. injection Le as Le.
    assert (Sn : forall y : V, apply_cmp (pre ++ t :: ts) (ineq_pos (S (length pre)) ts) thr (epre ++ y :: es)
      = Some (epre ++ y :: cmp_rows thr ts es, sat_rows (S (length pre)) thr ts es)).
    { intros y. specialize (IH (pre ++ [t]) es (epre ++ [y])). rewrite !app_length, <- !app_assoc in IH. cbn [length app] in IH.
      replace (length pre + 1) with (S (length pre)) in IH by lia. apply IH; lia. }
    assert (Nc : nth_error (pre ++ t :: ts) (length pre) = Some t) by apply nth_error_mid.
    assert (Ne : nth_error (epre ++ x :: es) (length pre) = Some x) by (rewrite <- Lp; apply nth_error_mid).
    assert (Se : forall y, set_nth (epre ++ x :: es) (length pre) y = epre ++ y :: es) by (intros y; rewrite <- Lp; apply set_nth_mid).
    destruct t; cbn [ineq_pos]; try (rewrite Sn; reflexivity).
    + cbn [HierModel.apply_cmp]. rewrite Nc, Ne. unfold compare. cbn [andb negb orb]. rewrite ?orb_false_r.
      cbn [cmp_rows sat_rows satisfied_row HierSpec.row_error]. destruct (ltb x thr); cbn [negb]; rewrite Se, Sn; reflexivity.
    + cbn [HierModel.apply_cmp]. rewrite Nc, Ne. unfold compare. cbn [andb negb orb].
      cbn [cmp_rows sat_rows satisfied_row HierSpec.row_error]. destruct (ltb (neg thr) x); cbn [negb]; rewrite Se, Sn; reflexivity.
Qed.
Lemma sat_rows_spec thr ts : forall i xs j, length xs = length ts ->
  (In j (sat_rows i thr ts xs) <-> i <= j /\ exists t x, nth_error ts (j - i) = Some t /\ nth_error xs (j - i) = Some x /\ satisfied_row thr t x = true).
Proof.
  induction ts as [|t ts IH]; intros i xs j L.
  - cbn. split; [intros []|]. intros (_ & t & x & H & _). destruct (j - i); discriminate H.
  - destruct xs as [|x xs]; [discriminate L|]. injection L as L. cbn [sat_rows]. rewrite in_app_iff, IH by exact L.
    split.
    + intros [H|(H & t' & x' & A & B & C)].
      * destruct (satisfied_row thr t x) eqn:E; [|destruct H]. destruct H as [<-|[]].
        split; [lia|]. exists t, x. rewrite Nat.sub_diag. auto.
      * split; [lia|]. exists t', x'. replace (j - i) with (S (j - S i)) by lia. auto.
    + intros (H & t' & x' & A & B & C). destruct (Nat.eq_dec i j) as [<-|N].
      * left. rewrite Nat.sub_diag in A, B. injection A as ->. injection B as ->. rewrite C. left. reflexivity.
      * right. split; [lia|]. exists t', x'. replace (j - i) with (S (j - S i)) in A, B by lia. auto.
Qed.
Lemma cmp_rows_nth thr ts : forall xs j, length xs = length ts ->
  nth_error (cmp_rows thr ts xs) j = match nth_error ts j, nth_error xs j with Some t, Some x => Some (row_error thr t true x) | _, _ => None end.
Proof.
  induction ts as [|t ts IH]; intros [|x xs] [|j] L; try discriminate L; try reflexivity. cbn. apply IH. cbn in L. lia.
Qed.
Lemma rows_error_cmp thr ts : forall ms xs, length ms = length ts -> length xs = length ts ->
  rows_error thr ts ms xs = cmp_rows thr ts (masked zero ms xs).
Proof.
  induction ts as [|t ts IH]; intros [|m ms] [|x xs] L1 L2; try discriminate; [reflexivity|].
  cbn. apply f_equal2; [destruct m; reflexivity|apply IH; cbn in *; lia].
Qed.
Lemma rows_error_app thr ts1 : forall ts2 ms1 ms2 xs1 xs2, length ms1 = length ts1 -> length xs1 = length ts1 ->
  rows_error thr (ts1 ++ ts2) (ms1 ++ ms2) (xs1 ++ xs2) = rows_error thr ts1 ms1 xs1 ++ rows_error thr ts2 ms2 xs2.
Proof.
  induction ts1 as [|t ts1 IH]; intros ts2 [|m ms1] ms2 [|x xs1] xs2 L1 L2; try discriminate; [reflexivity|].
  cbn. f_equal. apply IH; cbn in *; lia.
Qed.
Lemma rows_error_length thr ts : forall ms xs, length ms = length ts -> length xs = length ts -> length (rows_error thr ts ms xs) = length ts.
Proof. induction ts as [|t ts IH]; intros [|m ms] [|x xs] L1 L2; try discriminate; [reflexivity|]. cbn. f_equal. apply IH; cbn in *; lia. Qed.

(** rows set to zero *)
Lemma zero_rows_from_masked rows : (forall s, In s rows -> (0 < snd s)%Z) -> forall ms v k, length v = length ms ->
  (forall j, j < length ms -> (covers rows (k + Z.of_nat j)%Z <-> nth_error ms j = Some false)) ->
  zero_rows_from zero k rows v = masked zero ms v.
Proof.
  intros P. induction ms as [|m ms IH]; intros [|x v] k L H; try discriminate; [reflexivity|].
  unfold masked. cbn. f_equal.
  - specialize (H 0 ltac:(cbn; lia)). rewrite Z.add_0_r in H. cbn in H.
    destruct (existsb _ rows) eqn:Ex.
    + apply existsb_exists in Ex as (s & Hs & Hb). apply andb_prop in Hb as [B1 B2].
      assert (covers rows k) by (exists s; split; [exact Hs|]; unfold in_seg; unfold send in B2; lia). apply H in H0. injection H0 as ->. reflexivity.
    + destruct m; [reflexivity|]. destruct (proj2 H eq_refl) as (s & Hs & Hb).
      assert (existsb (fun s => ((fst s <=? k) && (k <? send s))%Z) rows = true); [|congruence].
      apply existsb_exists. exists s. split; [exact Hs|]. unfold in_seg, send in *. lia.
  - apply IH; [cbn in L; lia|]. intros j Hj. specialize (H (S j) ltac:(cbn; lia)). cbn in H. rewrite <- H.
    replace (k + 1 + Z.of_nat j)%Z with (k + Z.of_nat (S j))%Z by lia. reflexivity.
Qed.
Lemma zero_rows_masked ms v rows : positive rows -> (forall i, covers rows i <-> mask_is ms i false) -> length v = length ms ->
  zero_rows zero rows v = Some (masked zero ms v).
Proof.
  intros P C L. unfold zero_rows. replace (forallb _ rows) with true.
  - f_equal. apply zero_rows_from_masked; [exact P|exact L|]. intros j Hj. rewrite C. unfold mask_is. cbn. rewrite Nat2Z.id. split; [tauto|]. intros H; split; [lia|exact H].
  - symmetry. apply forallb_forall. intros s Hs. specialize (P s Hs).
    assert (C0 : covers rows (fst s)) by (exists s; split; [exact Hs|]; unfold in_seg; lia).
    assert (C1 : covers rows (fst s + snd s - 1)%Z) by (exists s; split; [exact Hs|]; unfold in_seg; lia).
    apply C in C0 as [C0 D0], C1 as [C1 D1].
    assert (Z.to_nat (fst s + snd s - 1) < length ms) by (apply nth_error_Some; congruence).
    unfold seg_inb, send. lia.
Qed.
Lemma masked_length ms : forall xs, length xs = length ms -> length (masked zero ms xs) = length ms.
Proof. intros xs L. unfold masked. rewrite map_length, combine_length. lia. Qed.

(** a level *)
Definition piece_errors (thr : V) (cs : list ic) (rhs : list V) (q : Z -> V) : list (list V) :=
  map (fun p => con_error thr (fst p) q (snd p)) (combine cs (pieces (map ic_s cs) rhs)).

Lemma level_split thr q cs : forall rhs, (forall c : ic, In c cs -> wf_ic c) -> length rhs = sum_nq cs ->
  let cmps := concat (map (fun c => m_cmp (ic_i c)) cs) in
  let masks := concat (map (fun c => m_mask (ic_i c)) cs) in
  length cmps = sum_nv cs /\ length masks = sum_nv cs /\ length (level_diff cs rhs q) = sum_nv cs /\
  rows_error thr cmps masks (level_diff cs rhs q) = concat (piece_errors thr cs rhs q) /\
  Forall2 (fun c e => length e = s_nv (ic_s c)) cs (piece_errors thr cs rhs q).
Proof.
  induction cs as [|c cs IH]; intros rhs W L cmps masks.
  - repeat split. constructor.
  - destruct (W c (or_introl eq_refl)) as (W1 & W2 & W3 & W4 & W5 & W6).
    assert (Lc : length (m_cmp (ic_i c)) = s_nv (ic_s c)) by (rewrite W1; apply W4).
    change (sum_nq (c :: cs)) with (s_nq (ic_s c) + sum_nq cs) in L.
    destruct (IH (skipn (s_nq (ic_s c)) rhs)) as (A & B & C & D & G); [intros d Hd; apply W; right; exact Hd | rewrite skipn_length; lia |].
    assert (Ld : length (s_minus (ic_s c) (s_fun (ic_s c) q) (firstn (s_nq (ic_s c)) rhs)) = s_nv (ic_s c)).
    { apply W6; [apply W5|]. rewrite firstn_length. lia. }
    change (sum_nv (c :: cs)) with (s_nv (ic_s c) + sum_nv cs).
    subst cmps masks. cbn [map concat level_diff].
    split; [rewrite app_length; lia|]. split; [rewrite app_length; lia|]. split; [rewrite app_length; lia|].
    split.
    + rewrite rows_error_app by lia. rewrite D. unfold piece_errors. cbn [map pieces combine concat fst snd].
      f_equal. unfold HierSpec.con_error. rewrite W1. reflexivity.
    + unfold piece_errors. cbn [map pieces combine concat fst snd]. constructor; [|exact G].
      unfold HierSpec.con_error. rewrite rows_error_length; rewrite <- W1; lia.
Qed.

Lemma level_error_spec thr q (l : lvl) cs : (forall c : ic, In c cs -> wf_ic c) -> lvl_ok l cs ->
  exists zs, level_error zero add sub neg ltb thr l q = Some (concat (piece_errors thr cs (l_rhs l) q), zs) /\
  (forall j, In j zs <-> exists t x, nth_error (l_cmp l) j = Some t /\
     nth_error (masked zero (concat (map (fun c => m_mask (ic_i c)) cs)) (level_diff cs (l_rhs l) q)) j = Some x /\ satisfied_row thr t x = true).
Proof.
  intros W (A1 & A2 & A3 & A4 & A5 & A6 & A7 & A8 & A9).
  destruct (level_split thr q cs (l_rhs l) W A9) as (B1 & B2 & B3 & B4 & B5).
  unfold level_error. rewrite A1. destruct (mask_rows_ok (concat (map (fun c => m_mask (ic_i c)) cs))) as (_ & M2 & _).
  assert (M6 : positive (inactive_rows (concat (map (fun c : ic => m_mask (ic_i c)) cs)))) by (apply shrink_positive, true_segs_positive).
  rewrite (zero_rows_masked (concat (map (fun c : ic => m_mask (ic_i c)) cs))); [|exact M6|exact M2|lia].
  rewrite A5. rewrite <- A4 in B1, B4.
  assert (H := apply_cmp_rows thr (l_cmp l) [] (masked zero (concat (map (fun c => m_mask (ic_i c)) cs)) (level_diff cs (l_rhs l) q)) [] eq_refl).
  cbn [app length] in H. rewrite H by (rewrite masked_length; lia).
  eexists. split; [rewrite <- B4, rows_error_cmp by lia; reflexivity|].
  intros j. rewrite sat_rows_spec by (rewrite masked_length; lia). rewrite Nat.sub_0_r. split; [intros [_ H']; exact H' | intros H'; split; [lia|exact H']].
Qed.

(** the whole solver *)
Lemma errors_of_spec thr q (s : hs) adds : inv s adds ->
  forall ls, (forall l, In l ls -> In l (lvls s)) -> exists es, errors_of zero add sub neg ltb thr ls q = Some es /\
  Forall2 (fun l e => e = concat (piece_errors thr (l_cons l) (l_rhs l) q)) ls es.
Proof.
  intros I. induction ls as [|l ls IH]; intros H; [exists []; split; [reflexivity|constructor]|].
  destruct IH as (es & E1 & E2); [intros l' Hl'; apply H; right; exact Hl'|].
  assert (Hl := H l (or_introl eq_refl)). apply In_nth_error in Hl as [p Hp]. assert (Ok := inv_lvl _ _ _ _ _ _ I _ _ Hp).
  destruct (level_error_spec thr q l (at_level adds p)) as (zs & Z1 & _); [|exact Ok|].
  - intros c Hc. apply at_level_In in Hc. eapply (inv_wf _ _ _ _ _ _ I), Hc.
  - cbn. rewrite Z1, E1. eexists. split; [reflexivity|]. constructor; [|exact E2]. destruct Ok as (-> & _). reflexivity.
Qed.

Variable sqn : list V -> spec_float.
Lemma level_max_spec cs : forall es pre m, Forall2 (fun (c : ic) (e : list V) => length e = s_nv (ic_s c)) cs es ->
  level_max sqn cs (length pre) (pre ++ concat es) m = Some (fold_left fmax (map sqn es) m).
Proof.
  induction cs as [|c cs IH]; intros es pre m H; inversion H as [|? e ? es' H1 H2]; subst; [reflexivity|].
  cbn [level_max]. assert (Hs : segment (pre ++ concat (e :: es')) (length pre) (s_nv (ic_s c)) = Some e).
  { cbn [concat]. unfold segment. rewrite !app_length. destruct (Nat.leb_spec (length pre + s_nv (ic_s c)) (length pre + (length e + length (concat es')))); [|lia].
    rewrite skipn_exact by reflexivity. rewrite <- H1, firstn_exact by reflexivity. reflexivity. }
  rewrite Hs. cbn [map fold_left concat]. rewrite <- H1, <- app_length. rewrite app_assoc. apply IH, H2.
Qed.
Lemma levels_max_spec thr q ls : forall es m, (forall l : lvl, In l ls -> exists cs, lvl_ok l cs /\ forall c, In c cs -> wf_ic c) ->
  Forall2 (fun l e => e = concat (piece_errors thr (l_cons l) (l_rhs l) q)) ls es ->
  levels_max sqn ls es m = Some (fold_left fmax (map sqn (concat (map (fun l => piece_errors thr (l_cons l) (l_rhs l) q) ls))) m).
Proof.
  induction ls as [|l ls IH]; intros es m H F2; inversion F2 as [|? e ? es' F3 F4]; subst; [reflexivity|].
  cbn [levels_max]. destruct (H l (or_introl eq_refl)) as (cs & Ok & W). assert (Ok' := Ok). destruct Ok' as (A1 & _ & _ & _ & _ & _ & _ & _ & A9).
  destruct (level_split thr q cs (l_rhs l) W A9) as (_ & _ & _ & _ & B5). rewrite <- A1 in B5.
  assert (Lm := level_max_spec (l_cons l) (piece_errors thr (l_cons l) (l_rhs l) q) [] m B5). cbn [app length] in Lm. rewrite Lm.
  rewrite IH; [|intros l' Hl'; apply H; right; exact Hl'|exact F4]. cbn [map concat]. rewrite map_app, fold_left_app. reflexivity.
Qed.
Lemma removelast_firstn_len {A} (l : list A) : removelast l = firstn (length l - 1) l.
Proof. induction l as [|a [|b l] IH]; try reflexivity. change (removelast (a :: b :: l)) with (a :: removelast (b :: l)). rewrite IH. cbn. rewrite Nat.sub_0_r. reflexivity. Qed.
Lemma Forall2_firstn {A B} (R : A -> B -> Prop) n : forall l l', Forall2 R l l' -> Forall2 R (firstn n l) (firstn n l').
Proof. induction n as [|n IH]; intros l l' H; [constructor|]. inversion H; subst; cbn; constructor; auto. Qed.
Lemma Forall2_len' {A B} (R : A -> B -> Prop) l l' : Forall2 R l l' -> length l = length l'.
Proof. induction 1; cbn; congruence. Qed.

(** number of levels that count *)
Definition counted (s : hs) (adds : list (ic * nat)) : nat := if last_optional s then nlevels adds - 1 else nlevels adds.

Section Eq.
Hypothesis E : equivalence feq.

Lemma piece_at (cs : list ic) rhs pre c post : length rhs = sum_nq cs -> cs = pre ++ c :: post ->
  nth_error (combine cs (pieces (map ic_s cs) rhs)) (length pre) = Some (c, firstn (s_nq (ic_s c)) (skipn (sum_nq pre) rhs)).
Proof.
  revert cs rhs. induction pre as [|d pre IH]; intros cs rhs L ->.
  - reflexivity.
  - cbn [app map pieces combine length nth_error]. change (sum_nq ((d :: pre) ++ c :: post)) with (s_nq (ic_s d) + sum_nq (pre ++ c :: post)) in L.
    rewrite (IH _ (skipn (s_nq (ic_s d)) rhs)); [|rewrite skipn_length; lia|reflexivity].
    f_equal. f_equal. f_equal. change (sum_nq (d :: pre)) with (s_nq (ic_s d) + sum_nq pre).
    rewrite Nat.add_comm. generalize (sum_nq pre) as a, (s_nq (ic_s d)) as b. clear. intros a b. revert rhs.
    induction b as [|b IHb]; intros rhs; [rewrite Nat.add_0_r; reflexivity|]. rewrite Nat.add_succ_r. destruct rhs as [|x rhs]; cbn; [destruct a; reflexivity|]. apply IHb.
Qed.
Lemma pieces_length (cs : list (imp V)) : forall rhs, length (pieces cs rhs) = length cs.
Proof. induction cs; intros rhs; cbn; auto. Qed.

(** in a level, the list of errors is that of its constraints with their right hand sides *)
Lemma piece_errors_In thr q (s : hs) adds p l : inv s adds -> nth_error (lvls s) p = Some l ->
  forall e, In e (piece_errors thr (l_cons l) (l_rhs l) q) <->
  exists c r, In (c, p) adds /\ get_rhs_of feq s (ic_f c) (s_nq (ic_s c)) = Some (Some r) /\ e = con_error thr c q r.
Proof.
  intros I Hl e. destruct (inv_lvl _ _ _ _ _ _ I _ _ Hl) as (A1 & A2 & A3 & A4 & A5 & A6 & A7 & A8 & A9).
  rewrite A1. unfold piece_errors. rewrite in_map_iff.
  assert (K : forall k c, nth_error adds k = Some (c, p) ->
    nth_error (combine (at_level adds p) (pieces (map ic_s (at_level adds p)) (l_rhs l))) (length (at_level (firstn k adds) p))
      = Some (c, firstn (s_nq (ic_s c)) (skipn (sum_nq (at_level (firstn k adds) p)) (l_rhs l))) /\
    get_rhs_of feq s (ic_f c) (s_nq (ic_s c)) = Some (Some (firstn (s_nq (ic_s c)) (skipn (sum_nq (at_level (firstn k adds) p)) (l_rhs l))))).
  { intros k c Hk. split; [eapply piece_at; [exact A9|apply at_level_split, Hk]|].
    destruct (lookup_at feq zero mem okq E s adds (ic_f c) k c p I Hk) as (l' & B1 & B2 & B3 & B4 & B5); [apply (proj1 E)|].
    unfold get_rhs_of. rewrite B1, B2, Hl. unfold segment. rewrite A9.
    destruct (Nat.leb_spec (sum_nq (at_level (firstn k adds) p) + s_nq (ic_s c)) (sum_nq (at_level adds p))) as [_|G]; [reflexivity|].
    exfalso. rewrite (offset_end _ _ _ _ Hk) in G. pose proof (offset_total adds (S k) p). lia. }
  split.
  - intros ([c r] & He & Hin). cbn in He.
    (* find the index of c in adds *)
    apply In_nth_error in Hin as [j Hj].
    assert (Hc : nth_error (at_level adds p) j = Some c).
    { clear -Hj. revert j Hj. generalize (pieces (map ic_s (at_level adds p)) (l_rhs l)). generalize (at_level adds p).
      induction l0 as [|a l0 IH]; intros [|b l1] [|j] H; try discriminate; cbn in *; [injection H as -> _; reflexivity|]. eapply IH, H. }
    assert (Hex : exists k, nth_error adds k = Some (c, p) /\ length (at_level (firstn k adds) p) = j).
    { clear -Hc. revert j Hc. induction adds as [|[d t] adds IH]; intros j Hc; [destruct j; discriminate|].
      unfold at_level in Hc. cbn in Hc. destruct (Nat.eqb_spec t p) as [->|Ht].
      - cbn in Hc. destruct j as [|j].
        + injection Hc as ->. exists 0. auto.
        + cbn in Hc. destruct (IH j Hc) as (k & K1 & K2). exists (S k). split; [exact K1|]. unfold at_level in *. cbn. rewrite Nat.eqb_refl. cbn. congruence.
      - destruct (IH j Hc) as (k & K1 & K2). exists (S k). split; [exact K1|]. unfold at_level in *. cbn. rewrite (proj2 (Nat.eqb_neq t p) Ht). exact K2. }
    destruct Hex as (k & K1 & K2). destruct (K k c K1) as (K3 & K4). rewrite K2, Hj in K3. injection K3 as ->.
    exists c, (firstn (s_nq (ic_s c)) (skipn (sum_nq (at_level (firstn k adds) p)) (l_rhs l))). split; [eapply nth_error_In, K1|]. auto.
  - intros (c & r & Hin & Hg & ->). apply In_nth_error in Hin as [k Hk]. destruct (K k c Hk) as (K3 & K4).
    rewrite K4 in Hg. injection Hg as <-. eexists. split; [|eapply nth_error_In, K3]. reflexivity.
Qed.

Lemma hsat_spec (s : hs) adds thr sqthr q : hreach s adds -> (last_optional s = true -> adds <> []) ->
  exists b, hsat zero add sub neg ltb sqn s thr sqthr q = Some b /\
  (b = true <-> flt fzero sqthr = true /\
     forall c p r, In (c, p) adds -> p < counted s adds -> get_rhs_of feq s (ic_f c) (s_nq (ic_s c)) = Some (Some r) ->
       isnan (sqn (con_error thr c q r)) = true \/ flt (sqn (con_error thr c q r)) sqthr = true).
Proof.
  intros R NE. assert (I := hreach_inv _ _ _ _ _ _ R). assert (Ln := inv_len _ _ _ _ _ _ I).
  destruct (errors_of_spec thr q s adds I (lvls s)) as (es & E1 & E2); [auto|].
  assert (Hls : forall l : lvl, In l (lvls s) -> exists cs, lvl_ok l cs /\ forall c, In c cs -> wf_ic c).
  { intros l Hl. apply In_nth_error in Hl as [p Hp]. exists (at_level adds p). split; [apply (inv_lvl _ _ _ _ _ _ I _ _ Hp)|].
    intros c Hc. apply at_level_In in Hc. eapply (inv_wf _ _ _ _ _ _ I), Hc. }
  assert (Hlen := Forall2_len' _ _ _ E2).
  set (n := counted s adds).
  assert (Hin : forall l, In l (firstn n (lvls s)) -> In l (lvls s)).
  { intros l Hl. rewrite <- (firstn_skipn n (lvls s)). apply in_or_app. left. exact Hl. }
  assert (Hc : compute_error sqn s es = levels_max sqn (firstn n (lvls s)) (firstn n es) fzero).
  { unfold compute_error, n, counted. destruct (last_optional s).
    - destruct (lvls s) as [|l ls] eqn:El.
      + exfalso. apply (NE eq_refl). destruct adds as [|[c p] adds]; [reflexivity|]. exfalso.
        assert (p < nlevels ((c, p) :: adds)) by (eapply nlevels_In; left; reflexivity). cbn [length] in Ln. lia.
      + rewrite <- El in *. rewrite !removelast_firstn_len, <- Ln, <- Hlen. reflexivity.
    - rewrite <- Ln, firstn_all. rewrite Hlen, firstn_all. reflexivity. }
  unfold hsat. rewrite E1, Hc. rewrite (levels_max_spec thr q); [|auto|apply Forall2_firstn, E2].
  eexists. split; [reflexivity|]. rewrite fold_fmax_lt by reflexivity. split; intros [H1 H2]; (split; [exact H1|]).
  - intros c p r Hcp Hp Hg. apply H2. apply in_map_iff. exists (con_error thr c q r). split; [reflexivity|].
    apply in_concat. assert (Hl : exists l, nth_error (lvls s) p = Some l).
    { destruct (nth_error (lvls s) p) eqn:X; [eauto|]. apply nth_error_None in X. apply nlevels_In in Hcp. lia. }
    destruct Hl as [l Hl]. exists (piece_errors thr (l_cons l) (l_rhs l) q). split.
    + apply in_map_iff. exists l. split; [reflexivity|]. eapply nth_error_In with (n := p). rewrite nth_error_firstn_lt by exact Hp. exact Hl.
    + apply (piece_errors_In thr q s adds p l I Hl). exists c, r. auto.
  - intros x Hx. apply in_map_iff in Hx as (e & <- & He). apply in_concat in He as (le & Hle & He).
    apply in_map_iff in Hle as (l & <- & Hl). apply In_nth_error in Hl as [p Hp].
    assert (Hpn : p < n).
    { assert (p < length (firstn n (lvls s))) by (apply nth_error_Some; congruence). rewrite firstn_length in H. lia. }
    rewrite nth_error_firstn_lt in Hp by exact Hpn.
    apply (piece_errors_In thr q s adds p l I Hp) in He as (c & r & G1 & G2 & ->). eapply H2; eassumption.
Qed.

(** C32 *)
Lemma hcon_sat_spec (s : hs) adds c p q sqthr : hreach s adds -> In (c, p) adds ->
  exists r, get_rhs_of feq s (ic_f c) (s_nq (ic_s c)) = Some (Some r) /\ length r = s_nq (ic_s c) /\
  let e := masked zero (m_mask (ic_i c)) (s_minus (ic_s c) (s_fun (ic_s c) q) r) in
  hcon_sat feq zero sqn s c sqthr q = Some (flt (sqn e) sqthr, true, e).
Proof.
  intros R Hc. assert (I := hreach_inv _ _ _ _ _ _ R). assert (W := inv_wf _ _ _ _ _ _ I _ _ Hc).
  apply In_nth_error in Hc as [k Hk].
  destruct (lookup_at feq zero mem okq E s adds (ic_f c) k c p I Hk) as (l & B1 & B2 & B3 & B4 & B5); [apply (proj1 E)|].
  destruct B5 as (A1 & A2 & A3 & A4 & A5 & A6 & A7 & A8 & A9).
  unfold get_rhs_of, hcon_sat. rewrite B1, B2, B4. unfold segment. rewrite A9.
  destruct (Nat.leb_spec (sum_nq (at_level (firstn k adds) p) + s_nq (ic_s c)) (sum_nq (at_level adds p))) as [G|G].
  2:{ exfalso. rewrite (offset_end _ _ _ _ Hk) in G. pose proof (offset_total adds (S k) p). lia. }
  eexists. split; [reflexivity|].
  assert (Lr : length (firstn (s_nq (ic_s c)) (skipn (sum_nq (at_level (firstn k adds) p)) (l_rhs l))) = s_nq (ic_s c)).
  { rewrite firstn_length, skipn_length, A9. lia. }
  split; [exact Lr|]. cbv zeta. destruct W as (W1 & W2 & W3 & W4 & W5 & W6).
  destruct (impl_reach_ok _ W3) as [(_ & X & _) _].
  assert (PI : positive (m_inactive (ic_i c))) by (clear -W3; induction W3; cbn; auto; apply shrink_positive, true_segs_positive).
  rewrite (zero_rows_masked (m_mask (ic_i c))); [reflexivity | exact PI | exact X |]. rewrite W6; auto.
Qed.
Lemma con_error_eq thr (c : ic) q r : wf_ic c -> length r = s_nq (ic_s c) ->
  (forall t, In t (s_cmp (ic_s c)) -> t <> Superior /\ t <> Inferior) ->
  con_error thr c q r = masked zero (m_mask (ic_i c)) (s_minus (ic_s c) (s_fun (ic_s c) q) r).
Proof.
  intros (W1 & W2 & W3 & W4 & W5 & W6) Lr H. unfold HierSpec.con_error.
  assert (L1 : length (s_cmp (ic_s c)) = s_nv (ic_s c)) by apply W4.
  assert (L2 := W6 (s_fun (ic_s c) q) r (W5 q) Lr). rewrite rows_error_cmp by lia.
  assert (L3 := masked_length (m_mask (ic_i c)) (s_minus (ic_s c) (s_fun (ic_s c) q) r) ltac:(lia)).
  revert L3 H. generalize (masked zero (m_mask (ic_i c)) (s_minus (ic_s c) (s_fun (ic_s c) q) r)) as v. rewrite W2, <- L1. clear.
  induction (s_cmp (ic_s c)) as [|t ts IH]; intros [|x v] L H; try discriminate; [reflexivity|].
  cbn. apply f_equal2; [|apply IH; [cbn in L; lia | intros u Hu; apply H; right; exact Hu]].
  destruct (H t (or_introl eq_refl)). destruct t; try congruence; reflexivity.
Qed.
Lemma per_constraint (s : hs) adds thr sqthr q : hreach s adds -> (last_optional s = true -> adds <> []) ->
  flt fzero sqthr = true ->
  (forall c p, In (c, p) adds -> forall t, In t (s_cmp (ic_s c)) -> t <> Superior /\ t <> Inferior) ->
  (forall c p b e, In (c, p) adds -> hcon_sat feq zero sqn s c sqthr q = Some (b, true, e) -> isnan (sqn e) = false) ->
  (hsat zero add sub neg ltb sqn s thr sqthr q = Some true <->
   forall c p, In (c, p) adds -> p < counted s adds -> exists e, hcon_sat feq zero sqn s c sqthr q = Some (true, true, e)).
Proof.
  intros R NE Ft Heq Hn. assert (I := hreach_inv _ _ _ _ _ _ R).
  destruct (hsat_spec s adds thr sqthr q R NE) as (b & Hb & Hs). rewrite Hb. split.
  - intros X. injection X as ->. destruct (proj1 Hs eq_refl) as [_ H]. intros c p Hc Hp.
    destruct (hcon_sat_spec s adds c p q sqthr R Hc) as (r & Hr & Lr & Hcs). cbv zeta in Hcs.
    assert (W := inv_wf _ _ _ _ _ _ I _ _ Hc). assert (Ce := con_error_eq thr c q r W Lr (Heq c p Hc)).
    specialize (H c p r Hc Hp Hr). rewrite Ce in H. specialize (Hn c p _ _ Hc Hcs). destruct H as [H|H]; [congruence|].
    rewrite H in Hcs. eexists. exact Hcs.
  - intros H. f_equal. apply Hs. split; [exact Ft|]. intros c p r Hc Hp Hr. right.
    destruct (hcon_sat_spec s adds c p q sqthr R Hc) as (r' & Hr' & Lr & Hcs). rewrite Hr in Hr'. injection Hr' as <-.
    rewrite (con_error_eq thr c q r (inv_wf _ _ _ _ _ _ I _ _ Hc) Lr (Heq c p Hc)).
    destruct (H c p Hc Hp) as [e He]. cbv zeta in Hcs. rewrite Hcs in He. injection He as He _. exact He.
Qed.
Lemma hcon_sat_unknown (s : hs) adds c q sqthr : hreach s adds -> (forall d p, In (d, p) adds -> feq (ic_f d) (ic_f c) = false) ->
  hcon_sat feq zero sqn s c sqthr q = Some (false, false, []).
Proof.
  intros R H. destruct (lookups_none feq zero mem okq s adds (ic_f c) (hreach_inv _ _ _ _ _ _ R) H) as [A B].
  unfold hcon_sat. rewrite A. destruct (find_f feq (ic_f c) (iqm s)); reflexivity.
Qed.
End Eq.
End P.
