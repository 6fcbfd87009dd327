(** Lemmas about the computation order and the dependency matrix (EcsModel). *)
From Coq Require Import ZArith List Bool Lia ZifyBool Permutation.
From Verif Require Import SegModel SegSpec SegProofs ViewModel ViewProofs EcsModel EcsSpec EcsProofs.
Import ListNotations.
Open Scope Z_scope.

Section Order.
Context {V Rh : Type}.
Notation con := (con V Rh).
Variable iadd : Z -> Z -> Z.
Definition exact_add : Prop := forall x y, iadd x y = x + y.

Variables (m : Z) (d : list con) (df : Z -> Z).
Hypothesis T : tab c_outv d df.
Variable fr : nat -> nat.
Hypothesis HF : forall k c j, nth_error d k = Some c -> covers (c_inv c) j -> 0 <= df j ->
  (fr (Z.to_nat (df j)) < fr k)%nat.
Hypothesis HB : forall c, In c d -> inside_ m (c_inv c).

Definition dep (k : nat) (j : Z) : Prop :=
  df j < 0 /\ exists c, nth_error d k = Some c /\ needsv d c j.

Lemma needsv_first c j : needsv d c j <->
  covers (c_inv c) j \/ exists x e, covers (c_inv c) x /\ In e d /\ covers (c_outv e) x /\ needsv d e j.
Proof.
  split.
  - intros H; induction H as [i Hi | i j e Hj IH He Hej Hei]; [auto|].
    right. destruct IH as [IH | (x & e' & H1 & H2 & H3 & H4)].
    + exists j, e; split; [exact IH | split; [exact He | split; [exact Hej|]]]. apply needsv_direct; exact Hei.
    + exists x, e'; split; [exact H1 | split; [exact H2 | split; [exact H3|]]]. exact (needsv_trans _ _ i j e H4 He Hej Hei).
  - intros [H | (x & e & H1 & H2 & H3 & H4)]; [apply needsv_direct; exact H|].
    induction H4 as [i Hi | i j e' Hj IH He Hej Hei].
    + eapply needsv_trans; [apply needsv_direct; exact H1 | exact H2 | exact H3 | exact Hi].
    + eapply needsv_trans; eauto.
Qed.

Lemma dep_first k c j : nth_error d k = Some c ->
  (dep k j <-> exists x, In x (append (c_inv c)) /\
     ((df x < 0 /\ x = j) \/ (0 <= df x /\ dep (Z.to_nat (df x)) j))).
Proof.
  intros Hk; unfold dep; split.
  - intros (Hj & c' & Hc' & Hn). rewrite Hk in Hc'; injection Hc' as <-.
    apply needsv_first in Hn as [Hn | (x & e & H1 & H2 & H3 & H4)].
    + exists j; split; [apply In_append; exact Hn | left; auto].
    + exists x; split; [apply In_append; exact H1|]. right.
      apply In_nth_error in H2 as [k' Hk']. pose proof (proj1 T _ _ _ Hk' H3) as E.
      split; [lia|]. split; [exact Hj|]. exists e; split; [rewrite E, Nat2Z.id; exact Hk' | exact H4].
  - intros (x & Hx & [[H1 ->] | (H1 & H2 & e & He & Hn)]).
    + split; [exact H1|]. exists c; split; [exact Hk | apply needsv_direct, In_append; exact Hx].
    + split; [exact H2|]. exists c; split; [exact Hk|]. apply needsv_first; right.
      destruct (proj2 T x H1) as (e' & He' & Hx'). rewrite He in He'; injection He' as <-.
      exists x, e; repeat split; auto; [apply In_append; exact Hx | eapply nth_error_In; exact He].
Qed.

Definition topo (l : list nat) : Prop :=
  forall l1 k l2, l = l1 ++ k :: l2 ->
  forall c j, nth_error d k = Some c -> covers (c_inv c) j -> 0 <= df j -> In (Z.to_nat (df j)) l1.
Definition good (s : dfs) : Prop :=
  NoDup (d_order s) /\ (forall k, In k (d_order s) -> (k < length d)%nat) /\ topo (d_order s) /\
  (forall k, d_comp s k = true <-> In k (d_order s)) /\
  (exact_add -> forall k j, In k (d_order s) -> 0 <= d_deps s k j /\ (0 < d_deps s k j <-> dep k j)).

Definition zero_rows (s : dfs) (P : nat -> Prop) : Prop :=
  exact_add -> forall k j, ~ In k (d_order s) -> P k -> d_deps s k j = 0.

Lemma topo_snoc l k : topo l ->
  (forall c j, nth_error d k = Some c -> covers (c_inv c) j -> 0 <= df j -> In (Z.to_nat (df j)) l) ->
  topo (l ++ [k]).
Proof.
  intros Hl Hk l1 k' l2 E c j Hc Hj Hdf.
  destruct l2 as [|y l2 _] using rev_ind.
  - apply app_inj_tail in E as [-> ->]. eapply Hk; eauto.
  - rewrite app_comm_cons, app_assoc in E. apply app_inj_tail in E as [E _].
    eapply Hl; eauto.
Qed.

Definition co_spec (rec : nat -> dfs -> res dfs) (r : nat) (s : dfs) : Prop :=
  exists s' ext, rec r s = Val s' /\ good s' /\ d_order s' = d_order s ++ ext /\
    (forall k, In k ext -> (fr k <= fr r)%nat) /\ In r (d_order s') /\
    (forall k j, ~ In k ext -> d_deps s' k j = d_deps s k j).

Lemma order_inputs_spec rec iE : forall l s,
  (forall r s, (r < length d)%nat -> (fr r < fr iE)%nat -> good s ->
     zero_rows s (fun k => (fr k <= fr r)%nat) -> co_spec rec r s) ->
  (forall x, In x l -> 0 <= x < m /\ (0 <= df x -> (fr (Z.to_nat (df x)) < fr iE)%nat)) ->
  good s -> ~ In iE (d_order s) -> zero_rows s (fun k => k <> iE /\ (fr k <= fr iE)%nat) ->
  (exact_add -> forall j, 0 <= d_deps s iE j) ->
  exists s' ext, order_inputs iadd m d df rec iE l s = Val s' /\ good s' /\
    d_order s' = d_order s ++ ext /\ (forall k, In k ext -> (fr k < fr iE)%nat) /\
    (forall k j, ~ In k ext -> k <> iE -> d_deps s' k j = d_deps s k j) /\
    (forall x, In x l -> 0 <= df x -> In (Z.to_nat (df x)) (d_order s')) /\
    (exact_add -> forall j, 0 <= d_deps s' iE j /\
       (0 < d_deps s' iE j <-> 0 < d_deps s iE j \/
          exists x, In x l /\ ((df x < 0 /\ x = j) \/ (0 <= df x /\ dep (Z.to_nat (df x)) j)))).
Proof.
  induction l as [|x l IH]; intros s Hrec Hl HG Hni HZ Hrow; cbn [order_inputs].
  - exists s, []; rewrite app_nil_r. split; [reflexivity|]. split; [exact HG|]. split; [reflexivity|].
    split; [intros k []|]. split; [auto|]. split; [intros x []|].
    intros EX j; split; [apply Hrow; exact EX|]. split; [auto|]. intros [H|(x & [] & _)]; exact H.
  - destruct (Hl x (or_introl eq_refl)) as [Hx Hfx].
    replace (negb ((0 <=? x) && (x <? m))) with false by lia.
    assert (Hl' : forall y, In y l -> 0 <= y < m /\ (0 <= df y -> (fr (Z.to_nat (df y)) < fr iE)%nat))
      by (intros y Hy; apply Hl; right; exact Hy).
    destruct (Z.ltb_spec (df x) 0) as [Hd|Hd].
    + set (s1 := mkdfs (d_order s) (d_comp s) (add_entry iadd (d_deps s) iE x)).
      assert (Hoth : forall k j, k <> iE -> d_deps s1 k j = d_deps s k j).
      { intros k j Hk; subst s1; cbn [d_deps]; unfold add_entry.
        destruct (Nat.eqb_spec k iE); [contradiction | reflexivity]. }
      assert (Hself : exact_add -> forall j, d_deps s1 iE j = d_deps s iE j + (if j =? x then 1 else 0)).
      { intros EX j; subst s1; cbn [d_deps]; unfold add_entry. rewrite Nat.eqb_refl; cbn [andb].
        destruct (j =? x); [apply EX | lia]. }
      destruct (IH s1) as (s' & ext & E1 & E2 & E3 & E4 & E5 & E6 & E7); auto.
      { destruct HG as (G1 & G2 & G3 & G4 & G5). unfold good. split; [exact G1|]. split; [exact G2|].
        split; [exact G3|]. split; [exact G4|].
        intros EX k j Hk. rewrite Hoth by (intros ->; contradiction). exact (G5 EX k j Hk). }
      { intros EX k j Hk [Hk1 Hk2]. rewrite Hoth by exact Hk1. apply HZ; auto. }
      { intros EX j. rewrite Hself by exact EX. specialize (Hrow EX j). destruct (j =? x); lia. }
      exists s', ext. split; [exact E1|]. split; [exact E2|]. split; [exact E3|]. split; [exact E4|].
      split; [|split].
      * intros k j Hk Hk2. rewrite E5 by auto. apply Hoth; exact Hk2.
      * intros y [<-|Hy] Hdy; [lia | apply E6; auto].
      * intros EX j; destruct (E7 EX j) as [P1 P2]; split; [exact P1|]. rewrite P2, Hself by exact EX.
        specialize (Hrow EX j). split.
        -- intros [H|(y & Hy & Hyy)].
           ++ destruct (Z.eqb_spec j x) as [->|]; [right; exists x; split; [left; auto | left; auto] | left; lia].
           ++ right; exists y; split; [right; exact Hy | exact Hyy].
        -- intros [H|(y & [<-|Hy] & Hyy)].
           ++ left; destruct (j =? x); lia.
           ++ left. destruct Hyy as [[_ ->]|[Hyy _]]; [rewrite Z.eqb_refl; lia | lia].
           ++ right; exists y; auto.
    + set (r := Z.to_nat (df x)).
      assert (Hr : (r < length d)%nat).
      { destruct (proj2 T x Hd) as (c & Hc & _). apply nth_error_Some; subst r; congruence. }
      replace (negb (Nat.ltb r (length d))) with false by (destruct (Nat.ltb_spec r (length d)); [reflexivity | lia]).
      specialize (Hfx Hd). fold r in Hfx.
      destruct (Hrec r s Hr Hfx HG) as (s0 & ext0 & R1 & R2 & R3 & R4 & R5 & R6).
      { intros EX k j Hk Hk2. apply HZ; auto. split; [intros ->; lia | lia]. }
      rewrite R1.
      assert (Hiext : ~ In iE ext0) by (intros X; specialize (R4 _ X); lia).
      assert (Hni0 : ~ In iE (d_order s0)) by (rewrite R3; intros X; apply in_app_or in X as [X|X]; contradiction).
      set (s1 := mkdfs (d_order s0) (d_comp s0) (add_row iadd (d_deps s0) iE r)).
      assert (Hoth : forall k j, k <> iE -> d_deps s1 k j = d_deps s0 k j).
      { intros k j Hk; subst s1; cbn [d_deps]; unfold add_row.
        destruct (Nat.eqb_spec k iE); [contradiction | reflexivity]. }
      assert (Hself : exact_add -> forall j, d_deps s1 iE j = d_deps s iE j + d_deps s0 r j).
      { intros EX j; subst s1; cbn [d_deps]; unfold add_row. rewrite Nat.eqb_refl, EX, R6 by exact Hiext. reflexivity. }
      assert (Hrr : exact_add -> forall j, 0 <= d_deps s0 r j /\ (0 < d_deps s0 r j <-> dep r j))
        by (intros EX j; apply R2; auto).
      destruct (IH s1) as (s' & ext & E1 & E2 & E3 & E4 & E5 & E6 & E7); auto.
      { destruct R2 as (G1 & G2 & G3 & G4 & G5). unfold good. split; [exact G1|]. split; [exact G2|].
        split; [exact G3|]. split; [exact G4|].
        intros EX k j Hk. rewrite Hoth by (intros ->; contradiction). exact (G5 EX k j Hk). }
      { intros EX k j Hk [Hk1 Hk2]. rewrite Hoth by exact Hk1.
        subst s1; cbn [d_order] in Hk. rewrite R3 in Hk.
        rewrite R6 by (intros X; apply Hk, in_or_app; auto).
        apply HZ; auto. intros X; apply Hk, in_or_app; auto. }
      { intros EX j. rewrite Hself by exact EX. specialize (Hrow EX j). destruct (Hrr EX j); lia. }
      exists s', (ext0 ++ ext). split; [exact E1|]. split; [exact E2|].
      split; [subst s1; cbn [d_order] in E3; rewrite E3, R3, app_assoc; reflexivity|].
      split; [intros k Hk; apply in_app_or in Hk as [Hk|Hk]; [specialize (R4 k Hk); lia | auto]|].
      split; [|split].
      * intros k j Hk Hk2. rewrite E5; [|intros X; apply Hk, in_or_app; auto | exact Hk2].
        rewrite Hoth by exact Hk2. apply R6; intros X; apply Hk, in_or_app; auto.
      * intros y [<-|Hy] Hdy; [|apply E6; auto]. subst s1; cbn [d_order] in E3. rewrite E3. apply in_or_app; left; exact R5.
      * intros EX j; destruct (E7 EX j) as [P1 P2]; split; [exact P1|]. rewrite P2, Hself by exact EX.
        specialize (Hrow EX j). destruct (Hrr EX j) as [Q1 Q2]. split.
        -- intros [H|(y & Hy & Hyy)].
           ++ destruct (Z.lt_ge_cases 0 (d_deps s0 r j)) as [Hp|Hp].
              ** right; exists x; split; [left; auto|]. right; split; [exact Hd | apply Q2; exact Hp].
              ** left; lia.
           ++ right; exists y; split; [right; exact Hy | exact Hyy].
        -- intros [H|(y & [<-|Hy] & Hyy)].
           ++ left; lia.
           ++ left. destruct Hyy as [[Hyy _]|[_ Hyy]]; [lia|]. apply Q2 in Hyy; lia.
           ++ right; exists y; auto.
Qed.

Lemma compute_order_spec : forall fuel r s,
  (r < length d)%nat -> (fr r < fuel)%nat -> good s ->
  zero_rows s (fun k => (fr k <= fr r)%nat) ->
  co_spec (compute_order iadd m d df fuel) r s.
Proof.
  induction fuel as [|f IH]; intros r s Hr Hfr HG HZ; [lia|].
  unfold co_spec; cbn [compute_order].
  destruct (d_comp s r) eqn:Ec.
  { exists s, []; rewrite app_nil_r. split; [reflexivity|]. split; [exact HG|]. split; [reflexivity|].
    split; [intros k []|]. split; [apply HG; exact Ec | auto]. }
  assert (Hni : ~ In r (d_order s)).
  { intros X. apply HG in X. congruence. }
  destruct (nth_error d r) as [c|] eqn:Hc; [|apply nth_error_None in Hc; lia].
  destruct (order_inputs_spec (compute_order iadd m d df f) r (append (c_inv c)) s)
    as (s' & ext & E1 & E2 & E3 & E4 & E5 & E6 & E7); auto.
  { intros r' s0 Hr' Hlt HG0 HZ0. apply IH; auto; lia. }
  { intros x Hx; apply In_append in Hx. split.
    - destruct Hx as (sg & Hs & Hxs). specialize (HB c (nth_error_In _ _ Hc) sg Hs). unfold in_seg in Hxs; lia.
    - intros Hdx; eapply HF; eauto. }
  { intros EX k j Hk [_ Hk2]. apply HZ; auto. }
  { intros EX j. rewrite HZ by (auto; lia). lia. }
  rewrite E1.
  assert (Hni' : ~ In r (d_order s')).
  { rewrite E3; intros X; apply in_app_or in X as [X|X]; [contradiction | specialize (E4 _ X); lia]. }
  exists (mkdfs (d_order s' ++ [r]) (set_comp (d_comp s') r) (d_deps s')), (ext ++ [r]).
  cbn [d_order d_comp d_deps]. split; [reflexivity|]. split; [|split; [|split; [|split]]].
  - destruct E2 as (G1 & G2 & G3 & G4 & G5). unfold good; cbn [d_order d_comp d_deps].
    split; [|split; [|split; [|split]]].
    + apply NoDup_app_intro; auto.
      * constructor; [intros [] | constructor].
      * intros k Hk [<-|[]]; contradiction.
    + intros k Hk; apply in_app_or in Hk as [Hk|[<-|[]]]; auto.
    + apply topo_snoc; [exact G3|]. intros c' j Hc' Hj Hdj. rewrite Hc in Hc'; injection Hc' as <-.
      apply E6; [apply In_append; exact Hj | exact Hdj].
    + intros k; unfold set_comp; destruct (Nat.eqb_spec k r) as [->|Hne].
      * split; [intros _; apply in_or_app; right; left; auto | auto].
      * rewrite G4; split; [intros H; apply in_or_app; auto|].
        intros H; apply in_app_or in H as [H|[<-|[]]]; [exact H | contradiction].
    + intros EX k j Hk. apply in_app_or in Hk as [Hk|[<-|[]]]; [apply G5; auto|].
      destruct (E7 EX j) as [P1 P2]; split; [exact P1|]. rewrite P2, (dep_first r c j Hc).
      rewrite HZ by (auto; lia). split; [intros [H|H]; [lia | exact H] | auto].
  - rewrite E3, app_assoc; reflexivity.
  - intros k Hk; apply in_app_or in Hk as [Hk|[<-|[]]]; [specialize (E4 k Hk); lia | lia].
  - apply in_or_app; right; left; auto.
  - intros k j Hk. apply E5; [intros X; apply Hk, in_or_app; auto | intros ->; apply Hk, in_or_app; right; left; auto].
Qed.

Lemma order_all_spec fuel : forall l s,
  (forall r, In r l -> (r < length d)%nat /\ (fr r < fuel)%nat) -> good s ->
  zero_rows s (fun _ => True) ->
  exists s', order_all iadd m d df fuel l s = Val s' /\ good s' /\
    (forall k, In k (d_order s) -> In k (d_order s')) /\ (forall k, In k l -> In k (d_order s')).
Proof.
  induction l as [|r l IH]; intros s Hl HG HZ; cbn [order_all].
  - exists s; split; [reflexivity|]. split; [exact HG|]. split; [auto | intros k []].
  - destruct (Hl r (or_introl eq_refl)) as [Hr Hf].
    destruct (compute_order_spec fuel r s Hr Hf HG) as (s1 & ext & E1 & E2 & E3 & E4 & E5 & E6).
    { intros EX k j Hk _. apply HZ; auto. }
    rewrite E1.
    destruct (IH s1) as (s' & F1 & F2 & F3 & F4); auto.
    { intros r' Hr'; apply Hl; right; exact Hr'. }
    { intros EX k j Hk _. rewrite E3 in Hk. rewrite E6 by (intros X; apply Hk, in_or_app; auto).
      apply HZ; auto. intros X; apply Hk, in_or_app; auto. }
    exists s'; split; [exact F1|]. split; [exact F2|]. split.
    + intros k Hk; apply F3; rewrite E3; apply in_or_app; auto.
    + intros k [<-|Hk]; [apply F3; exact E5 | apply F4; exact Hk].
Qed.

Lemma order_all_init fuel :
  (forall k, (k < length d)%nat -> (fr k < fuel)%nat) ->
  exists s, order_all iadd m d df fuel (seq 0 (length d)) (mkdfs [] (fun _ => false) (fun _ _ => 0)) = Val s /\
    Permutation (d_order s) (seq 0 (length d)) /\ topo (d_order s) /\
    (exact_add -> forall k j, (k < length d)%nat -> 0 <= d_deps s k j /\ (0 < d_deps s k j <-> dep k j)).
Proof.
  intros Hf.
  destruct (order_all_spec fuel (seq 0 (length d)) (mkdfs [] (fun _ => false) (fun _ _ => 0)))
    as (s & E1 & E2 & _ & E4).
  { intros r Hr; apply in_seq in Hr; split; [lia | apply Hf; lia]. }
  { unfold good; cbn. split; [constructor|]. split; [intros k []|].
    split; [intros l1 k l2 E; destruct l1; discriminate|]. split; [intros k; split; [discriminate | intros []]|].
    intros _ k j []. }
  { intros EX k j _ _; reflexivity. }
  exists s; split; [exact E1|]. destruct E2 as (G1 & G2 & G3 & G4 & G5).
  split; [|split; [exact G3|]].
  - apply NoDup_Permutation; [exact G1 | apply seq_NoDup|].
    intros k; split; [intros Hk; apply in_seq; specialize (G2 k Hk); lia | apply E4].
  - intros EX k j Hk; apply G5; auto. apply E4, in_seq; lia.
Qed.

(** conversely a completed run was well founded: every dependency is in the order *)
End Order.
