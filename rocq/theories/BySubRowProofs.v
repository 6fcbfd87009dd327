From Coq Require Import ZArith List Bool Lia Sorted.
From Verif Require Import SegSpec SegModel SegProofs ViewModel ViewProofs EcsModel EcsSpec EcsProofs EcsOrderProofs EcsRhsModel EcsRhsSpec EcsMainProofs EcsFinalProofs EcsJacProofs.
From Verif Require Import ImplModel ImplSpec ImplProofs HierModel HierSpec HierProofs HierRhsProofs BySubModel BySubSpec BySubProofs.
Import ListNotations.
Local Open Scope Z_scope.

Lemma zseq_sorted k : forall a, StronglySorted Z.lt (zseq a k) /\ forall i, In i (zseq a k) -> a <= i.
Proof.
  induction k as [|k IH]; intros a; cbn; [split; [constructor|intros i []]|]. destruct (IH (a + 1)) as [A B].
  split; [constructor; [exact A|]; apply Forall_forall; intros i Hi; specialize (B i Hi); lia|].
  intros i [<-|Hi]; [lia|]. specialize (B i Hi). lia.
Qed.
Lemma ss_app {A} (R : A -> A -> Prop) l1 l2 : StronglySorted R l1 -> StronglySorted R l2 ->
  (forall x y, In x l1 -> In y l2 -> R x y) -> StronglySorted R (l1 ++ l2).
Proof.
  induction 1 as [|a l1 S IH F]; intros S2 H; [exact S2|]. cbn. constructor.
  - apply IH; [exact S2|]. intros x y Hx. apply H. right. exact Hx.
  - apply Forall_app. split; [exact F|]. apply Forall_forall. intros y Hy. apply H; [left; reflexivity|exact Hy].
Qed.
Lemma sep_sorted l : nonneg l -> sorted_separated l -> StronglySorted Z.lt (indices l).
Proof.
  induction l as [|s l IH]; intros N S; [constructor|]. destruct S as [S1 S2].
  change (indices (s :: l)) with (seg_indices s ++ indices l). apply ss_app.
  - apply zseq_sorted.
  - apply IH; [intros t Ht; apply N; right; exact Ht|exact S2].
  - intros x y Hx Hy. apply In_seg_indices in Hx. apply In_indices in Hy as (t & Ht & Hy).
    specialize (S1 t Ht). unfold separated in S1. unfold in_seg in *. lia.
Qed.

Section Rows.
Context {F V : Type}.
Notation ic := (ic F V).
Variables (zero : V) (mem : imp V -> list V -> Prop) (okq : (Z -> V) -> Prop).
Notation wf_ic := (wf_ic zero mem okq).

Lemma wf_rows (c : ic) : wf_ic c -> rows_ok (ic_i c).
Proof. intros (_ & _ & R & _). apply impl_reach_ok in R. apply R. Qed.
Lemma wf_active_nonneg (c : ic) : wf_ic c -> nonneg (m_active (ic_i c)).
Proof.
  intros (_ & _ & R & _). apply positive_nonneg, impl_positive, R.
Qed.

Lemma kept_rows_spec (act : ic -> bool) cs : (forall c, In c cs -> wf_ic c) -> forall off,
  nonneg (kept_rows act off cs) /\
  forall r, covers (kept_rows act off cs) r <->
    exists k c r0, nth_error cs k = Some c /\ act c = true /\ nth_error (m_mask (ic_i c)) r0 = Some true /\
      r = off + Z.of_nat (sum_nv (firstn k cs) + r0).
Proof.
  induction cs as [|c cs IH]; intros W off; cbn [kept_rows].
  - split; [intros s []|]. intros r. split; [intros (s & [] & _)|]. intros ([|k] & c & r0 & H & _); discriminate H.
  - destruct (IH (fun d Hd => W d (or_intror Hd)) (off + Z.of_nat (s_nv (ic_s c)))) as [N IHr].
    pose proof (W c (or_introl eq_refl)) as Wc. pose proof (wf_rows c Wc) as (Ra & _). pose proof (wf_active_nonneg c Wc) as Na.
    split.
    + intros s Hs. apply in_app_or in Hs as [Hs|Hs]; [|apply N, Hs].
      destruct (act c); [|destruct Hs]. apply in_map_iff in Hs as (t & <- & Ht). cbn. apply Na, Ht.
    + intros r. split.
      * intros (s & Hs & Hi). apply in_app_or in Hs as [Hs|Hs].
        -- destruct (act c) eqn:Ea; [|destruct Hs]. apply in_map_iff in Hs as (t & <- & Ht). cbn in Hi.
           destruct (proj1 (Ra (r - off))) as [B1 B2].
           { exists t. split; [exact Ht|]. unfold in_seg in *. cbn in Hi. lia. }
           exists O, c, (Z.to_nat (r - off)). split; [reflexivity|]. split; [exact Ea|]. split; [exact B2|]. unfold sum_nv. cbn. lia.
        -- destruct (proj1 (IHr r)) as (k & d & r0 & A1 & A2 & A3 & A4); [exists s; auto|].
           exists (S k), d, r0. split; [exact A1|]. split; [exact A2|]. split; [exact A3|].
           cbn [firstn]. unfold sum_nv in *. cbn [map list_sum fold_right]. unfold list_sum in *. lia.
      * intros ([|k] & d & r0 & A1 & A2 & A3 & A4).
        -- cbn in A1. injection A1 as <-. rewrite A2.
           destruct (proj2 (Ra (Z.of_nat r0))) as (t & T1 & T2); [split; [lia|rewrite Nat2Z.id; exact A3]|].
           exists (fst t + off, snd t). split; [apply in_or_app; left; apply in_map_iff; exists t; auto|].
           unfold in_seg in *. cbn. unfold sum_nv in A4. cbn in A4. lia.
        -- cbn in A1. destruct (proj2 (IHr r)) as (s & S1 & S2).
           { exists k, d, r0. split; [exact A1|]. split; [exact A2|]. split; [exact A3|].
             cbn [firstn] in A4. unfold sum_nv in *. cbn [map list_sum fold_right] in A4. unfold list_sum in *. lia. }
           exists s. split; [apply in_or_app; right; exact S1|exact S2].
Qed.

Lemma rows_of_level (act : ic -> bool) (l : lvl F V) : (forall c, In c (l_cons l) -> wf_ic c) ->
  StronglySorted Z.lt (indices (active_rows_of_J act l)) /\
  cardinal (active_rows_of_J act l) = Z.of_nat (length (indices (active_rows_of_J act l))) /\
  forall r, In r (indices (active_rows_of_J act l)) <->
    exists k c, active_row (l_cons l) r k c /\ act c = true.
Proof.
  intros W. destruct (kept_rows_spec act (l_cons l) W 0) as [N H].
  destruct (normalise_all _ N) as (A1 & A2 & A3 & _). unfold active_rows_of_J.
  split; [apply sep_sorted; assumption|]. split; [apply cardinal_indices, A3|].
  intros r. rewrite In_indices, A1, H. split.
  - intros (k & c & r0 & B1 & B2 & B3 & B4). exists k, c. split; [|exact B2]. exists r0. split; [exact B1|]. split; [exact B3|]. lia.
  - intros (k & c & (r0 & B1 & B3 & B4) & B2). exists k, c, r0. split; [exact B1|]. split; [exact B2|]. split; [exact B3|]. lia.
Qed.

Lemma to_fun_uses (c : ic) i : to_fun false (ic_adp c) i = true <-> uses c i.
Proof.
  unfold to_fun, uses. destruct (Z.ltb_spec i 0) as [H|H].
  - split; [discriminate|]. intros [H1 _]. lia.
  - split.
    + intros E. split; [lia|]. destruct (nth_error (ic_adp c) (Z.to_nat i)) as [b|] eqn:En.
      * apply nth_error_nth with (d := false) in En. congruence.
      * apply nth_error_None in En. rewrite nth_overflow in E by exact En. discriminate.
    + intros [_ E]. apply nth_error_nth with (d := false) in E. exact E.
Qed.
Lemma act_free_spec free (c : ic) : act_free free c = true <-> exists i, covers free i /\ uses c i.
Proof.
  unfold act_free. rewrite existsb_exists, vread_indices. split.
  - intros (b & Hb & ->). apply in_map_iff in Hb as (i & E & Hi). exists i. split; [apply In_indices, Hi|apply to_fun_uses, E].
  - intros (i & Hi & U). exists true. split; [|reflexivity]. apply in_map_iff. exists i. split; [apply to_fun_uses, U|apply In_indices, Hi].
Qed.

Variable iadd : Z -> Z -> Z.
Hypothesis EX : exact_add iadd.
Lemma col_sum_spec x rows : forall sel, length rows = length sel ->
  (forall row, In row rows -> 0 <= nth x row 0) ->
  0 <= col_sum iadd x rows sel /\
  (0 < col_sum iadd x rows sel <-> exists p row, nth_error rows p = Some row /\ nth_error sel p = Some true /\ 0 < nth x row 0).
Proof.
  induction rows as [|r rows IH]; intros [|b sel] L H; try discriminate L.
  - cbn. split; [lia|]. split; [lia|]. intros ([|p] & row & H1 & _); discriminate H1.
  - cbn [col_sum]. rewrite EX. destruct (IH sel) as [A B]; [cbn in L; lia|intros; apply H; right; assumption|].
    pose proof (H r (or_introl eq_refl)) as Hr. split; [destruct b; lia|]. split.
    + intros Hp. destruct (Z.ltb_spec 0 (col_sum iadd x rows sel)) as [Hs|Hs].
      * apply B in Hs as (p & row & C1 & C2 & C3). exists (S p), row. auto.
      * destruct b; [|lia]. exists O, r. cbn. repeat split. lia.
    + intros ([|p] & row & C1 & C2 & C3); cbn in C1, C2.
      * injection C1 as <-. injection C2 as ->. lia.
      * assert (0 < col_sum iadd x rows sel) by (apply B; exists p, row; auto). destruct b; lia.
Qed.

Lemma needsv_inputv (ex : list (con V (list V))) d j : In d ex -> needsv ex d j -> inputv ex j.
Proof. intros Hd H. destruct H as [i H|i k e H1 H2 H3 H4]; [exists d|exists e]; auto. Qed.

Variables (P : con V (list V) -> Prop) (n m : Z).
Hypothesis HF : family n m P.

Lemma act_bs_spec (st : ecs V (list V)) junk (c : ic) : reach iadd P n m st -> length (ic_adp c) = Z.to_nat m ->
  act_bs iadd junk st (notOutDers st) c = true <->
  exists i, free_var m (data st) i /\ reaches (data st) c i.
Proof.
  intros R Lc. destruct (@index_sets _ _ iadd P n m HF st R) as (_ & _ & _ & I4 & I5 & I6 & _).
  pose proof (reach_inv iadd P n m st HF R) as I.
  assert (Free : forall i, covers (notOutDers st) i <-> free_var m (data st) i) by (intros i; rewrite I5; reflexivity).
  unfold act_bs. rewrite orb_true_iff, act_free_spec, !andb_true_iff, !negb_true_iff. split.
  - intros [(i & A & B)|[[A B] C]].
    + exists i. split; [apply Free, A|left; exact B].
    + unfold act_dep in C. apply existsb_exists in C as (x & Hx & C). apply in_seq in Hx. apply negb_true_iff, Z.eqb_neq in C.
      apply Nat.eqb_neq in B. assert (Hc : 0 < cardinal (inDers st)) by lia.
      destruct (@dof_deps_spec _ _ iadd P n m HF EX st junk R Hc) as [L D].
      assert (Nin : nonneg (inDers st)) by (destruct I; tauto).
      assert (Hx2 : (x < length (indices (inDers st)))%nat).
      { rewrite cardinal_indices in Hx by exact Nin. lia. }
      destruct (nth_error (indices (inDers st)) x) as [j|] eqn:Ej; [|apply nth_error_None in Ej; lia].
      assert (Hent : forall p row, nth_error (dof_deps junk st) p = Some row -> exists i v,
        nth_error (indices (outDers st)) p = Some i /\ nth x row 0 = v /\ 0 <= v /\
        (0 < v <-> exists d, In d (data st) /\ covers (c_outv d) i /\ needsv (data st) d j)).
      { intros p row Hp. assert (p < length (dof_deps junk st))%nat by (apply nth_error_Some; congruence).
        destruct (nth_error (indices (outDers st)) p) as [i|] eqn:Ei; [|apply nth_error_None in Ei; lia].
        destruct (D p i Ei) as (row' & D1 & D2 & D3). rewrite Hp in D1. injection D1 as <-.
        destruct (D3 x j Ej) as (v & V1 & V2 & V3). exists i, v. split; [reflexivity|]. split; [apply nth_error_nth, V1|]. auto. }
      destruct (col_sum_spec x (dof_deps junk st) (vread (to_fun false (ic_adp c)) (outDers st))) as [S1 S2].
      { rewrite vread_indices, map_length. exact L. }
      { intros row Hrow. apply In_nth_error in Hrow as [p Hp]. destruct (Hent p row Hp) as (i & v & _ & Ev & Hv & _). rewrite Ev. exact Hv. }
      destruct S2 as [S2 _]. destruct S2 as (p & row & B1 & B2 & B3); [lia|].
      destruct (Hent p row B1) as (i & v & E1 & E2 & _ & E3). rewrite E2 in B3. destruct (proj1 E3 B3) as (d & G1 & G2 & G3).
      rewrite vread_indices, nth_error_map, E1 in B2. cbn in B2. injection B2 as B2. apply to_fun_uses in B2.
      assert (Hj : inputv (data st) j /\ ~ outputv (data st) j) by (apply I6, In_indices; eapply nth_error_In, Ej).
      exists j. split.
      * split; [|apply Hj]. destruct Hj as [(d' & K1 & K2) _].
        destruct HF as (_ & _ & HFw & _). destruct (HFw d' (i_P _ _ _ _ _ I d' K1)) as (_ & _ & _ & _ & K3 & _).
        destruct K2 as (s & K4 & K5). specialize (K3 s K4). unfold in_seg in K5. lia.
      * right. exists i, d. auto.
  - intros (j & Fj & [U|(o & d & U & Hd & Ho & Hn)]).
    + left. exists j. split; [apply Free, Fj|exact U].
    + right. assert (Hin : covers (inDers st) j) by (apply I6; split; [eapply needsv_inputv; eassumption|apply Fj]).
      assert (Hout : covers (outDers st) o) by (apply I4; exists d; auto).
      assert (Nin : nonneg (inDers st)) by (destruct I; tauto).
      assert (Nou : nonneg (outDers st)) by (destruct I; tauto).
      apply In_indices in Hin, Hout. apply In_nth_error in Hin as [x Hx]. apply In_nth_error in Hout as [p Hp].
      assert (Lx : (x < length (indices (inDers st)))%nat) by (apply nth_error_Some; congruence).
      assert (Lp : (p < length (indices (outDers st)))%nat) by (apply nth_error_Some; congruence).
      assert (Hc : 0 < cardinal (inDers st)) by (rewrite cardinal_indices by exact Nin; lia).
      destruct (@dof_deps_spec _ _ iadd P n m HF EX st junk R Hc) as [L D].
      split; [split|].
      * apply Nat.eqb_neq. lia.
      * apply Nat.eqb_neq. lia.
      * unfold act_dep. apply existsb_exists. exists x. split.
        { apply in_seq. rewrite cardinal_indices by exact Nin. lia. }
        apply negb_true_iff, Z.eqb_neq.
        destruct (col_sum_spec x (dof_deps junk st) (vread (to_fun false (ic_adp c)) (outDers st))) as [S1 S2].
        { rewrite vread_indices, map_length. exact L. }
        { intros row Hrow. apply In_nth_error in Hrow as [p' Hp']. assert (p' < length (dof_deps junk st))%nat by (apply nth_error_Some; congruence).
          destruct (nth_error (indices (outDers st)) p') as [i|] eqn:Ei; [|apply nth_error_None in Ei; lia].
          destruct (D p' i Ei) as (row' & D1 & D2 & D3). rewrite Hp' in D1. injection D1 as <-.
          destruct (D3 x j Hx) as (v & V1 & V2 & V3). rewrite (nth_error_nth _ _ _ V1). exact V2. }
        destruct (D p o Hp) as (row & D1 & D2 & D3). destruct (D3 x j Hx) as (v & V1 & V2 & V3).
        assert (0 < col_sum iadd x (dof_deps junk st) (vread (to_fun false (ic_adp c)) (outDers st))); [|lia].
        apply S2. exists p, row. split; [exact D1|]. split.
        -- rewrite vread_indices, nth_error_map, Hp. cbn. f_equal. apply to_fun_uses, U.
        -- rewrite (nth_error_nth _ _ _ V1). apply V3. exists d. auto.
Qed.

(** ** implicitDof *)
Lemma orb_all_spec a : forall b, length a = length b -> exists r, orb_all a b = Some r /\ length r = length a /\
  forall k, nth_error r k = Some true <-> nth_error a k = Some true \/ nth_error b k = Some true.
Proof.
  induction a as [|x a IH]; intros [|y b] L; try discriminate L.
  - exists []. cbn. split; [reflexivity|]. split; [reflexivity|]. intros [|k]; cbn; intuition discriminate.
  - destruct (IH b) as (r & A & B & C); [cbn in L; lia|]. exists ((x || y) :: r). cbn. rewrite A. split; [reflexivity|].
    split; [cbn; lia|]. intros [|k]; cbn; [destruct x, y; cbn; intuition congruence|apply C].
Qed.
Lemma orb_all_bad a : forall b, length a <> length b -> orb_all a b = None.
Proof.
  induction a as [|x a IH]; intros [|y b] L; cbn; try reflexivity; [contradiction|]. rewrite IH; [reflexivity|cbn in L; lia].
Qed.
Lemma set_adp_spec M (cs : list ic) : (forall c, In c cs -> length (ic_adp c) = M) -> forall a, length a = M ->
  exists r, set_adp a cs = Some r /\ length r = M /\
  forall k, nth_error r k = Some true <-> nth_error a k = Some true \/ exists c, In c cs /\ nth_error (ic_adp c) k = Some true.
Proof.
  induction cs as [|c cs IH]; intros W a L; cbn.
  - exists a. split; [reflexivity|]. split; [exact L|]. intros k. split; [auto|]. intros [H|(c & [] & _)]. exact H.
  - destruct (orb_all_spec a (ic_adp c)) as (b & A & B & C); [rewrite (W c (or_introl eq_refl)); exact L|]. rewrite A.
    destruct (IH (fun d Hd => W d (or_intror Hd)) b) as (r & R1 & R2 & R3); [lia|]. exists r. split; [exact R1|]. split; [exact R2|].
    intros k. rewrite R3, C. split.
    + intros [[H|H]|(d & H1 & H2)]; [left; exact H|right; exists c; auto|right; exists d; auto].
    + intros [H|(d & [<-|H1] & H2)]; [auto|auto|right; exists d; auto].
Qed.
Lemma adp_loop_spec M (ls : list (lvl F V)) : (forall l, In l ls -> l_cons l <> []) ->
  (forall l c, In l ls -> In c (l_cons l) -> length (ic_adp c) = M) -> forall a, length a = M ->
  exists r, adp_loop a ls = Some r /\ length r = M /\
  forall k, nth_error r k = Some true <-> nth_error a k = Some true \/ exists l c, In l ls /\ In c (l_cons l) /\ nth_error (ic_adp c) k = Some true.
Proof.
  induction ls as [|l ls IH]; intros NE W a L; cbn.
  - exists a. split; [reflexivity|]. split; [exact L|]. intros k. split; [auto|]. intros [H|(l & c & [] & _)]. exact H.
  - assert (HL : exists b, level_adp (l_cons l) = Some b /\ length b = M /\
      forall k, nth_error b k = Some true <-> exists c, In c (l_cons l) /\ nth_error (ic_adp c) k = Some true).
    { pose proof (NE l (or_introl eq_refl)) as Hne. pose proof (fun c => W l c (or_introl eq_refl)) as Hw.
      destruct (l_cons l) as [|c cs]; [contradiction|]. cbn [level_adp].
      destruct (set_adp_spec M cs (fun d Hd => Hw d (or_intror Hd)) (ic_adp c) (Hw c (or_introl eq_refl))) as (b & A & B & C).
      exists b. split; [exact A|]. split; [exact B|]. intros k. rewrite C. split.
      - intros [H|(d & H1 & H2)]; [exists c; split; [left; reflexivity|exact H]|exists d; split; [right; exact H1|exact H2]].
      - intros (d & [<-|H1] & H2); [left; exact H2|right; exists d; auto]. }
    destruct HL as (b & -> & B & C). destruct (orb_all_spec a b) as (r0 & -> & D & E); [lia|].
    destruct (IH (fun l' H => NE l' (or_intror H)) (fun l' c H => W l' c (or_intror H)) r0) as (r & R1 & R2 & R3); [lia|].
    exists r. split; [exact R1|]. split; [exact R2|]. intros k. rewrite R3, E, C. split.
    + intros [[H|(c & H1 & H2)]|(l' & c & H0 & H1 & H2)]; [auto|right; exists l, c; auto|right; exists l', c; auto].
    + intros [H|(l' & c & [<-|H0] & H1 & H2)]; [auto|left; right; exists c; auto|right; exists l', c; auto].
Qed.
Lemma adp_loop_gap M (ls : list (lvl F V)) : (exists l, In l ls /\ l_cons l = []) ->
  (forall l c, In l ls -> In c (l_cons l) -> length (ic_adp c) = M) -> forall a, length a = M -> (0 < M)%nat -> adp_loop a ls = None.
Proof.
  induction ls as [|l ls IH]; intros (l0 & H0 & E0) W a L Mp; [destruct H0|]. cbn.
  destruct (l_cons l) as [|c cs] eqn:El.
  - cbn. rewrite orb_all_bad by (cbn; lia). reflexivity.
  - destruct H0 as [->|H0]; [congruence|]. cbn [level_adp].
    assert (Hw : forall d, In d (c :: cs) -> length (ic_adp d) = M) by (intros d Hd; apply (W l); [left; reflexivity|rewrite El; exact Hd]).
    destruct (set_adp_spec M cs (fun d Hd => Hw d (or_intror Hd)) (ic_adp c) (Hw c (or_introl eq_refl))) as (b & -> & B & _).
    destruct (orb_all_spec a b) as (r & -> & D & _); [lia|].
    apply IH; [exists l0; auto|intros l' d H; apply W; right; exact H|lia|exact Mp].
Qed.

Lemma idof_spec (st : ecs V (list V)) : reach iadd P n m st -> forall adp i out,
  (forall j, 0 <= out j /\ (outputv (data st) j -> out j = 0)) ->
  let r := idof_loop iadd st i adp out in
  forall j, 0 <= r j /\ (outputv (data st) j -> r j = 0) /\
  (0 < r j <-> 0 < out j \/ exists k, nth_error adp k = Some true /\
     (derF st (i + Z.of_nat k) < 0 /\ j = i + Z.of_nat k \/
      0 <= derF st (i + Z.of_nat k) /\ 0 < deps st (Z.to_nat (derF st (i + Z.of_nat k))) j)).
Proof.
  intros R. pose proof (reach_inv iadd P n m st HF R) as I. pose proof (i_der _ _ _ _ _ I) as [T1 T2].
  assert (Dz : forall i, 0 <= derF st i -> forall j, 0 <= deps st (Z.to_nat (derF st i)) j /\
    (outputv (data st) j -> deps st (Z.to_nat (derF st i)) j = 0)).
  { intros i Hi j. destruct (T2 i Hi) as (d & Hd & _).
    destruct (@deps_spec _ _ iadd P n m HF EX st _ d j R Hd) as [D1 D2]. split; [exact D1|]. intros Ho.
    destruct (Z.eq_dec (deps st (Z.to_nat (derF st i)) j) 0) as [E|E]; [exact E|]. exfalso. apply D2; [lia|exact Ho]. }
  induction adp as [|b adp IH]; intros i out H; cbn [idof_loop]; cbv zeta; intros j.
  - destruct (H j) as [H1 H2]. split; [exact H1|]. split; [exact H2|]. split; [auto|]. intros [Hp|([|k] & Hk & _)]; [exact Hp|discriminate Hk|discriminate Hk].
  - set (out' := if b then _ else _).
    assert (HO : forall j, 0 <= out' j /\ (outputv (data st) j -> out' j = 0) /\
      (0 < out' j <-> 0 < out j \/ b = true /\ (derF st i < 0 /\ j = i \/ 0 <= derF st i /\ 0 < deps st (Z.to_nat (derF st i)) j))).
    { intros j'. destruct (H j') as [H1 H2]. unfold out'. destruct b.
      - destruct (Z.leb_spec 0 (derF st i)) as [Hd|Hd]; cbv beta zeta.
        + destruct (Dz i Hd j') as [D1 D2]. destruct (Z.eqb_spec j' i) as [->|Hji].
          * assert (O : outputv (data st) i). { destruct (T2 i Hd) as (d & K1 & K2). exists d. split; [eapply nth_error_In, K1|exact K2]. }
            specialize (H2 O). specialize (D2 O). split; [lia|]. split; [reflexivity|]. rewrite H2, D2. intuition lia.
          * rewrite EX. split; [lia|]. split; [intros O; rewrite (H2 O), (D2 O); reflexivity|]. split.
            -- intros Hp. destruct (Z.ltb_spec 0 (out j')); [auto|]. right. split; [reflexivity|]. right. lia.
            -- intros [Hp|[_ [[? ?]|[_ Hp]]]]; lia.
        + destruct (Z.eqb_spec j' i) as [->|Hji].
          * rewrite EX. split; [lia|]. split.
            -- intros (d & K1 & K2). apply In_nth_error in K1 as [k K1]. rewrite (T1 _ _ _ K1 K2) in Hd. lia.
            -- intuition lia.
          * split; [exact H1|]. split; [exact H2|]. intuition lia.
      - split; [exact H1|]. split; [exact H2|]. intuition congruence. }
    destruct (IH (i + 1) out' (fun j => conj (proj1 (HO j)) (proj1 (proj2 (HO j)))) j) as (A & B & C). split; [exact A|]. split; [exact B|].
    rewrite C. destruct (HO j) as (_ & _ & E). rewrite E. clear -T1. split.
    + intros [[Hp|[-> Hp]]|(k & K1 & K2)]; [auto| |].
      * right. exists O. split; [reflexivity|]. rewrite Z.add_0_r. exact Hp.
      * right. exists (S k). split; [exact K1|]. replace (i + Z.of_nat (S k)) with (i + 1 + Z.of_nat k) by lia. exact K2.
    + intros [Hp|([|k] & K1 & K2)]; [auto| |].
      * left. right. cbn in K1. injection K1 as ->. rewrite Z.add_0_r in K2. auto.
      * right. exists k. split; [exact K1|]. replace (i + 1 + Z.of_nat k) with (i + Z.of_nat (S k)) by lia. exact K2.
Qed.
End Rows.
