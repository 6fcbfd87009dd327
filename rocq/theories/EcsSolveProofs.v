(** Solving explicit constraints. *)
From Coq Require Import ZArith List Bool Lia ZifyBool Permutation.
From Verif Require Import SegModel SegSpec SegProofs ViewModel ViewProofs EcsModel EcsSpec EcsProofs EcsOrderProofs EcsMainProofs.
Import ListNotations.
Open Scope Z_scope.

Section Solve.
Context {V Rh : Type}.
Notation con := (con V Rh).
Notation ecs := (ecs V Rh).
Variable iadd : Z -> Z -> Z.
Variables (P : con -> Prop) (n m : Z).
Hypothesis FAM : family n m P.

Lemma topo_conf (st : ecs) l1 k l2 c d k' i : inv iadd P n m st ->
  order st = l1 ++ k :: l2 -> nth_error (data st) k = Some c -> nth_error (data st) k' = Some d ->
  covers (c_in c) i -> covers (c_out d) i -> In k' l1.
Proof.
  intros I Ho Hk Hk' Hi Hd. destruct FAM as (_ & _ & _ & HC).
  assert (Pc : P c) by (apply I; eapply nth_error_In; exact Hk).
  assert (Pd : P d) by (apply I; eapply nth_error_In; exact Hk').
  destruct (HC c d Pc Pd) as [[_ H1] _]. destruct H1 as (x & Hx1 & Hx2); [exists i; auto|].
  pose proof (proj1 (i_der _ _ _ _ _ I) _ _ _ Hk' Hx2) as E.
  pose proof (i_topo _ _ _ _ _ I l1 k l2 Ho c x Hk Hx1 ltac:(lia)) as G.
  rewrite E, Nat2Z.id in G; exact G.
Qed.

Lemma no_self (st : ecs) k c i : inv iadd P n m st -> nth_error (data st) k = Some c ->
  covers (c_in c) i -> ~ covers (c_out c) i.
Proof.
  intros I Hk Hi Ho. destruct (i_rank _ _ _ _ _ I) as [rank HR].
  pose proof (HR c i i (nth_error_In _ _ Hk) Ho Hi); lia.
Qed.

Lemma vread_ext (f g : Z -> V) rows : (forall i, covers rows i -> f i = g i) -> vread f rows = vread g rows.
Proof. intros H; rewrite !vread_indices; apply map_ext_in; intros i Hi; apply H, In_indices, Hi. Qed.

Definition done (st : ecs) (l1 : list nat) (a arg : Z -> V) : Prop :=
  (forall k c r, In k l1 -> nth_error (data st) k = Some c -> nth_error (rhsl st) k = Some r ->
     vread a (c_out c) = c_val c r (vread a (c_in c))) /\
  (forall i, (forall k c, In k l1 -> nth_error (data st) k = Some c -> ~ covers (c_out c) i) -> a i = arg i).

Lemma order_index (st : ecs) k : inv iadd P n m st -> (In k (order st) <-> (k < length (data st))%nat).
Proof.
  intros I. pose proof (i_perm _ _ _ _ _ I) as HP. split.
  - intros H. apply (Permutation_in _ HP) in H. apply in_seq in H; lia.
  - intros H. apply (Permutation_in _ (Permutation_sym HP)), in_seq; lia.
Qed.
Lemma order_nodup (st : ecs) : inv iadd P n m st -> NoDup (order st).
Proof.
  intros I. eapply Permutation_NoDup; [apply Permutation_sym, (i_perm _ _ _ _ _ I) | apply seq_NoDup].
Qed.

Lemma single_NoDup o : NoDup (indices [o]).
Proof. unfold indices; cbn; rewrite app_nil_r. unfold seg_indices; apply NoDup_zseq. Qed.

Lemma solve_loop_spec (st : ecs) arg : inv iadd P n m st -> (forall c, In c (data st) -> sized c) ->
  forall l2 l1 a, order st = l1 ++ l2 -> done st l1 a arg ->
  exists a', solve_loop st a l2 = Some a' /\ done st (order st) a' arg.
Proof.
  intros I HS; induction l2 as [|k l2 IH]; intros l1 a Ho HD; cbn [solve_loop].
  - rewrite app_nil_r in Ho; rewrite Ho. exists a; auto.
  - assert (Hk : (k < length (data st))%nat) by (apply (order_index st k I); rewrite Ho; apply in_or_app; right; left; auto).
    destruct (nth_error (data st) k) as [c|] eqn:Hc; [|apply nth_error_None in Hc; lia].
    destruct (nth_error (rhsl st) k) as [r|] eqn:Hr; [|apply nth_error_None in Hr; rewrite (i_rhs _ _ _ _ _ I) in Hr; lia].
    unfold solve_one; rewrite Hc, Hr.
    assert (Pc : P c) by (apply I; eapply nth_error_In; exact Hc).
    destruct FAM as (_ & _ & HW & _). destruct (HW c Pc) as ((o & Hout) & _ & _ & W2 & _).
    assert (Nout : nonneg (c_out c)) by (intros s Hs; apply (W2 s Hs)).
    destruct (vwrite_spec (c_out c) a (c_val c r (vread a (c_in c)))) as (w & Hw & W3 & W4); auto.
    { rewrite Hout; apply single_NoDup. }
    { rewrite (HS c (nth_error_In _ _ Hc)); [symmetry; apply cardinal_indices; exact Nout|].
      rewrite vread_indices, map_length; reflexivity. }
    rewrite Hw.
    destruct (IH (l1 ++ [k]) w) as (a' & E1 & E2); [rewrite <- app_assoc; exact Ho | | exists a'; auto].
    destruct HD as [HD1 HD2]. split.
    + intros k' c' r' Hk' Hc' Hr'. apply in_app_or in Hk' as [Hk'|[<-|[]]].
      * assert (Hne : k' <> k).
        { intros ->. pose proof (order_nodup st I) as ND. rewrite Ho in ND.
          apply NoDup_remove_2 in ND. apply ND, in_or_app; auto. }
        rewrite (vread_ext w a (c_out c')), (vread_ext w a (c_in c')); [apply (HD1 k' c' r'); auto| |].
        -- intros i Hi; apply W4. intros Hoi.
           apply in_split in Hk' as (x1 & x2 & ->).
           assert (G : In k x1).
           { eapply (topo_conf st x1 k' (x2 ++ k :: l2) c' c k i); eauto.
             rewrite Ho, <- app_assoc; reflexivity. }
           pose proof (order_nodup st I) as ND. rewrite Ho in ND.
           apply NoDup_remove_2 in ND. apply ND. apply in_or_app; left. apply in_or_app; left; exact G.
        -- intros i Hi; apply W4. intros Hoi. apply Hne.
           eapply (tab_disjoint c_out (data st) (argF st)); [apply I | exact Hc' | exact Hc | exact Hi | exact Hoi].
      * rewrite Hc in Hc'; injection Hc' as <-. rewrite Hr in Hr'; injection Hr' as <-.
        rewrite W3. f_equal. apply vread_ext; intros i Hi; symmetry; apply W4.
        eapply no_self; [exact I | exact Hc | exact Hi].
    + intros i Hi. rewrite W4.
      * apply HD2; intros k' c' Hk' Hc'; apply (Hi k'); [apply in_or_app; auto | exact Hc'].
      * apply (Hi k c); [apply in_or_app; right; left; auto | exact Hc].
Qed.

Lemma in_combine_nth {A B} (l : list A) : forall (l' : list B) a b,
  In (a, b) (combine l l') <-> exists k, nth_error l k = Some a /\ nth_error l' k = Some b.
Proof.
  induction l as [|x l IH]; intros [|y l'] a b; cbn [combine].
  - split; [intros [] | intros ([|k] & H & _); discriminate].
  - split; [intros [] | intros ([|k] & H & _); discriminate].
  - split; [intros [] | intros ([|k] & _ & H); discriminate].
  - cbn [In]; rewrite IH; split.
    + intros [E|(k & H1 & H2)]; [injection E as -> ->; exists O; auto | exists (S k); auto].
    + intros ([|k] & H1 & H2); cbn in *; [left; congruence | right; exists k; auto].
Qed.
Lemma map_fst_combine {A B} (l : list A) : forall (l' : list B), length l' = length l -> map fst (combine l l') = l.
Proof. induction l as [|x l IH]; intros [|y l'] H; cbn in *; try lia; auto. f_equal; apply IH; lia. Qed.

Definition pairs (st : ecs) : list (con * Rh) := combine (data st) (rhsl st).

Lemma solve_solution (st : ecs) arg : inv iadd P n m st -> (forall c, In c (data st) -> sized c) ->
  exists a, solve st arg = Some a /\ solution (pairs st) arg a.
Proof.
  intros I HS. destruct (solve_loop_spec st arg I HS (order st) [] arg eq_refl) as (a & E & D1 & D2).
  { split; [intros k c r [] | auto]. }
  exists a; split; [exact E|]. split.
  - intros c r Hcr. apply in_combine_nth in Hcr as (k & Hk1 & Hk2). unfold satisfies.
    rewrite <- !vread_indices. apply (D1 k); auto. apply (order_index st k I), nth_error_Some; congruence.
  - intros i Hi. apply D2. intros k c _ Hc Hoi. apply Hi.
    unfold pairs; rewrite map_fst_combine by (apply I). exists c; split; [eapply nth_error_In; exact Hc | exact Hoi].
Qed.

Lemma solution_unique (st : ecs) arg a b : inv iadd P n m st ->
  solution (pairs st) arg a -> solution (pairs st) arg b -> forall i, a i = b i.
Proof.
  intros I [A1 A2] [B1 B2].
  assert (HF : map fst (pairs st) = data st) by (unfold pairs; apply map_fst_combine; apply I).
  rewrite HF in A2, B2.
  assert (G : forall l1 l2, order st = l1 ++ l2 ->
     forall i, ((exists k c, In k l1 /\ nth_error (data st) k = Some c /\ covers (c_out c) i) \/ ~ output (data st) i) -> a i = b i).
  { induction l1 as [|k l1 IH] using rev_ind; intros l2 Ho i Hi.
    - destruct Hi as [(k & c & [] & _)|Hi]. rewrite A2, B2 by exact Hi; reflexivity.
    - rewrite <- app_assoc in Ho; cbn in Ho.
      destruct Hi as [(k' & c & Hk' & Hc & Hi)|Hi]; [|eapply IH; [exact Ho | right; exact Hi]].
      apply in_app_or in Hk' as [Hk'|[<-|[]]]; [eapply IH; [exact Ho | left; exists k', c; auto]|].
      assert (Hr : exists r, nth_error (rhsl st) k = Some r).
      { destruct (nth_error (rhsl st) k) as [r|] eqn:E; [exists r; auto|].
        apply nth_error_None in E. rewrite (i_rhs _ _ _ _ _ I) in E.
        assert ((k < length (data st))%nat) by (apply nth_error_Some; congruence). lia. }
      destruct Hr as [r Hr].
      assert (Hin : In (c, r) (pairs st)) by (apply in_combine_nth; exists k; auto).
      assert (E : map a (indices (c_out c)) = map b (indices (c_out c))).
      { rewrite (A1 c r Hin), (B1 c r Hin). f_equal. apply map_ext_in; intros x Hx.
        apply In_indices in Hx. eapply IH; [exact Ho|].
        destruct (output_dec (data st) x) as [(d & Hd & Hdx)|Hn]; [|right; exact Hn].
        left. apply In_nth_error in Hd as [k' Hk']. exists k', d; split; [|auto].
        eapply (topo_conf st l1 k l2 c d k' x); eauto. }
      apply In_indices in Hi. clear -E Hi. induction (indices (c_out c)) as [|y l IHl]; [destruct Hi|].
      cbn in E; injection E as E1 E2. destruct Hi as [<-|Hi]; auto. }
  intros i. apply (G (order st) [] (eq_sym (app_nil_r _))).
  destruct (output_dec (data st) i) as [(d & Hd & Hdi)|Hn]; [left | right; exact Hn].
  apply In_nth_error in Hd as [k Hk]. exists k, d; split; [|auto].
  apply (order_index st k I), nth_error_Some; congruence.
Qed.

Lemma inv_with_rhs (st : ecs) rl : inv iadd P n m st -> length rl = length (data st) ->
  inv iadd P n m (with_rhs st rl).
Proof. intros I H; destruct I; constructor; cbn; auto. Qed.
End Solve.

Lemma solution_perm {V Rh} (l1 l2 : list (con V Rh * Rh)) q a :
  (forall x, In x l1 <-> In x l2) -> solution l1 q a -> solution l2 q a.
Proof.
  intros H [S1 S2]; split.
  - intros c r Hcr; apply S1, H, Hcr.
  - intros i Hi; apply S2. intros (c & Hc & Hci); apply Hi. exists c; split; [|exact Hci].
    apply in_map_iff in Hc as (p & <- & Hp). apply in_map, H, Hp.
Qed.

Lemma solution_input {V Rh} (l : list (con V Rh * Rh)) q q2 a :
  (forall i, ~ output (map fst l) i -> q i = q2 i) -> solution l q a -> solution l q2 a.
Proof. intros H [S1 S2]; split; [exact S1|]. intros i Hi. rewrite S2, H by exact Hi; reflexivity. Qed.
