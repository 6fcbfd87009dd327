From Coq Require Import ZArith List Bool Lia Reals Lra.
From Verif Require Import SegModel SegSpec SegProofs ViewModel ViewProofs EcsModel EcsSpec EcsProofs EcsMainProofs EcsFinalProofs EcsSolveProofs
  EcsJacModel EcsJacSpec EcsJacProofs EcsDerivProofs ImplFunProofs RedModel.
Import ListNotations.
Open Scope Z_scope.

Section Red.
Context {V Rh : Type}.
Notation con := (con V Rh).
Notation ecs := (ecs V Rh).
Variable iadd : Z -> Z -> Z.
Variables (P : con -> Prop) (n m : Z).
Hypothesis FAM : family n m P.

Notation jacobian := (jacobian 0%R 1%R Rplus Rmult).
Notation reduced := (reduced 0%R 1%R Rplus Rmult).
Notation total_jacobian := (total_jacobian 0%R 1%R Rplus Rmult).
Notation rsum := (ksum 0%R Rplus).

Lemma rsum_list (l : list Z) h : rsum (length l) (fun k => h (nth (Z.to_nat k) l 0)) = lsum (map h l).
Proof.
  induction l as [|x l IH] using rev_ind; [reflexivity|]. rewrite app_length, map_app, lsum_app, Nat.add_1_r. cbn [ksum length map lsum].
  rewrite Nat2Z.id, app_nth2, Nat.sub_diag by lia. cbn [nth]. rewrite <- IH. replace (h x + 0)%R with (h x) by lra. f_equal.
  apply ksum_ext. intros k Hk. rewrite Nat2Z.id, app_nth1 by exact Hk. reflexivity.
Qed.

Lemma m_nonneg : 0 <= m.
Proof. exact (proj1 (proj2 FAM)). Qed.

Lemma out_fields fuel (st st' : ecs) c k : add iadd fuel st c = (st', Added k) ->
  exists ov, c_outv c = [ov] /\ outDers st' = upd_out (outDers st) ov.
Proof.
  unfold add. intros H.
  repeat match type of H with
  | (if ?b then _ else _) = _ => destruct b eqn:?; try discriminate
  | match ?x with _ => _ end = _ => destruct x eqn:?; try discriminate
  end.
  injection H as <- _. cbn [outDers]. eauto.
Qed.
Lemma reach_out_inside (st : ecs) : reach iadd P n m st -> inside m (outDers st).
Proof.
  intros HR; pose proof FAM as (Hn & Hm & HW & _). induction HR as [|st c fuel st' r HR IH Pc E].
  - intros s [].
  - pose proof (reach_inv iadd P n m st FAM HR) as I.
    destruct (HW c Pc) as (_ & _ & _ & _ & _ & W2 & _).
    destruct (add_any iadd P n m st c fuel st' r FAM I Pc E) as [(-> & _)|[(_ & -> & _)|(_ & ->)]]; [|exact IH|exact IH].
    destruct (out_fields fuel st st' c _ E) as (ov & E1 & ->). unfold upd_out, normalise. apply shrink_inside.
    intros s Hs. apply (Permutation.Permutation_in _ (sort_perm _)) in Hs. apply in_app_or in Hs as [Hs|[<-|[]]]; [apply IH, Hs|].
    apply W2. rewrite E1. now left.
Qed.

Lemma lsum_delta l (h : Z -> R) j : NoDup l -> In j l -> lsum (map (fun i => if i =? j then h i else 0%R) l) = h j.
Proof.
  induction l as [|x l IH]; intros ND H; [destruct H|]. inversion ND as [|? ? N1 N2]; subst. cbn.
  destruct (Z.eqb_spec x j) as [->|N].
  - assert (Z0 : lsum (map (fun i => if i =? j then h i else 0%R) l) = 0%R); [|lra].
    clear IH H ND N2. induction l as [|y l IH]; [reflexivity|]. cbn. destruct (Z.eqb_spec y j) as [->|_]; [exfalso; apply N1; now left|].
    rewrite IH; [lra|]. intros X. apply N1. now right.
  - destruct H as [H|H]; [congruence|]. rewrite IH by auto. lra.
Qed.

Lemma nth_error_nth_Z (l : list Z) k x : nth_error l k = Some x -> nth k l 0 = x.
Proof. apply nth_error_nth. Qed.

Lemma reduced_spec (st : ecs) Fs rows (Jf : mat R) T : reach iadd P n m st -> jac_sizes (data st) Fs ->
  nc Jf = m -> inside (nr Jf) rows -> total_jacobian m (data st) Fs T ->
  exists M, reduced st Fs rows Jf = Some M /\ nr M = cardinal rows /\ nc M = cardinal (notOutDers st) /\
    forall p c r j, nth_error (indices rows) p = Some r -> nth_error (indices (notOutDers st)) c = Some j ->
      at_ M (Z.of_nat p) (Z.of_nat c) = rsum (Z.to_nat m) (fun i => (at_ Jf r i * T i j)%R).
Proof.
  intros HR HSz Hc Hr HT. pose proof (reach_inv iadd P n m st FAM HR) as I. pose proof m_nonneg as Hm.
  destruct (reach_inside iadd P n m FAM st HR) as [Iin Inot]. pose proof (reach_out_inside st HR) as Iout.
  destruct (i_notvn _ _ _ _ _ I) as [Nn Sn]. destruct (i_outvn _ _ _ _ _ I) as [No So].
  destruct (jacobian_spec 0%R 1%R Rplus Rmult (Rplus_0_l 0) Rmult_0_r iadd P n m FAM st Fs HR HSz) as (J & EJ & J1 & J2 & J3 & J4 & J5).
  specialize (J5 T HT).
  assert (Split : forall r j, In j (indices (notOutDers st)) ->
    rsum (Z.to_nat m) (fun i => (at_ Jf r i * T i j)%R) =
    (at_ Jf r j + lsum (map (fun i => (at_ Jf r i * T i j)%R) (indices (outDers st))))%R).
  { intros r j Hj. rewrite (rsum_support (indices (notOutDers st) ++ indices (outDers st))).
    - rewrite map_app, lsum_app. f_equal.
      rewrite <- (lsum_delta (indices (notOutDers st)) (at_ Jf r) j); [|apply sep_NoDup; auto|exact Hj].
      f_equal. apply map_ext_in. intros i Hi. apply In_indices, (i_notv _ _ _ _ _ I) in Hi as [B1 B2].
      apply In_indices, (i_notv _ _ _ _ _ I) in Hj as [C1 C2]. rewrite (proj1 HT i j B1 C1 B2). destruct (i =? j); lra.
    - apply NoDup_app_intro; [apply sep_NoDup; auto|apply sep_NoDup; auto|].
      intros i Hi Ho. apply In_indices, (i_notv _ _ _ _ _ I) in Hi as [_ Hi]. apply In_indices, (i_outv _ _ _ _ _ I) in Ho. auto.
    - intros i Hi. rewrite Z2Nat.id by lia. apply in_app_or in Hi as [Hi|Hi]; apply In_indices in Hi as (s & Hs & Hi);
        [specialize (Inot s Hs)|specialize (Iout s Hs)]; unfold in_seg in Hi; lia.
    - intros i Hi Hn. exfalso. apply Hn, in_or_app. rewrite Z2Nat.id in Hi by lia.
      destruct (outputv_dec (data st) i) as [X|X]; [right; apply In_indices, (i_outv _ _ _ _ _ I), X|left; apply In_indices, (i_notv _ _ _ _ _ I); auto]. }
  unfold RedModel.reduced.
  destruct (read_view_spec Jf (blank 0%R rows (notOutDers st)) rows (notOutDers st)) as (red & E1 & R1 & R2 & R3); auto; [rewrite Hc; exact Inot|].
  rewrite E1. unfold update_jacobian. destruct (Z.eqb_spec (cardinal (inDers st)) 0) as [E0|N0].
  - exists red. split; [reflexivity|]. split; [exact R1|]. split; [exact R2|]. intros p c r j Hp Hj.
    rewrite (R3 _ _ r j) by (rewrite ?Nat2Z.id; auto; lia). assert (Hj' : In j (indices (notOutDers st))) by (eapply nth_error_In; eauto).
    rewrite (Split r j Hj').
    assert (Z0 : lsum (map (fun i => (at_ Jf r i * T i j)%R) (indices (outDers st))) = 0%R); [|lra].
    assert (A : forall i, In i (indices (outDers st)) -> T i j = 0%R).
    { intros i Hi. apply In_indices in Hi as Hi2. apply (i_outv _ _ _ _ _ I) in Hi2. destruct Hi2 as [? Hi2].
      apply In_indices in Hi as (s & Hs & Hi). specialize (Iout s Hs). unfold in_seg in Hi.
      apply In_indices in Hj' as (s2 & Hs2 & Hj2). specialize (Inot s2 Hs2). unfold in_seg in Hj2.
      rewrite J5 by lia. apply J4; try lia; [eexists; exact Hi2|]. intros X. apply (i_inv _ _ _ _ _ I) in X.
      apply In_indices in X. destruct (i_invn _ _ _ _ _ I) as [Ni _]. rewrite cardinal_indices in E0 by exact Ni. destruct (indices (inDers st)); [destruct X|cbn in E0; lia]. }
    revert A. generalize (indices (outDers st)). clear. induction l as [|x l IH]; intros A; [reflexivity|]. cbn. rewrite (A x) by now left.
    rewrite IH by (intros i Hi; apply A; now right). lra.
  - rewrite EJ.
    destruct (read_view_spec J (blank 0%R (outDers st) (notOutDers st)) (outDers st) (notOutDers st)) as (Je & E2 & P1 & P2 & P3); auto; [rewrite J1; exact Iout|rewrite J2; exact Inot|].
    destruct (read_view_spec Jf (blank 0%R rows (outDers st)) rows (outDers st)) as (Jo & E3 & Q1 & Q2 & Q3); auto; [rewrite Hc; exact Iout|].
    rewrite E2, E3. unfold mprod. rewrite Q2, P1, Z.eqb_refl. unfold madd; cbn [nr nc]. rewrite R1, R2, Q1, P2, !Z.eqb_refl. cbn [andb].
    eexists. split; [reflexivity|]. cbn [nr nc at_]. split; [reflexivity|]. split; [reflexivity|]. intros p c r j Hp Hj.
    rewrite (R3 _ _ r j) by (rewrite ?Nat2Z.id; auto; lia). assert (Hj' : In j (indices (notOutDers st))) by (eapply nth_error_In; eauto).
    rewrite (Split r j Hj'). f_equal. rewrite cardinal_indices by exact No. rewrite Nat2Z.id, <- rsum_list. apply ksum_ext. intros k Hk.
    destruct (nth_error (indices (outDers st)) k) as [i|] eqn:Ei; [|apply nth_error_None in Ei; lia].
    rewrite Nat2Z.id, (nth_error_nth_Z _ _ _ Ei).
    rewrite (Q3 _ _ r i) by (rewrite ?Nat2Z.id; auto; lia). rewrite (P3 _ _ i j) by (rewrite ?Nat2Z.id; auto; lia).
    f_equal. symmetry. apply J5.
    + apply nth_error_In in Ei. apply In_indices in Ei as (s & Hs & Hi). specialize (Iout s Hs). unfold in_seg in Hi. lia.
    + apply In_indices in Hj' as (s & Hs & Hi). specialize (Inot s Hs). unfold in_seg in Hi. lia.
Qed.

(** An output of constraint d does not vary with free variables that d does not need. *)
Lemma needsv_up (l : list con) c d y j : In d l -> covers (c_inv c) y -> covers (c_outv d) y -> needsv l d j -> needsv l c j.
Proof.
  intros Hd H1 H2 N. induction N as [i H|i k e N IH H3 H4 H5].
  - eapply needsv_trans; [apply needsv_direct, H1|exact Hd|exact H2|exact H].
  - eapply needsv_trans; eauto.
Qed.
Lemma total_zero (st : ecs) Fs T : reach iadd P n m st -> jac_sizes (data st) Fs -> total_jacobian m (data st) Fs T ->
  forall j, 0 <= j < m -> ~ outputv (data st) j -> forall i d, 0 <= i < m -> In d (data st) -> covers (c_outv d) i ->
  ~ needsv (data st) d j -> T i j = 0%R.
Proof.
  intros HR HSz [T1 T2] j Hj Nj. pose proof (reach_inv iadd P n m st FAM HR) as I.
  assert (Hin : forall k c, nth_error (data st) k = Some c -> In k (order st)).
  { intros k c H. apply (order_index iadd P n m st k I), nth_error_Some; congruence. }
  assert (G : forall l1 l2, order st = l1 ++ l2 -> forall k d i, In k l1 -> nth_error (data st) k = Some d -> covers (c_outv d) i ->
    ~ needsv (data st) d j -> T i j = 0%R).
  { induction l1 as [|k l1 IH] using rev_ind; intros l2 Ho k' d i Hk Hd Hi Hn; [destruct Hk|].
    rewrite <- app_assoc in Ho; cbn in Ho. apply in_app_or in Hk as [Hk|[<-|[]]]; [eapply (IH _ Ho); eauto|].
    destruct (nth_error Fs k) as [F|] eqn:HF.
    2:{ apply nth_error_None in HF. rewrite (proj1 HSz) in HF. assert ((k < length (data st))%nat) by (apply nth_error_Some; congruence). lia. }
    apply In_indices, In_nth_error in Hi as [p Hp]. rewrite (T2 k d F p i j Hd HF Hp Hj). apply dot_zero; [lra|intros; lra|].
    intros x Hx. apply in_map_iff in Hx as (y & <- & Hy). apply In_indices in Hy.
    pose proof FAM as (_ & _ & HW & _). destruct (HW d (i_P _ _ _ _ _ I d (nth_error_In _ _ Hd))) as (_ & _ & _ & _ & W1 & _).
    assert (By : 0 <= y < m) by (destruct Hy as (s & Hs & Hy); specialize (W1 s Hs); unfold in_seg in Hy; lia).
    destruct (outputv_dec (data st) y) as [(e & He & Hye)|Hno].
    - apply In_nth_error in He as [k' Hk']. eapply (IH _ Ho k' e y); [|exact Hk'|exact Hye|].
      + eapply (velo_order iadd P n m FAM st l1 k l2 d e k' y); eauto.
      + intros X. apply Hn. eapply needsv_up; [eapply nth_error_In; exact Hk'|exact Hy|exact Hye|exact X].
    - rewrite T1 by auto. destruct (Z.eqb_spec y j) as [->|_]; [|reflexivity]. exfalso. apply Hn. now apply needsv_direct. }
  intros i d Hi Hd Hc Hn. apply In_nth_error in Hd as [k Hk]. eapply (G (order st) [] (eq_sym (app_nil_r _))); eauto.
Qed.
End Red.
