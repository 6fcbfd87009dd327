(** Proofs about the Jacobian of explicit constraint sets. *)
From Coq Require Import ZArith List Bool Lia ZifyBool Permutation.
From Verif Require Import SegModel SegSpec SegProofs ViewModel ViewProofs EcsModel EcsSpec EcsProofs EcsOrderProofs EcsMainProofs EcsSolveProofs EcsFinalProofs EcsJacModel EcsJacSpec.
Import ListNotations.
Open Scope Z_scope.

Section Jac.
Context {V Rh K : Type}.
Notation con := (con V Rh).
Notation ecs := (ecs V Rh).
Variables (zero one : K) (kadd kmul : K -> K -> K).
Hypothesis K0 : kadd zero zero = zero.
Hypothesis KM : forall x, kmul x zero = zero.
Notation dot := (dot zero kadd kmul).
Notation total_jacobian := (total_jacobian zero one kadd kmul).
Notation ksum := (ksum zero kadd).
Variable iadd : Z -> Z -> Z.
Variables (P : con -> Prop) (n m : Z).
Hypothesis FAM : family n m P.

Lemma ksum_ext k f g : (forall i, (i < k)%nat -> f (Z.of_nat i) = g (Z.of_nat i)) -> ksum k f = ksum k g.
Proof. induction k as [|k IH]; intros H; cbn [EcsJacModel.ksum]; [reflexivity|]. rewrite IH, H; auto. Qed.

Lemma combine_snoc {A B} (l : list A) (l' : list B) a b : length l = length l' ->
  combine (l ++ [a]) (l' ++ [b]) = combine l l' ++ [(a, b)].
Proof. revert l'; induction l as [|x l IH]; intros [|y l'] H; cbn in *; try discriminate; [reflexivity|]. rewrite IH by lia; reflexivity. Qed.

Lemma dot_ksum (f g : Z -> K) k : dot (map (fun i => f (Z.of_nat i)) (seq 0 k)) (map (fun i => g (Z.of_nat i)) (seq 0 k)) =
  ksum k (fun i => kmul (f i) (g i)).
Proof.
  unfold EcsJacSpec.dot. induction k as [|k IH]; [reflexivity|].
  rewrite seq_S, !map_app; cbn [map]. rewrite combine_snoc by (rewrite !map_length; reflexivity).
  rewrite fold_left_app, IH. reflexivity.
Qed.

Lemma map_via_nth {A} (f : Z -> A) (l : list Z) d :
  map f l = map (fun i => f (nth (Z.to_nat (Z.of_nat i)) l d)) (seq 0 (length l)).
Proof.
  induction l as [|x l IH]; [reflexivity|]. cbn [length seq map]. f_equal. rewrite IH, <- seq_shift, map_map.
  apply map_ext_in; intros i Hi. rewrite !Nat2Z.id. reflexivity.
Qed.

Lemma dot_zero a b : (forall x, In x b -> x = zero) -> dot a b = zero.
Proof.
  intros H. unfold EcsJacSpec.dot.
  assert (G : forall l s, s = zero -> (forall p, In p l -> snd p = zero) -> fold_left (fun s p => kadd s (kmul (fst p) (snd p))) l s = zero).
  { induction l as [|[u v] l IH]; intros s Hs Hl; cbn [fold_left]; [exact Hs|].
    apply IH; [|intros p Hp; apply Hl; right; exact Hp]. cbn [fst snd].
    pose proof (Hl (u, v) (or_introl eq_refl)) as Hv; cbn in Hv. rewrite Hs, Hv, KM, K0; reflexivity. }
  apply G; [reflexivity|]. intros [u v] Hp; cbn. apply in_combine_r in Hp. auto.
Qed.


(** * The column and row sets lie inside the velocity *)
Lemma shrink_from_inside k rest : forall e, inside k (e :: rest) -> inside k (shrink_from e rest).
Proof.
  induction rest as [|e2 t IH]; intros e H; cbn [shrink_from]; [exact H|].
  destruct (negb (comp_ft e e2)).
  - apply IH. intros s [<-|Hs].
    + pose proof (H e (or_introl eq_refl)); pose proof (H e2 (or_intror (or_introl eq_refl))); cbn; lia.
    + apply H; right; right; exact Hs.
  - intros s [<-|Hs]; [apply H; left; reflexivity|].
    apply (IH e2); [intros u Hu; apply H; right; exact Hu | exact Hs].
Qed.
Lemma shrink_inside k l : inside k l -> inside k (shrink l).
Proof. destruct l as [|e t]; [auto | apply shrink_from_inside]. Qed.

Lemma upd_in_inside k ins cin outs r :
  lex_sorted ins -> inside k ins -> inside k cin -> nonneg outs -> upd_in ins cin outs = Some r -> inside k r.
Proof.
  intros HL H1 H2 HN. unfold upd_in. destruct (add_segs_perm ins cin HL) as (a & -> & HP).
  assert (Ha : inside k a).
  { intros s Hs. apply (Permutation_in _ HP) in Hs. apply in_app_or in Hs as [Hs|Hs]; [apply H1 | apply H2]; exact Hs. }
  destruct (diff_ll_spec a outs (inside_nonneg _ _ Ha) HN) as (d & -> & _ & D2 & _ & _ & D5).
  intros E; injection E as <-. cbn [update_rows]. apply shrink_inside.
  intros s Hs. specialize (D2 s Hs). destruct (D5 s Hs) as (t & Ht & B1 & B2). specialize (Ha t Ht). lia.
Qed.

Lemma add_fields fuel (st st' : ecs) c k : add iadd fuel st c = (st', Added k) ->
  diff_sl (0, nv st) (outDers st') = Some (notOutDers st') /\
  upd_in (inDers st) (c_inv c) (outDers st') = Some (inDers st').
Proof.
  unfold add. intros H.
  repeat match type of H with
  | (if ?b then _ else _) = _ => destruct b eqn:?; try discriminate
  | match ?x with _ => _ end = _ => destruct x eqn:?; try discriminate
  end.
  injection H as <- _. cbn [notOutDers inDers outDers]. auto.
Qed.

Lemma reach_inside (st : ecs) : reach iadd P n m st -> inside m (inDers st) /\ inside m (notOutDers st).
Proof.
  intros HR; pose proof FAM as (Hn & Hm & HW & _). induction HR as [|st c fuel st' r HR IH Pc E].
  - cbn. split; [intros s [] | intros s [<-|[]]; cbn; lia].
  - pose proof (reach_inv iadd P n m st FAM HR) as I.
    pose proof (reach_inv iadd P n m st' FAM (reach_add iadd P n m st c fuel st' r HR Pc E)) as I'.
    destruct (HW c Pc) as (_ & (ov & Hov) & _ & _ & W1 & W2 & _).
    destruct (add_any iadd P n m st c fuel st' r FAM I Pc E) as [(-> & _)|[(_ & -> & _)|(_ & ->)]]; [|exact IH|exact IH].
    destruct (add_fields fuel st st' c _ E) as [F1 F2].
    destruct (i_invn _ _ _ _ _ I) as [N1 N2]. destruct (i_outvn _ _ _ _ _ I') as [N3 N4].
    split.
    + apply (upd_in_inside m (inDers st) (c_inv c) (outDers st')); [apply separated_lex; auto | apply IH | exact W1 | exact N3 | exact F2].
    + rewrite (i_nv _ _ _ _ _ I) in F1.
      destruct (diff_sl_spec (0, m) (outDers st') Hm N3) as (r' & Hr' & _ & _ & R3 & _ & R5). rewrite F1 in Hr'; injection Hr' as <-.
      intros s Hs; specialize (R3 s Hs); specialize (R5 s Hs); cbn in R5; lia.
Qed.

Definition jdone (st : ecs) (Fs : list (mat K)) (l1 : list nat) (J : Z -> Z -> K) : Prop :=
  (forall k c F p i j, In k l1 -> nth_error (data st) k = Some c -> nth_error Fs k = Some F ->
     nth_error (indices (c_outv c)) p = Some i -> 0 <= j < m ->
     J i j = dot (row_of F p (length (indices (c_inv c)))) (map (fun x => J x j) (indices (c_inv c)))) /\
  (forall i j, 0 <= i < m -> 0 <= j < m -> ~ outputv (data st) i -> J i j = if i =? j then one else zero) /\
  (forall i j, 0 <= i < m -> 0 <= j < m -> outputv (data st) i -> ~ covers (inDers st) j -> J i j = zero).

Lemma sep_NoDup l : nonneg l -> sorted_separated l -> NoDup (indices l).
Proof.
  intros HN HS. apply disjoint_indices_NoDup; [|exact HN].
  eapply chain_impl; [|exact HS]. intros s t _ _; unfold separated, before; lia.
Qed.

Lemma jac_init_spec (st : ecs) : reach iadd P n m st ->
  exists J, jac_init zero one st = Some J /\ nr J = m /\ nc J = m /\
  (forall i j, 0 <= i < m -> 0 <= j < m -> at_ J i j = if (i =? j) then if in_dec Z.eq_dec i (indices (notOutDers st)) then one else zero else zero).
Proof.
  intros HR. pose proof (reach_inv iadd P n m st FAM HR) as I. destruct (reach_inside st HR) as [_ HI].
  destruct (i_notvn _ _ _ _ _ I) as [N1 N2]. pose proof (sep_NoDup _ N1 N2) as ND.
  unfold jac_init. rewrite (i_nv _ _ _ _ _ I).
  set (c := cardinal (notOutDers st)).
  destruct (write_view_spec (mkmat c c (fun i j => if i =? j then one else zero)) (mkmat m m (fun _ _ => zero)) (notOutDers st) (notOutDers st))
    as (d & Hd & D1 & D2 & D3 & D4); auto.
  exists d; split; [exact Hd|]. split; [exact D1|]. split; [exact D2|]. intros i j Hi Hj.
  destruct (in_dec Z.eq_dec i (indices (notOutDers st))) as [Ii|Ii], (in_dec Z.eq_dec j (indices (notOutDers st))) as [Ij|Ij].
  - apply In_nth_error in Ii as [a Ha]. apply In_nth_error in Ij as [b Hb].
    rewrite (D3 (Z.of_nat a) (Z.of_nat b) i j) by (try lia; rewrite Nat2Z.id; assumption). cbn [at_].
    destruct (Z.eqb_spec i j) as [->|Hne].
    + rewrite NoDup_nth_error in ND. assert (a = b) by (apply ND; [apply nth_error_Some; congruence | congruence]). subst b.
      rewrite Z.eqb_refl; reflexivity.
    + destruct (Z.eqb_spec (Z.of_nat a) (Z.of_nat b)) as [E|]; [|reflexivity].
      assert (a = b) by lia. subst b. congruence.
  - rewrite D4 by (intros [_ H]; apply In_indices in H; contradiction). cbn [at_].
    destruct (Z.eqb_spec i j) as [->|]; [contradiction | reflexivity].
  - rewrite D4 by (intros [H _]; apply In_indices in H; contradiction). cbn [at_]. destruct (i =? j); reflexivity.
  - rewrite D4 by (intros [H _]; apply In_indices in H; contradiction). cbn [at_]. destruct (i =? j); reflexivity.
Qed.

Lemma velo_order (st : ecs) l1 k l2 c d k' x : reach iadd P n m st ->
  order st = l1 ++ k :: l2 -> nth_error (data st) k = Some c -> nth_error (data st) k' = Some d ->
  covers (c_inv c) x -> covers (c_outv d) x -> In k' l1.
Proof.
  intros HR Ho Hk Hk' H1 H2. eapply (proj2 (order_spec iadd P n m FAM st HR)); eauto. right; exists x; auto.
Qed.

Lemma jac_one_spec (st : ecs) Fs k c F l1 l2 (J : mat K) : reach iadd P n m st -> jac_sizes (data st) Fs ->
  order st = l1 ++ k :: l2 ->
  nth_error (data st) k = Some c -> nth_error Fs k = Some F -> nr J = m -> nc J = m ->
  jdone st Fs l1 (at_ J) ->
  exists J', jac_one zero kadd kmul st Fs J k = Some J' /\ nr J' = m /\ nc J' = m /\ jdone st Fs (l1 ++ [k]) (at_ J').
Proof.
  intros HR HSz Ho Hc HF Hnr Hnc (D1 & D2 & D3).
  pose proof (reach_inv iadd P n m st FAM HR) as I. destruct (reach_inside st HR) as [HI _].
  destruct (i_invn _ _ _ _ _ I) as [N1 N2]. pose proof (sep_NoDup _ N1 N2) as ND.
  assert (Pc : P c) by (apply I; eapply nth_error_In; exact Hc).
  pose proof FAM as (_ & _ & HW & _). destruct (HW c Pc) as (_ & (ov & Hov) & _ & _ & W1 & W2 & _).
  destruct (proj2 HSz k c F Hc HF) as [S1 S2].
  unfold jac_one. rewrite Hc, HF.
  destruct (read_view_spec J (mkmat (cardinal (c_inv c)) (cardinal (inDers st)) (fun _ _ => zero)) (c_inv c) (inDers st))
    as (Jin & -> & R1 & R2 & R3); [rewrite Hnr; exact W1 | rewrite Hnc; exact HI | reflexivity | reflexivity|].
  unfold mprod. rewrite R1, S2.
  assert (Nin : nonneg (c_inv c)) by (apply (inside_nonneg m); exact W1).
  assert (Nout : nonneg (c_outv c)) by (apply (inside_nonneg m); exact W2).
  rewrite (cardinal_indices (c_inv c) Nin), Z.eqb_refl. cbn [nr].
  rewrite S1, (cardinal_indices (c_outv c) Nout), Z.eqb_refl.
  match goal with |- context [write_view J _ _ ?M] => set (MM := M) end.
  destruct (write_view_spec MM J (c_outv c) (inDers st)) as (d & -> & E1 & E2 & E3 & E4); auto.
  { rewrite Hnr; exact W2. } { rewrite Hnc; exact HI. }
  { cbn. symmetry; apply cardinal_indices; exact Nout. }
  { rewrite Hov; apply single_NoDup. }
  exists d. split; [reflexivity|]. split; [congruence|]. split; [congruence|].
  assert (Hself : forall x, covers (c_inv c) x -> ~ covers (c_outv c) x).
  { intros x X1 X2. assert (In k l1) by (eapply velo_order; eauto).
    pose proof (order_nodup iadd P n m st I) as NDo. rewrite Ho in NDo. apply NoDup_remove_2 in NDo. apply NDo, in_or_app; auto. }
  assert (RowIn : forall x j, covers (c_inv c) x -> at_ d x j = at_ J x j).
  { intros x j Hx. apply E4. intros [H _]. exact (Hself x Hx H). }
  split; [|split].
  - intros k' c' F' p i j Hk' Hc' HF' Hp Hj. apply in_app_or in Hk' as [Hk'|[<-|[]]].
    + assert (Hne : k' <> k).
      { intros ->. pose proof (order_nodup iadd P n m st I) as NDo. rewrite Ho in NDo. apply NoDup_remove_2 in NDo. apply NDo, in_or_app; auto. }
      assert (Hout : covers (c_outv c') i) by (apply In_indices; eapply nth_error_In; exact Hp).
      rewrite E4. 2:{ intros [H _]. apply Hne. eapply (tab_disjoint c_outv (data st) (derF st)); eauto. apply I. }
      rewrite (D1 k' c' F' p i j Hk' Hc' HF' Hp Hj). f_equal. apply map_ext_in; intros x Hx.
      symmetry; apply E4. intros [H _]. apply In_indices in Hx.
      apply in_split in Hk' as (x1 & x2 & ->).
      assert (G : In k x1) by (eapply (velo_order st x1 k' (x2 ++ k :: l2) c' c k x); eauto; rewrite Ho, <- app_assoc; reflexivity).
      pose proof (order_nodup iadd P n m st I) as NDo. rewrite Ho in NDo. apply NoDup_remove_2 in NDo.
      apply NDo. apply in_or_app; left; apply in_or_app; left; exact G.
    + rewrite Hc in Hc'; injection Hc' as <-. rewrite HF in HF'; injection HF' as <-.
      assert (Hout : covers (c_outv c) i) by (apply In_indices; eapply nth_error_In; exact Hp).
      assert (Hir : 0 <= i < m).
      { destruct Hout as (s & Hs & Hi). specialize (W2 s Hs). unfold in_seg in Hi; lia. }
      assert (Hrow : map (fun x => at_ d x j) (indices (c_inv c)) = map (fun x => at_ J x j) (indices (c_inv c))).
      { apply map_ext_in; intros x Hx. apply RowIn, In_indices; exact Hx. }
      rewrite Hrow.
      destruct (covers_dec (inDers st) j) as [Hcj|Hcj].
      * apply In_indices, In_nth_error in Hcj as [q Hq].
        rewrite (E3 (Z.of_nat p) (Z.of_nat q) i j) by (try lia; rewrite Nat2Z.id; assumption).
        unfold MM; cbn [at_]. rewrite Nat2Z.id.
        rewrite (map_via_nth (fun x => at_ J x j) (indices (c_inv c)) 0).
        unfold row_of. rewrite (dot_ksum (fun i => at_ F (Z.of_nat p) i) (fun i => at_ J (nth (Z.to_nat i) (indices (c_inv c)) 0) j)).
        apply ksum_ext; intros y Hy. f_equal.
        apply (R3 (Z.of_nat y) (Z.of_nat q)); [lia | lia | rewrite !Nat2Z.id; apply nth_error_nth'; exact Hy | rewrite Nat2Z.id; exact Hq].
      * rewrite E4 by tauto. assert (Hoo : outputv (data st) i) by (exists c; split; [eapply nth_error_In; exact Hc | exact Hout]). rewrite (D3 i j) by auto.
        symmetry; apply dot_zero. intros y Hy. apply in_map_iff in Hy as (x & <- & Hx). apply In_indices in Hx.
        assert (Hxr : 0 <= x < m).
        { destruct Hx as (s & Hs & Hi). specialize (W1 s Hs). unfold in_seg in Hi; lia. }
        destruct (outputv_dec (data st) x) as [Hox|Hox]; [apply D3; auto|].
        rewrite (D2 x j) by auto. destruct (Z.eqb_spec x j) as [->|]; [|reflexivity].
        exfalso; apply Hcj. apply (i_inv _ _ _ _ _ I). split; [exists c; split; [eapply nth_error_In; exact Hc | exact Hx] | exact Hox].
  - intros i j Hi Hj Hout. rewrite E4; [apply D2; auto|]. intros [H _]. apply Hout. exists c; split; [eapply nth_error_In; exact Hc | exact H].
  - intros i j Hi Hj Hout Hcj. rewrite E4; [apply D3; auto | tauto].
Qed.

Lemma jac_loop_spec (st : ecs) Fs : reach iadd P n m st -> jac_sizes (data st) Fs ->
  forall l2 l1 (J : mat K), order st = l1 ++ l2 -> nr J = m -> nc J = m -> jdone st Fs l1 (at_ J) ->
  exists J', jac_loop zero kadd kmul st Fs J l2 = Some J' /\ nr J' = m /\ nc J' = m /\ jdone st Fs (order st) (at_ J').
Proof.
  intros HR HSz. pose proof (reach_inv iadd P n m st FAM HR) as I.
  induction l2 as [|k l2 IH]; intros l1 J Ho Hnr Hnc HD; cbn [jac_loop].
  - rewrite app_nil_r in Ho. rewrite Ho. exists J; auto.
  - assert (Hk : (k < length (data st))%nat) by (apply (order_index iadd P n m st k I); rewrite Ho; apply in_or_app; right; left; auto).
    destruct (nth_error (data st) k) as [c|] eqn:Hc; [|apply nth_error_None in Hc; lia].
    destruct (nth_error Fs k) as [F|] eqn:HF; [|apply nth_error_None in HF; rewrite (proj1 HSz) in HF; lia].
    destruct (jac_one_spec st Fs k c F l1 l2 J HR HSz Ho Hc HF Hnr Hnc HD) as (J' & -> & G1 & G2 & G3).
    apply (IH (l1 ++ [k]) J'); auto. rewrite <- app_assoc; exact Ho.
Qed.

Lemma jacobian_spec (st : ecs) Fs : reach iadd P n m st -> jac_sizes (data st) Fs ->
  exists J, jacobian zero one kadd kmul st Fs = Some J /\ nr J = m /\ nc J = m /\
    total_jacobian m (data st) Fs (at_ J) /\
    (forall i j, 0 <= i < m -> 0 <= j < m -> outputv (data st) i ->
       ~ (inputv (data st) j /\ ~ outputv (data st) j) -> at_ J i j = zero) /\
    (forall J2, total_jacobian m (data st) Fs J2 -> forall i j, 0 <= i < m -> 0 <= j < m -> J2 i j = at_ J i j).
Proof.
  intros HR HSz. pose proof (reach_inv iadd P n m st FAM HR) as I. unfold jacobian.
  destruct (jac_init_spec st HR) as (J0 & -> & A1 & A2 & A3).
  assert (HD : jdone st Fs [] (at_ J0)).
  { split; [intros k c F p i j []|]. split.
    - intros i j Hi Hj Ho. rewrite A3 by auto. destruct (in_dec Z.eq_dec i (indices (notOutDers st))) as [_|Hn]; [reflexivity|].
      exfalso; apply Hn, In_indices, (i_notv _ _ _ _ _ I); auto.
    - intros i j Hi Hj Ho Hc. rewrite A3 by auto. destruct (i =? j); [|reflexivity].
      destruct (in_dec Z.eq_dec i (indices (notOutDers st))) as [Hn|_]; [|reflexivity].
      apply In_indices, (i_notv _ _ _ _ _ I) in Hn. tauto. }
  destruct (jac_loop_spec st Fs HR HSz (order st) [] J0 eq_refl A1 A2 HD) as (J & -> & B1 & B2 & (D1 & D2 & D3)).
  exists J. split; [reflexivity|]. split; [exact B1|]. split; [exact B2|].
  assert (Hin : forall k c, nth_error (data st) k = Some c -> In k (order st)).
  { intros k c H. apply (order_index iadd P n m st k I), nth_error_Some; congruence. }
  assert (TJ : total_jacobian m (data st) Fs (at_ J)).
  { split; [exact D2|]. intros k c F p i j Hk HF Hp Hj. apply (D1 k c F p i j); auto. eapply Hin; eauto. }
  split; [exact TJ|]. split.
  { intros i j Hi Hj Ho Hn. apply D3; auto. intros Hc. apply Hn, (i_inv _ _ _ _ _ I), Hc. }
  intros J2 [T1 T2] i j Hi Hj. destruct TJ as [U1 U2].
  assert (G : forall l1 l2, order st = l1 ++ l2 -> forall x, 0 <= x < m ->
     ((exists k c, In k l1 /\ nth_error (data st) k = Some c /\ covers (c_outv c) x) \/ ~ outputv (data st) x) -> J2 x j = at_ J x j).
  { induction l1 as [|k l1 IH] using rev_ind; intros l2 Ho x Hx HH.
    - destruct HH as [(k & c & [] & _)|HH]. rewrite T1, U1 by auto; reflexivity.
    - rewrite <- app_assoc in Ho; cbn in Ho.
      destruct HH as [(k' & c & Hk' & Hc & Hxc)|HH]; [|eapply IH; [exact Ho | exact Hx | right; exact HH]].
      apply in_app_or in Hk' as [Hk'|[<-|[]]]; [eapply IH; [exact Ho | exact Hx | left; exists k', c; auto]|].
      destruct (nth_error Fs k) as [F|] eqn:HF.
      2:{ apply nth_error_None in HF. rewrite (proj1 HSz) in HF. assert ((k < length (data st))%nat) by (apply nth_error_Some; congruence). lia. }
      apply In_indices, In_nth_error in Hxc as [p Hp].
      rewrite (T2 k c F p x j Hc HF Hp Hj), (U2 k c F p x j Hc HF Hp Hj). f_equal.
      apply map_ext_in; intros y Hy. apply In_indices in Hy.
      assert (Pc : P c) by (apply I; eapply nth_error_In; exact Hc).
      pose proof FAM as (_ & _ & HW & _). destruct (HW c Pc) as (_ & _ & _ & _ & W1 & _).
      eapply IH; [exact Ho | |].
      + destruct Hy as (s & Hs & Hi2). specialize (W1 s Hs). unfold in_seg in Hi2; lia.
      + destruct (outputv_dec (data st) y) as [(d & Hd & Hdy)|Hno]; [left | right; exact Hno].
        apply In_nth_error in Hd as [k' Hk']. exists k', d; split; [|auto].
        eapply (velo_order st l1 k l2 c d k' y); eauto. }
  apply (G (order st) [] (eq_sym (app_nil_r _)) i Hi).
  destruct (outputv_dec (data st) i) as [(d & Hd & Hdi)|Hn]; [left | right; exact Hn].
  apply In_nth_error in Hd as [k Hk]. exists k, d; split; [eapply Hin; eauto | auto].
Qed.
End Jac.
