(** Lemmas about SegModel against SegSpec. *)
From Coq Require Import ZArith List Bool Lia Permutation ZifyBool.
From Verif Require Import SegModel SegSpec.
Import ListNotations.
Open Scope Z_scope.

(** * Membership and enumeration *)

Lemma covers_nil i : ~ covers [] i.
Proof. intros [s [[] _]]. Qed.

Lemma covers_cons s l i : covers (s :: l) i <-> in_seg s i \/ covers l i.
Proof.
  unfold covers; split.
  - intros [x [[->|Hx] Hi]]; [left; exact Hi | right; exists x; auto].
  - intros [Hi|[x [Hx Hi]]]; [exists s; simpl; auto | exists x; simpl; auto].
Qed.

Lemma covers_app l1 l2 i : covers (l1 ++ l2) i <-> covers l1 i \/ covers l2 i.
Proof.
  induction l1 as [|s l1 IH]; simpl.
  - split; [auto | intros [H|H]; [destruct (covers_nil _ H) | exact H]].
  - rewrite !covers_cons, IH; tauto.
Qed.

Lemma covers_perm l1 l2 i : Permutation l1 l2 -> covers l1 i -> covers l2 i.
Proof.
  intros HP [s [Hs Hi]]; exists s; split; [eapply Permutation_in; eauto | exact Hi].
Qed.

Lemma In_zseq n : forall a i, In i (zseq a n) <-> a <= i < a + Z.of_nat n.
Proof.
  induction n as [|n IH]; intros a i; cbn [zseq In].
  - lia.
  - rewrite IH; lia.
Qed.

Lemma zseq_length n : forall a, length (zseq a n) = n.
Proof. induction n as [|n IH]; intros a; cbn; [reflexivity | rewrite IH; reflexivity]. Qed.

Lemma NoDup_zseq n : forall a, NoDup (zseq a n).
Proof.
  induction n as [|n IH]; intros a; cbn; constructor; [|apply IH].
  rewrite In_zseq; lia.
Qed.

Lemma zseq_app n m : forall a, zseq a (n + m) = zseq a n ++ zseq (a + Z.of_nat n) m.
Proof.
  induction n as [|n IH]; intros a; cbn [zseq Nat.add app].
  - f_equal; lia.
  - rewrite IH; do 3 f_equal; lia.
Qed.

Lemma In_seg_indices s i : In i (seg_indices s) <-> in_seg s i.
Proof. unfold seg_indices, in_seg; rewrite In_zseq; lia. Qed.

Lemma In_indices l i : In i (indices l) <-> covers l i.
Proof.
  unfold indices, covers; rewrite in_flat_map.
  split; intros [s [Hs Hi]]; exists s; split; auto; apply In_seg_indices; auto.
Qed.

Lemma indices_app l1 l2 : indices (l1 ++ l2) = indices l1 ++ indices l2.
Proof. unfold indices; apply flat_map_app. Qed.

Lemma seg_indices_length s : 0 <= snd s -> Z.of_nat (length (seg_indices s)) = snd s.
Proof. intros H; unfold seg_indices; rewrite zseq_length; lia. Qed.

(** * Chains *)

Lemma chain_impl (R S : Z * Z -> Z * Z -> Prop) l :
  (forall s t, In s l -> In t l -> R s t -> S s t) -> chain R l -> chain S l.
Proof.
  induction l as [|s l IH]; cbn; intros H; [auto|].
  intros [H1 H2]; split.
  - intros u Hu; apply H; auto.
  - apply IH; auto.
Qed.

Lemma chain_app R l1 l2 :
  chain R (l1 ++ l2) <->
  chain R l1 /\ chain R l2 /\ (forall s t, In s l1 -> In t l2 -> R s t).
Proof.
  induction l1 as [|s l1 IH]; cbn [chain app].
  - firstorder.
  - rewrite IH; split.
    + intros (H1 & H2 & H3 & H4); repeat split; auto.
      * intros u Hu; apply H1; apply in_or_app; auto.
      * intros a b [<-|Ha] Hb; [apply H1; apply in_or_app; auto | auto].
    + intros ((H1 & H2) & H3 & H4); repeat split; auto.
      * intros u Hu; apply in_app_or in Hu as [Hu|Hu]; auto.
        apply H4; simpl; auto.
      * intros a b Ha Hb; apply H4; simpl; auto.
Qed.

Lemma chain_nil R : chain R [].
Proof. exact I. Qed.

Lemma sorted_separated_disjoint l : sorted_separated l -> sorted_disjoint l.
Proof. apply chain_impl; intros s t _ _; unfold separated, before; lia. Qed.

(** * sort *)

Lemma insert_sorted_perm x l : Permutation (insert_sorted x l) (x :: l).
Proof.
  induction l as [|y t IH]; cbn; [reflexivity|].
  destruct (comp_full y x); [|reflexivity].
  rewrite IH; apply perm_swap.
Qed.

Lemma sort_perm l : Permutation (sort l) l.
Proof.
  induction l as [|x t IH]; cbn; [reflexivity|].
  rewrite insert_sorted_perm; constructor; exact IH.
Qed.

Lemma comp_full_spec l r :
  comp_full l r = true <-> fst l < fst r \/ (fst l = fst r /\ snd l < snd r).
Proof. unfold comp_full; lia. Qed.

Lemma comp_full_false l r : comp_full l r = false <-> lex_le r l.
Proof. unfold comp_full, lex_le; lia. Qed.

Lemma lex_le_trans a b c : lex_le a b -> lex_le b c -> lex_le a c.
Proof. unfold lex_le; lia. Qed.
Lemma lex_le_antisym a b : lex_le a b -> lex_le b a -> a = b.
Proof. unfold lex_le; destruct a, b; cbn; intros; f_equal; lia. Qed.
Lemma lex_le_refl a : lex_le a a.
Proof. unfold lex_le; lia. Qed.
Lemma comp_full_le a b : comp_full a b = true -> lex_le a b.
Proof. rewrite comp_full_spec; unfold lex_le; lia. Qed.

Lemma insert_sorted_sorted x l : lex_sorted l -> lex_sorted (insert_sorted x l).
Proof.
  unfold lex_sorted; induction l as [|y t IH]; cbn; intros H; [firstorder|].
  destruct H as [H1 H2].
  destruct (comp_full y x) eqn:E; cbn.
  - split; [|apply IH; exact H2].
    intros u Hu; apply (Permutation_in _ (insert_sorted_perm x t)) in Hu.
    destruct Hu as [<-|Hu]; [apply comp_full_le; exact E | apply H1; exact Hu].
  - apply comp_full_false in E.
    split; [|split; auto].
    intros u [<-|Hu]; [exact E | eapply lex_le_trans; [exact E | auto]].
Qed.

Lemma sort_sorted l : lex_sorted (sort l).
Proof. induction l as [|x t IH]; cbn; [exact I | apply insert_sorted_sorted; exact IH]. Qed.

Lemma lex_sorted_unique l1 : forall l2,
  lex_sorted l1 -> lex_sorted l2 -> Permutation l1 l2 -> l1 = l2.
Proof.
  unfold lex_sorted; induction l1 as [|x t IH]; intros l2 H1 H2 HP.
  - apply Permutation_nil in HP; auto.
  - destruct l2 as [|y u]; [apply Permutation_sym, Permutation_nil in HP; discriminate|].
    destruct H1 as [H1 H1'], H2 as [H2 H2'].
    assert (x = y) as ->.
    { assert (Hx : In x (y :: u)) by (eapply Permutation_in; [exact HP | left; auto]).
      assert (Hy : In y (x :: t)) by
        (eapply Permutation_in; [apply Permutation_sym; exact HP | left; auto]).
      destruct Hx as [Hx|Hx]; [auto|]. destruct Hy as [Hy|Hy]; [auto|].
      apply lex_le_antisym; auto. }
    f_equal; apply IH; auto. eapply Permutation_cons_inv; exact HP.
Qed.

Lemma sort_covers l i : covers (sort l) i <-> covers l i.
Proof.
  split; apply covers_perm; [apply sort_perm | apply Permutation_sym, sort_perm].
Qed.

Lemma nonneg_perm l1 l2 : Permutation l1 l2 -> nonneg l1 -> nonneg l2.
Proof.
  intros HP H s Hs; apply H; eapply Permutation_in; [apply Permutation_sym; exact HP | exact Hs].
Qed.
Lemma positive_perm l1 l2 : Permutation l1 l2 -> positive l1 -> positive l2.
Proof.
  intros HP H s Hs; apply H; eapply Permutation_in; [apply Permutation_sym; exact HP | exact Hs].
Qed.
Lemma positive_nonneg l : positive l -> nonneg l.
Proof. intros H s Hs; specialize (H s Hs); lia. Qed.
Lemma nonneg_cons s l : nonneg (s :: l) <-> 0 <= snd s /\ nonneg l.
Proof.
  unfold nonneg; split; intros H.
  - split; [apply H; left; auto | intros u Hu; apply H; right; auto].
  - destruct H as [H1 H2]; intros u [<-|Hu]; auto.
Qed.
Lemma positive_cons s l : positive (s :: l) <-> 0 < snd s /\ positive l.
Proof.
  unfold positive; split; intros H.
  - split; [apply H; left; auto | intros u Hu; apply H; right; auto].
  - destruct H as [H1 H2]; intros u [<-|Hu]; auto.
Qed.
Lemma nonneg_app l1 l2 : nonneg (l1 ++ l2) <-> nonneg l1 /\ nonneg l2.
Proof.
  unfold nonneg; split.
  - intros H; split; intros s Hs; apply H; apply in_or_app; auto.
  - intros [H1 H2] s Hs; apply in_app_or in Hs as [Hs|Hs]; auto.
Qed.
Lemma positive_app l1 l2 : positive (l1 ++ l2) <-> positive l1 /\ positive l2.
Proof.
  unfold positive; split.
  - intros H; split; intros s Hs; apply H; apply in_or_app; auto.
  - intros [H1 H2] s Hs; apply in_app_or in Hs as [Hs|Hs]; auto.
Qed.

(** * shrink *)

(** Starts never decrease along the list (weaker than lexicographic order). *)
Definition start_le (s t : Z * Z) : Prop := fst s <= fst t.

Lemma lex_sorted_start l : lex_sorted l -> chain start_le l.
Proof. apply chain_impl; unfold lex_le, start_le; intros; lia. Qed.

Lemma shrink_from_head e1 rest :
  exists e t, shrink_from e1 rest = e :: t /\ fst e = fst e1 /\ snd e1 <= snd e.
Proof.
  revert e1; induction rest as [|e2 t IH]; intros e1; cbn [shrink_from].
  - exists e1, []; repeat split; lia.
  - destruct (comp_ft e1 e2); cbn [negb].
    + eexists _, _; repeat split; lia.
    + destruct (IH (fst e1, Z.max (snd e1) (fst e2 + snd e2 - fst e1))) as (e & t' & H1 & H2 & H3).
      exists e, t'; rewrite H1; cbn in *; repeat split; lia.
Qed.

Lemma shrink_from_covers rest : forall e1 i,
  chain start_le (e1 :: rest) -> nonneg (e1 :: rest) ->
  (covers (shrink_from e1 rest) i <-> covers (e1 :: rest) i).
Proof.
  induction rest as [|e2 t IH]; intros e1 i HC HN; cbn [shrink_from]; [tauto|].
  destruct (comp_ft e1 e2) eqn:E; cbn [negb].
  - rewrite (covers_cons e1 (e2 :: t)), (covers_cons e1 (shrink_from e2 t)), IH; [tauto | | ].
    + apply HC.
    + apply nonneg_cons in HN; apply HN.
  - cbn in HC. destruct HC as (H1 & H2 & H3).
    apply nonneg_cons in HN as [N1 HN]; apply nonneg_cons in HN as [N2 HN].
    assert (S2 : start_le e1 e2) by (apply H1; left; auto).
    unfold comp_ft, send in E; unfold start_le in S2.
    rewrite IH.
    + rewrite !covers_cons. unfold in_seg; cbn [fst snd]. split; [intros [?|?]; [|tauto] | intros [?|[?|?]]; [ | |tauto]]; try lia.
    + cbn; split; auto. intros u Hu; unfold start_le; cbn; apply H1; right; auto.
    + apply nonneg_cons; split; auto; cbn; lia.
Qed.

Lemma shrink_from_chain rest : forall e1,
  chain start_le (e1 :: rest) -> nonneg (e1 :: rest) ->
  sorted_separated (shrink_from e1 rest) /\
  forall u, In u (shrink_from e1 rest) -> fst e1 <= fst u.
Proof.
  induction rest as [|e2 t IH]; intros e1 HC HN; cbn [shrink_from].
  - split; [cbn; firstorder | intros u [<-|[]]; lia].
  - cbn in HC; destruct HC as (H1 & H2 & H3).
    apply nonneg_cons in HN as [N1 HN]; pose proof HN as HN'.
    apply nonneg_cons in HN as [N2 HN].
    assert (S2 : fst e1 <= fst e2) by (apply H1; left; auto).
    destruct (comp_ft e1 e2) eqn:E; cbn [negb]; unfold comp_ft, send in E.
    + destruct (IH e2) as [I1 I2]; [split; auto | auto |].
      split.
      * cbn; split; auto. intros u Hu; specialize (I2 u Hu); unfold separated; lia.
      * intros u [<-|Hu]; [lia | specialize (I2 u Hu); lia].
    + destruct (IH (fst e1, Z.max (snd e1) (fst e2 + snd e2 - fst e1))) as [I1 I2].
      * cbn; split; auto; intros u Hu; unfold start_le; cbn; apply H1; right; auto.
      * apply nonneg_cons; split; auto; cbn; lia.
      * split; auto.
Qed.

Lemma shrink_from_nonneg rest : forall e1, nonneg (e1 :: rest) -> nonneg (shrink_from e1 rest).
Proof.
  induction rest as [|e2 t IH]; intros e1 HN; cbn [shrink_from]; auto.
  apply nonneg_cons in HN as [N1 HN]; destruct (comp_ft e1 e2); cbn [negb].
  - apply nonneg_cons; split; auto.
  - apply IH; apply nonneg_cons; apply nonneg_cons in HN as [N2 HN]; split; auto; cbn; lia.
Qed.

Lemma shrink_from_positive rest : forall e1, positive (e1 :: rest) -> positive (shrink_from e1 rest).
Proof.
  induction rest as [|e2 t IH]; intros e1 HN; cbn [shrink_from]; auto.
  apply positive_cons in HN as [N1 HN]; destruct (comp_ft e1 e2); cbn [negb].
  - apply positive_cons; split; auto.
  - apply IH; apply positive_cons; apply positive_cons in HN as [N2 HN]; split; auto; cbn; lia.
Qed.

(** Whatever the input, consecutive output intervals are separated. *)
Fixpoint consec_separated (l : list (Z * Z)) : Prop :=
  match l with
  | s :: ((t :: _) as r) => separated s t /\ consec_separated r
  | _ => True
  end.
Lemma shrink_from_consec rest : forall e1, consec_separated (shrink_from e1 rest).
Proof.
  induction rest as [|e2 t IH]; intros e1; cbn [shrink_from]; [exact I|].
  destruct (comp_ft e1 e2) eqn:E; cbn [negb]; [|apply IH].
  destruct (shrink_from_head e2 t) as (e & u & H1 & H2 & H3).
  specialize (IH e2); rewrite H1 in *. split; [|exact IH].
  unfold separated, comp_ft, send in *; lia.
Qed.
Lemma shrink_consec l : consec_separated (shrink l).
Proof. destruct l; [exact I | apply shrink_from_consec]. Qed.

Lemma consec_chain l : nonneg l -> consec_separated l -> sorted_separated l.
Proof.
  unfold sorted_separated; induction l as [|s l IH]; [intros; exact I|].
  intros HN HC; apply nonneg_cons in HN as [N1 HN].
  destruct l as [|t r]; [cbn; firstorder|].
  destruct HC as [H1 H2]; specialize (IH HN H2). split; [|exact IH].
  intros u [<-|Hu]; [exact H1|]. destruct IH as [H3 _]; specialize (H3 u Hu).
  apply nonneg_cons in HN as [N2 _]; unfold separated in *; lia.
Qed.

Lemma shrink_covers l i : chain start_le l -> nonneg l -> (covers (shrink l) i <-> covers l i).
Proof. destruct l as [|e t]; [tauto | apply shrink_from_covers]. Qed.
Lemma shrink_separated l : nonneg l -> sorted_separated (shrink l).
Proof.
  intros HN; apply consec_chain; [|apply shrink_consec].
  destruct l; [exact HN | apply shrink_from_nonneg; exact HN].
Qed.
Lemma shrink_nonneg l : nonneg l -> nonneg (shrink l).
Proof. destruct l; auto; apply shrink_from_nonneg. Qed.
Lemma shrink_positive l : positive l -> positive (shrink l).
Proof. destruct l; auto; apply shrink_from_positive. Qed.

Lemma normalise_covers l i : nonneg l -> (covers (normalise l) i <-> covers l i).
Proof.
  intros HN; unfold normalise; rewrite shrink_covers, sort_covers; [tauto| |].
  - apply lex_sorted_start, sort_sorted.
  - eapply nonneg_perm; [apply Permutation_sym, sort_perm | exact HN].
Qed.

Lemma normalise_separated l : nonneg l -> sorted_separated (normalise l).
Proof.
  intros HN; apply shrink_separated.
  eapply nonneg_perm; [apply Permutation_sym, sort_perm | exact HN].
Qed.
Lemma normalise_nonneg l : nonneg l -> nonneg (normalise l).
Proof.
  intros HN; apply shrink_nonneg.
  eapply nonneg_perm; [apply Permutation_sym, sort_perm | exact HN].
Qed.
Lemma normalise_positive l : positive l -> positive (normalise l).
Proof.
  intros HN; apply shrink_positive.
  eapply positive_perm; [apply Permutation_sym, sort_perm | exact HN].
Qed.

(** a sorted separated list is a fixed point *)
Lemma separated_lex l : nonneg l -> sorted_separated l -> lex_sorted l.
Proof.
  intros HN; apply chain_impl; intros s t Hs _; specialize (HN s Hs).
  unfold separated, lex_le; lia.
Qed.
Lemma shrink_fix l : sorted_separated l -> shrink l = l.
Proof.
  destruct l as [|e t]; [reflexivity|]; cbn [shrink].
  revert e; induction t as [|e2 t IH]; intros e H; [reflexivity|].
  destruct H as [H1 H2]; cbn [shrink_from].
  assert (Hs : separated e e2) by (apply H1; left; auto).
  unfold comp_ft, send; unfold separated in Hs.
  destruct (Z.ltb_spec (fst e + snd e) (fst e2)); [|lia]; cbn [negb].
  f_equal; apply IH; exact H2.
Qed.
Lemma sort_fix l : lex_sorted l -> sort l = l.
Proof.
  intros H; apply lex_sorted_unique; [apply sort_sorted | exact H | apply sort_perm].
Qed.
Lemma normalise_fix l : nonneg l -> sorted_separated l -> normalise l = l.
Proof.
  intros HN HS; unfold normalise; rewrite sort_fix; [apply shrink_fix; exact HS|].
  apply separated_lex; auto.
Qed.
Lemma normalise_idem l : nonneg l -> normalise (normalise l) = normalise l.
Proof.
  intros HN; apply normalise_fix; [apply normalise_nonneg | apply normalise_separated]; exact HN.
Qed.

(** canonical form: positive separated lists with the same indices are equal *)
Lemma canonical_unique l1 : forall l2,
  positive l1 -> positive l2 -> sorted_separated l1 -> sorted_separated l2 ->
  (forall i, covers l1 i <-> covers l2 i) -> l1 = l2.
Proof.
  induction l1 as [|a l1 IH]; intros l2 P1 P2 S1 S2 H.
  - destruct l2 as [|b l2]; [reflexivity|]. exfalso.
    apply positive_cons in P2 as [P2 _].
    apply (covers_nil (fst b)); apply H; apply covers_cons; left; unfold in_seg; lia.
  - destruct l2 as [|b l2].
    { exfalso. apply positive_cons in P1 as [P1 _].
      apply (covers_nil (fst a)); apply H; apply covers_cons; left; unfold in_seg; lia. }
    apply positive_cons in P1 as [Pa P1]; apply positive_cons in P2 as [Pb P2].
    destruct S1 as [Sa S1], S2 as [Sb S2].
    (* every index of the tails is beyond the end of the heads *)
    assert (Ta : forall i, covers l1 i -> fst a + snd a < i).
    { intros i [s [Hs Hi]]; specialize (Sa s Hs); unfold separated, in_seg in *; lia. }
    assert (Tb : forall i, covers l2 i -> fst b + snd b < i).
    { intros i [s [Hs Hi]]; specialize (Sb s Hs); unfold separated, in_seg in *; lia. }
    assert (Hin : forall i, (in_seg a i \/ covers l1 i) <-> (in_seg b i \/ covers l2 i)).
    { intros i; rewrite <- !covers_cons; apply H. }
    assert (F1 : fst a = fst b).
    { assert (X1 : in_seg b (fst a) \/ covers l2 (fst a)) by (apply Hin; left; unfold in_seg; lia).
      assert (X2 : in_seg a (fst b) \/ covers l1 (fst b)) by (apply Hin; left; unfold in_seg; lia).
      unfold in_seg in X1, X2.
      destruct X1 as [X1|X1]; [|apply Tb in X1]; destruct X2 as [X2|X2]; try apply Ta in X2; lia. }
    assert (F2 : snd a = snd b).
    { assert (X1 : ~ (in_seg a (fst a + snd a) \/ covers l1 (fst a + snd a))).
      { intros [X|X]; [unfold in_seg in X; lia | apply Ta in X; lia]. }
      assert (X2 : ~ (in_seg b (fst b + snd b) \/ covers l2 (fst b + snd b))).
      { intros [X|X]; [unfold in_seg in X; lia | apply Tb in X; lia]. }
      destruct (Z.lt_trichotomy (snd a) (snd b)) as [L|[L|L]]; [|exact L|]; exfalso.
      - apply X1; apply Hin; left; unfold in_seg; lia.
      - apply X2; apply Hin; left; unfold in_seg; lia. }
    assert (a = b) as -> by (destruct a, b; cbn in *; subst; reflexivity).
    f_equal; apply IH; auto.
    intros i; split; intros Hi.
    + pose proof (Ta i Hi) as L. destruct (proj1 (Hin i) (or_intror Hi)) as [X|X]; [|exact X].
      unfold in_seg in X; lia.
    + pose proof (Tb i Hi) as L. destruct (proj2 (Hin i) (or_intror Hi)) as [X|X]; [|exact X].
      unfold in_seg in X; lia.
Qed.

Lemma normalise_canonical l1 l2 :
  positive l1 -> positive l2 -> (forall i, covers l1 i <-> covers l2 i) ->
  normalise l1 = normalise l2.
Proof.
  intros P1 P2 H; apply canonical_unique.
  - apply normalise_positive; exact P1.
  - apply normalise_positive; exact P2.
  - apply normalise_separated, positive_nonneg, P1.
  - apply normalise_separated, positive_nonneg, P2.
  - intros i; rewrite !normalise_covers by (apply positive_nonneg; assumption); apply H.
Qed.

(** * cardinal *)

Lemma cardinal_acc l : forall c, fold_left (fun c s => c + snd s) l c = c + cardinal l.
Proof.
  unfold cardinal; induction l as [|s l IH]; intros c; cbn [fold_left]; [lia|].
  rewrite IH, (IH (0 + snd s)); lia.
Qed.
Lemma cardinal_cons s l : cardinal (s :: l) = snd s + cardinal l.
Proof. unfold cardinal at 1; cbn [fold_left]; rewrite cardinal_acc; lia. Qed.
Lemma cardinal_nil : cardinal [] = 0.
Proof. reflexivity. Qed.
Lemma cardinal_app l1 l2 : cardinal (l1 ++ l2) = cardinal l1 + cardinal l2.
Proof.
  induction l1 as [|s l1 IH]; cbn [app]; [rewrite cardinal_nil; lia|].
  rewrite !cardinal_cons, IH; lia.
Qed.
Lemma cardinal_nonneg l : nonneg l -> 0 <= cardinal l.
Proof.
  induction l as [|s l IH]; intros HN; [rewrite cardinal_nil; lia|].
  apply nonneg_cons in HN as [H1 H2]; rewrite cardinal_cons; specialize (IH H2); lia.
Qed.
Lemma cardinal_indices l : nonneg l -> cardinal l = Z.of_nat (length (indices l)).
Proof.
  induction l as [|s l IH]; intros HN; [reflexivity|].
  apply nonneg_cons in HN as [H1 H2].
  rewrite cardinal_cons. change (indices (s :: l)) with (seg_indices s ++ indices l).
  rewrite app_length, Nat2Z.inj_add, seg_indices_length, IH by assumption; reflexivity.
Qed.
Lemma cardinal_perm l1 l2 : Permutation l1 l2 -> cardinal l1 = cardinal l2.
Proof.
  induction 1 as [|x l1 l2 HP IH|x y l|l1 l2 l3 H1 IH1 H2 IH2];
    rewrite ?cardinal_cons; try reflexivity; try lia; congruence.
Qed.

Lemma NoDup_app_intro {A} (l1 l2 : list A) :
  NoDup l1 -> NoDup l2 -> (forall x, In x l1 -> In x l2 -> False) -> NoDup (l1 ++ l2).
Proof.
  induction l1 as [|x l1 IH]; cbn; intros H1 H2 H; [exact H2|].
  inversion H1 as [|? ? Hx H1']; subst. constructor.
  - intros Hin; apply in_app_or in Hin as [Hin|Hin]; [auto | apply (H x); auto].
  - apply IH; auto. intros y Hy1 Hy2; apply (H y); auto.
Qed.

Lemma disjoint_indices_NoDup l : sorted_disjoint l -> nonneg l -> NoDup (indices l).
Proof.
  unfold sorted_disjoint; induction l as [|s l IH]; intros HC HN; [constructor|].
  apply nonneg_cons in HN as [N1 HN]; destruct HC as [H1 H2].
  change (indices (s :: l)) with (seg_indices s ++ indices l).
  apply NoDup_app_intro; [apply NoDup_zseq | apply IH; auto |].
  intros x Hx1 Hx2; apply In_seg_indices in Hx1; apply In_indices in Hx2 as [u [Hu Hi]].
  specialize (H1 u Hu); unfold before, in_seg in *; lia.
Qed.

(** strictly increasing enumeration *)
Lemma cardinal_distinct l (d : list Z) :
  nonneg l -> sorted_disjoint l -> NoDup d -> (forall i, In i d <-> covers l i) ->
  cardinal l = Z.of_nat (length d).
Proof.
  intros HN HC HD H; rewrite cardinal_indices by exact HN; f_equal.
  apply Permutation_length, NoDup_Permutation; [apply disjoint_indices_NoDup; auto | auto |].
  intros i; rewrite H, In_indices; tauto.
Qed.

(** * overlap, sum *)

Lemma overlap_spec a b :
  0 <= snd a -> 0 <= snd b ->
  (overlap a b = true <->
   (exists i, in_seg a i /\ in_seg b i) /\
   ~ (fst b < fst a /\ fst a + snd a < fst b + snd b)).
Proof.
  intros Ha Hb; unfold overlap, send, in_seg.
  destruct (Z.eqb_spec (snd a) 0); [split; [discriminate | intros [[i Hi] _]; lia]|].
  destruct (Z.eqb_spec (snd b) 0); [split; [discriminate | intros [[i Hi] _]; lia]|].
  destruct ((fst a <=? fst b) && (fst b <? fst a + snd a)) eqn:E1.
  - split; [intros _ | auto]. split; [exists (fst b); lia | lia].
  - destruct ((fst a <? fst b + snd b) && (fst b + snd b <=? fst a + snd a)) eqn:E2.
    + split; [intros _ | auto]. split; [exists (Z.max (fst a) (fst b)); lia | lia].
    + split; [discriminate|]. intros [[i Hi] Hn]; lia.
Qed.

Lemma sum_spec a b i :
  0 <= snd a -> 0 <= snd b ->
  (covers (sum a b) i <-> in_seg a i \/ in_seg b i).
Proof.
  intros Ha Hb; unfold sum.
  destruct (Z.gtb_spec (fst a) (fst b)).
  - destruct (Z.geb_spec (fst b + snd b) (fst a)); rewrite !covers_cons; cbn [fst snd].
    + unfold in_seg; cbn [fst snd]; split; [intros [?|X]; [lia | destruct (covers_nil _ X)] | intros; left; lia].
    + split; [intros [?|[?|X]]; auto; destruct (covers_nil _ X) | tauto].
  - destruct (Z.geb_spec (fst a + snd a) (fst b)); rewrite !covers_cons; cbn [fst snd].
    + unfold in_seg; cbn [fst snd]; split; [intros [?|X]; [lia | destruct (covers_nil _ X)] | intros; left; lia].
    + split; [intros [?|[?|X]]; auto; destruct (covers_nil _ X) | tauto].
Qed.

Lemma sum_sym a b : 0 <= snd a -> 0 <= snd b -> sum a b = sum b a.
Proof.
  intros Ha Hb; unfold sum.
  destruct (Z.gtb_spec (fst a) (fst b)); destruct (Z.gtb_spec (fst b) (fst a)); try reflexivity; try lia.
  assert (E : fst a = fst b) by lia.
  destruct (Z.geb_spec (fst a + snd a) (fst b)); destruct (Z.geb_spec (fst b + snd b) (fst a)); try lia.
  do 2 f_equal; lia.
Qed.

Lemma sum_length a b :
  0 <= snd a -> 0 <= snd b ->
  (length (sum a b) = 1%nat <-> (fst a <= fst b + snd b /\ fst b <= fst a + snd a)).
Proof.
  intros Ha Hb; unfold sum.
  destruct (Z.gtb_spec (fst a) (fst b)).
  - destruct (Z.geb_spec (fst b + snd b) (fst a)); cbn; split; intros; try lia.
  - destruct (Z.geb_spec (fst a + snd a) (fst b)); cbn; split; intros; try lia.
Qed.

Lemma sum_separated a b :
  0 <= snd a -> 0 <= snd b -> sorted_separated (sum a b).
Proof.
  intros Ha Hb; unfold sum.
  destruct (Z.gtb_spec (fst a) (fst b)).
  - destruct (Z.geb_spec (fst b + snd b) (fst a)); cbn; repeat split; try tauto.
    intros u [<-|[]]; unfold separated; lia.
  - destruct (Z.geb_spec (fst a + snd a) (fst b)); cbn; repeat split; try tauto.
    intros u [<-|[]]; unfold separated; lia.
Qed.

(** * upper_bound *)

Lemma ub_index_firstn p l x : In x (firstn (ub_index p l) l) -> p x = false.
Proof.
  induction l as [|e t IH]; cbn; [intros []|].
  destruct (p e) eqn:E; cbn; [intros [] | intros [<-|H]; auto].
Qed.
Lemma partitioned_skipn p l x :
  partitioned p l = true -> In x (skipn (ub_index p l) l) -> p x = true.
Proof. unfold partitioned; rewrite forallb_forall; auto. Qed.
Lemma ub_index_le p l : (ub_index p l <= length l)%nat.
Proof. induction l as [|e t IH]; cbn; [lia | destruct (p e); lia]. Qed.

(** a list on which [p] is monotone along the chain is partitioned *)
Lemma chain_partitioned R p l :
  chain R l -> (forall s t, R s t -> p s = true -> p t = true) -> partitioned p l = true.
Proof.
  intros HC HM; unfold partitioned; induction l as [|e t IH]; [reflexivity|].
  cbn [ub_index]; destruct HC as [H1 H2]; destruct (p e) eqn:E; cbn [skipn forallb].
  - rewrite E; cbn. apply forallb_forall; intros x Hx; eapply HM; [apply H1; exact Hx | exact E].
  - apply IH; exact H2.
Qed.

Lemma upper_bound_lex v l :
  lex_sorted l -> upper_bound comp_full v l = Some (ub_index (comp_full v) l).
Proof.
  intros H; unfold upper_bound.
  rewrite (chain_partitioned lex_le); [reflexivity | exact H |].
  intros s t Hst; rewrite !comp_full_spec; unfold lex_le in Hst; lia.
Qed.

(** * add *)

Lemma insert_at_perm n x l : Permutation (insert_at n x l) (x :: l).
Proof.
  unfold insert_at. rewrite <- Permutation_middle, firstn_skipn; reflexivity.
Qed.

Lemma add_seg_spec a b :
  lex_sorted a ->
  exists r, add_seg a b = Some r /\ lex_sorted r /\ Permutation r (b :: a).
Proof.
  intros H; unfold add_seg; rewrite upper_bound_lex by exact H.
  eexists; split; [reflexivity|]; split; [|apply insert_at_perm].
  unfold insert_at, lex_sorted in *.
  set (n := ub_index (comp_full b) a).
  pose proof (chain_partitioned lex_le (comp_full b) a H) as HP.
  rewrite <- (firstn_skipn n a) in H; apply chain_app in H as (H1 & H2 & H3).
  apply chain_app; repeat split; auto.
  - intros u Hu; apply comp_full_le; eapply partitioned_skipn; [|exact Hu].
    apply HP; intros s t Hst; rewrite !comp_full_spec; unfold lex_le in Hst; lia.
  - intros s t Hs [<-|Ht]; [|auto].
    apply comp_full_false; eapply ub_index_firstn; exact Hs.
Qed.

Lemma chain_skipn R n l : chain R l -> chain R (skipn n l).
Proof.
  intros H; rewrite <- (firstn_skipn n l) in H; apply chain_app in H; tauto.
Qed.

Lemma add_loop_perm b : forall done rest,
  lex_sorted rest -> exists r, add_loop done rest b = Some r /\ Permutation r (rev done ++ rest ++ b).
Proof.
  induction b as [|x b IH]; intros done rest H; cbn [add_loop].
  - eexists; split; [reflexivity|]. rewrite rev_append_rev, app_nil_r; reflexivity.
  - rewrite upper_bound_lex by exact H; set (n := ub_index _ _).
    destruct (IH (x :: rev_append (firstn n rest) done) (skipn n rest)) as (r & Hr & HP).
    { apply chain_skipn; exact H. }
    exists r; split; [exact Hr|]. rewrite HP. cbn [rev].
    rewrite rev_append_rev, rev_app_distr, rev_involutive, <- !app_assoc.
    apply Permutation_app_head. rewrite <- (firstn_skipn n rest) at 3.
    rewrite <- !app_assoc; apply Permutation_app_head; cbn.
    apply Permutation_middle.
Qed.

Lemma add_segs_perm a b :
  lex_sorted a -> exists r, add_segs a b = Some r /\ Permutation r (a ++ b).
Proof.
  destruct a as [|e t]; cbn [add_segs]; intros H.
  - exists b; split; reflexivity.
  - destruct (add_loop_perm b [] (e :: t) H) as (r & H1 & H2); exists r; split; auto.
Qed.

Lemma add_loop_sorted b : forall done rest r,
  lex_sorted (rev done ++ rest) -> lex_sorted b ->
  (forall s x, In s done -> In x b -> lex_le s x) ->
  add_loop done rest b = Some r -> lex_sorted r.
Proof.
  unfold lex_sorted; induction b as [|x b IH]; intros done rest r H Hb Hd Hr; cbn [add_loop] in Hr.
  - injection Hr as <-; rewrite rev_append_rev; exact H.
  - destruct Hb as [Hb1 Hb2].
    pose proof H as H'; apply chain_app in H' as (D1 & D2 & D3).
    rewrite upper_bound_lex in Hr by exact D2; set (n := ub_index (comp_full x) rest) in *.
    pose proof D2 as D2'; rewrite <- (firstn_skipn n rest) in D2'; apply chain_app in D2' as (F1 & F2 & F3).
    assert (Hfx : forall s, In s (firstn n rest) -> lex_le s x).
    { intros s Hs; apply comp_full_false; eapply ub_index_firstn; exact Hs. }
    assert (Hxs : forall s, In s (skipn n rest) -> lex_le x s).
    { intros s Hs; apply comp_full_le; eapply partitioned_skipn; [|exact Hs].
      apply (chain_partitioned lex_le); [exact D2|].
      intros u v Huv; rewrite !comp_full_spec; unfold lex_le in Huv; lia. }
    eapply IH; [ | exact Hb2 | | exact Hr].
    + cbn [rev]. rewrite rev_append_rev, rev_app_distr, rev_involutive, <- !app_assoc.
      apply chain_app; repeat split; auto.
      * apply chain_app; repeat split; auto.
        intros s t Hs [<-|Ht]; auto.
      * intros s t Hs Ht. rewrite <- in_rev in Hs.
        apply in_app_or in Ht as [Ht|[<-|Ht]].
        -- apply D3; [rewrite <- in_rev; exact Hs | rewrite <- (firstn_skipn n rest); apply in_or_app; auto].
        -- apply Hd; [exact Hs | left; auto].
        -- apply D3; [rewrite <- in_rev; exact Hs | rewrite <- (firstn_skipn n rest); apply in_or_app; auto].
    + intros s y [<-|Hs] Hy; [apply Hb1; exact Hy|].
      rewrite rev_append_rev in Hs; apply in_app_or in Hs as [Hs|Hs].
      * rewrite <- in_rev in Hs; eapply lex_le_trans; [apply Hfx; exact Hs | apply Hb1; exact Hy].
      * apply Hd; [exact Hs | right; exact Hy].
Qed.

Lemma add_segs_sorted a b r :
  lex_sorted a -> lex_sorted b -> add_segs a b = Some r -> lex_sorted r.
Proof.
  destruct a as [|e t]; cbn [add_segs]; intros Ha Hb Hr.
  - injection Hr as <-; exact Hb.
  - eapply add_loop_sorted; [ | exact Hb | | exact Hr]; [exact Ha | intros s x []].
Qed.

(** * difference *)

Lemma skipn_plus {A} n m : forall l : list A, skipn (n + m) l = skipn m (skipn n l).
Proof.
  induction n as [|n IH]; intros l; cbn [Nat.add]; [reflexivity|].
  destruct l as [|x l]; cbn [skipn]; [rewrite skipn_nil; reflexivity | apply IH].
Qed.

Lemma diff_ss_spec a b i :
  0 <= snd a -> 0 <= snd b ->
  (covers (diff_ss a b) i <-> in_seg a i /\ ~ in_seg b i).
Proof.
  intros Ha Hb; unfold diff_ss, send, in_seg.
  destruct (Z.eqb_spec (snd a) 0).
  { split; [intros H; destruct (covers_nil _ H) | lia]. }
  destruct (Z.eqb_spec (snd b) 0).
  { rewrite covers_cons; unfold in_seg; split; [intros [H|H]; [lia | destruct (covers_nil _ H)] | intros; left; lia]. }
  rewrite covers_app.
  destruct (Z.ltb_spec (fst a) (fst b)); destruct (Z.ltb_spec (fst b + snd b) (fst a + snd a));
    rewrite ?covers_cons; unfold in_seg; cbn [fst snd]; split;
    try (intros [[?|X]|[?|X]]; try (destruct (covers_nil _ X)); lia);
    try (intros [[?|X]|X]; try (destruct (covers_nil _ X)); lia);
    try (intros [X|[?|X]]; try (destruct (covers_nil _ X)); lia);
    try (intros [X|X]; destruct (covers_nil _ X)); try lia.
Qed.

Lemma diff_ss_positive a b : 0 <= snd a -> 0 <= snd b -> positive (diff_ss a b).
Proof.
  intros Ha Hb s Hs; unfold diff_ss, send in Hs.
  destruct (Z.eqb_spec (snd a) 0); [destruct Hs|].
  destruct (Z.eqb_spec (snd b) 0); [destruct Hs as [<-|[]]; lia|].
  apply in_app_or in Hs as [Hs|Hs].
  - destruct (Z.ltb_spec (fst a) (fst b)); [destruct Hs as [<-|[]]; cbn [fst snd]; lia | destruct Hs].
  - destruct (Z.ltb_spec (fst b + snd b) (fst a + snd a)); [destruct Hs as [<-|[]]; cbn [fst snd]; lia | destruct Hs].
Qed.

(** pieces stay inside the original interval and are separated *)
Lemma diff_ss_inside a b s :
  0 <= snd a -> 0 <= snd b -> In s (diff_ss a b) ->
  fst a <= fst s /\ fst s + snd s <= fst a + snd a.
Proof.
  intros Ha Hb Hs; unfold diff_ss, send in Hs.
  destruct (Z.eqb_spec (snd a) 0); [destruct Hs|].
  destruct (Z.eqb_spec (snd b) 0); [destruct Hs as [<-|[]]; lia|].
  apply in_app_or in Hs as [Hs|Hs].
  - destruct (Z.ltb_spec (fst a) (fst b)); [destruct Hs as [<-|[]]; cbn [fst snd]; lia | destruct Hs].
  - destruct (Z.ltb_spec (fst b + snd b) (fst a + snd a)); [destruct Hs as [<-|[]]; cbn [fst snd]; lia | destruct Hs].
Qed.
Lemma diff_ss_sep a b : 0 <= snd a -> 0 <= snd b -> sorted_separated (diff_ss a b).
Proof.
  intros Ha Hb; unfold diff_ss, send, sorted_separated.
  destruct (Z.eqb_spec (snd a) 0); [exact I|].
  destruct (Z.eqb_spec (snd b) 0); [cbn; tauto|].
  destruct (Z.ltb_spec (fst a) (fst b)); destruct (Z.ltb_spec (fst b + snd b) (fst a + snd a));
    cbn; try tauto.
  split; [|tauto]. intros u [<-|[]]; unfold separated; cbn [fst snd]; lia.
Qed.

Lemma diff_ss_id a b :
  0 <= snd a -> (forall i, in_seg a i -> ~ in_seg b i) -> 0 <= snd b -> 0 < snd a ->
  (fst a + snd a <= fst b \/ fst b + snd b <= fst a \/ snd b = 0) -> diff_ss a b = [a].
Proof.
  intros Ha H Hb Hpos Hpl; unfold diff_ss, send; destruct a as [a0 al], b as [b0 bl]; cbn [fst snd] in *.
  destruct (Z.eqb_spec al 0); [lia|]. destruct (Z.eqb_spec bl 0); [reflexivity|].
  destruct (Z.ltb_spec a0 b0); destruct (Z.ltb_spec (b0 + bl) (a0 + al)); try lia; cbn.
  - do 2 f_equal; lia.
  - do 2 f_equal; lia.
Qed.

Lemma diff_ls_defined a b :
  sorted_disjoint a -> nonneg a -> 0 <= snd b ->
  exists r, diff_ls a b = Some r /\
    exists l1 l2 l3, a = l1 ++ l2 ++ l3 /\ r = l1 ++ flat_map (fun x => diff_ss x b) l2 ++ l3 /\
      (forall s, In s l1 -> fst s + snd s <= fst b) /\
      (forall s, In s l3 -> fst b + snd b < fst s).
Proof.
  intros HC HN Hb.
  assert (P1 : partitioned (comp_tf b) a = true).
  { apply (chain_partitioned (fun s t => before s t /\ 0 <= snd t)).
    - eapply chain_impl; [|exact HC]. intros s t _ Ht H; split; [exact H | apply HN; exact Ht].
    - unfold before, comp_tf, send; intros s t [H1 H2]; lia. }
  assert (P2 : partitioned (comp_ft b) a = true).
  { apply (chain_partitioned (fun s t => before s t /\ 0 <= snd s)).
    - eapply chain_impl; [|exact HC]. intros s t Hs _ H; split; [exact H | apply HN; exact Hs].
    - unfold before, comp_ft, send; intros s t [H1 H2]; lia. }
  set (f := ub_index (comp_tf b) a) in *; set (l := ub_index (comp_ft b) a) in *.
  assert (Hfl : (f <= l)%nat).
  { assert (Himp : forall s, In s a -> comp_ft b s = true -> comp_tf b s = true).
    { intros s Hs; specialize (HN s Hs); unfold comp_ft, comp_tf, send; lia. }
    subst f l. clear -Himp. induction a as [|e t IH]; cbn [ub_index]; [lia|].
    destruct (comp_ft b e) eqn:E.
    - rewrite Himp by (auto; left; auto); lia.
    - destruct (comp_tf b e); [lia|]. apply le_n_S, IH. intros s Hs; apply Himp; right; auto. }
  unfold diff_ls, upper_bound; rewrite P1, P2; fold f l.
  rewrite (proj2 (Nat.leb_le f l) Hfl).
  eexists; split; [reflexivity|].
  exists (firstn f a), (firstn (l - f) (skipn f a)), (skipn l a).
  repeat split.
  - replace l with (f + (l - f))%nat at 2 by lia.
    assert (E : skipn (f + (l - f)) a = skipn (l - f) (skipn f a)).
    { apply skipn_plus. }
    rewrite E, firstn_skipn, firstn_skipn; reflexivity.
  - intros s Hs; apply ub_index_firstn in Hs; unfold comp_tf, send in Hs; lia.
  - intros s Hs; eapply partitioned_skipn in Hs; [|exact P2]; unfold comp_ft, send in Hs; lia.
Qed.

Lemma flat_map_diff_covers l b i :
  nonneg l -> 0 <= snd b ->
  (covers (flat_map (fun x => diff_ss x b) l) i <-> covers l i /\ ~ in_seg b i).
Proof.
  intros HN Hb; induction l as [|s l IH]; cbn [flat_map].
  - split; [intros H; destruct (covers_nil _ H) | intros [H _]; exact H].
  - apply nonneg_cons in HN as [N1 HN].
    rewrite covers_app, covers_cons, IH, diff_ss_spec by assumption; tauto.
Qed.

Lemma diff_ls_spec a b :
  sorted_disjoint a -> nonneg a -> 0 <= snd b ->
  exists r, diff_ls a b = Some r /\
    (forall i, covers r i <-> covers a i /\ ~ in_seg b i) /\
    (forall R, (R = before \/ R = separated) -> chain R a -> chain R r) /\ nonneg r /\
    (positive a -> positive r) /\
    (forall s, In s r -> exists t, In t a /\ fst t <= fst s /\ fst s + snd s <= fst t + snd t).
Proof.
  intros HC HN Hb.
  destruct (diff_ls_defined a b HC HN Hb) as (r & Hr & l1 & l2 & l3 & Ea & Er & H1 & H3).
  exists r; split; [exact Hr|]. subst a r.
  apply nonneg_app in HN as [N1 HN]; apply nonneg_app in HN as [N2 N3].
  assert (Hins : forall s, In s (flat_map (fun x => diff_ss x b) l2) ->
                 exists t, In t l2 /\ fst t <= fst s /\ fst s + snd s <= fst t + snd t).
  { intros s Hs; apply in_flat_map in Hs as [x [Hx Hs]]. exists x; split; [exact Hx|].
    apply diff_ss_inside in Hs; auto. }
  split; [|split; [|split; [|split]]].
  - intros i; rewrite !covers_app, flat_map_diff_covers by assumption.
    split; [intros [H|[H|H]] | intros [[H|[H|H]] Hn]]; try tauto.
    + split; [tauto|]. destruct H as [s [Hs Hi]]; specialize (H1 s Hs); unfold in_seg in *; lia.
    + split; [tauto|]. destruct H as [s [Hs Hi]]; specialize (H3 s Hs); unfold in_seg in *; lia.
  - intros R HR HCR.
    apply chain_app in HCR as (C1 & C23 & C123); apply chain_app in C23 as (C2 & C3 & C23).
    assert (Hmono : forall s t s' t', R s t -> fst s' + snd s' <= fst s + snd s -> fst t <= fst t' -> R s' t').
    { destruct HR as [->| ->]; unfold before, separated; intros; lia. }
    apply chain_app; split; [exact C1|split].
    + apply chain_app; split; [|split; [exact C3|]].
      * clear -C2 N2 Hb Hmono HR. induction l2 as [|s l2 IH]; cbn [flat_map]; [exact I|].
        apply nonneg_cons in N2 as [Ns N2]; destruct C2 as [D1 D2].
        apply chain_app; split; [|split; [apply IH; auto|]].
        -- eapply chain_impl; [|apply diff_ss_sep; auto]. intros x y _ _; destruct HR as [->| ->];
             unfold separated, before; lia.
        -- intros x y Hx Hy; apply in_flat_map in Hy as [t [Ht Hy]].
           apply diff_ss_inside in Hx; auto. apply diff_ss_inside in Hy; auto.
           eapply Hmono; [apply D1; exact Ht | lia | lia].
      * intros s t Hs Ht; apply Hins in Hs as (x & Hx & L1 & L2).
        eapply Hmono; [apply C23; eauto | lia | lia].
    + intros s t Hs Ht; apply in_app_or in Ht as [Ht|Ht].
      * apply Hins in Ht as (x & Hx & L1 & L2).
        eapply Hmono; [apply (C123 s x); [exact Hs | apply in_or_app; left; exact Hx] | lia | lia].
      * apply C123; [exact Hs | apply in_or_app; right; exact Ht].
  - apply nonneg_app; split; [exact N1|]. apply nonneg_app; split; [|exact N3].
    intros s Hs; apply in_flat_map in Hs as [x [Hx Hs]].
    pose proof (diff_ss_positive x b (N2 x Hx) Hb s Hs); lia.
  - intros HP; apply positive_app in HP as [P1 HP]; apply positive_app in HP as [P2 P3].
    apply positive_app; split; [exact P1|]. apply positive_app; split; [|exact P3].
    intros s Hs; apply in_flat_map in Hs as [x [Hx Hs]].
    exact (diff_ss_positive x b (N2 x Hx) Hb s Hs).
  - intros s Hs; apply in_app_or in Hs as [Hs|Hs]; [|apply in_app_or in Hs as [Hs|Hs]].
    + exists s; split; [apply in_or_app; auto | lia].
    + apply Hins in Hs as (x & Hx & L1 & L2); exists x; split; [|lia].
      apply in_or_app; right; apply in_or_app; auto.
    + exists s; split; [apply in_or_app; right; apply in_or_app; auto | lia].
Qed.

Lemma diff_fold_spec b : forall d,
  sorted_separated d -> nonneg d -> nonneg b ->
  exists r,
    fold_left (fun acc x => match acc with Some d => diff_ls d x | None => None end) b (Some d) = Some r /\
    (forall i, covers r i <-> covers d i /\ ~ covers b i) /\
    sorted_separated r /\ nonneg r /\ (positive d -> positive r) /\
    (forall s, In s r -> exists t, In t d /\ fst t <= fst s /\ fst s + snd s <= fst t + snd t).
Proof.
  induction b as [|x b IH]; intros d HS HN HB; cbn [fold_left].
  - exists d; split; [reflexivity|]. split; [|split; [exact HS | split; [exact HN | split; [auto|]]]].
    + intros i; split; [intros H; split; [exact H | apply covers_nil] | tauto].
    + intros s Hs; exists s; split; [exact Hs | lia].
  - apply nonneg_cons in HB as [Bx HB].
    destruct (diff_ls_spec d x (sorted_separated_disjoint _ HS) HN Bx) as (r & Hr & R1 & R2 & R3 & R4 & R5).
    rewrite Hr.
    destruct (IH r) as (r' & Hr' & R1' & R2' & R3' & R4' & R5'); auto.
    { apply R2; [right; reflexivity | exact HS]. }
    exists r'; split; [exact Hr'|]. split; [|split; [exact R2' | split; [exact R3' | split; [auto|]]]].
    + intros i; rewrite R1', R1, covers_cons; tauto.
    + intros s Hs; destruct (R5' s Hs) as (t & Ht & L1 & L2).
      destruct (R5 t Ht) as (u & Hu & L3 & L4). exists u; split; [exact Hu | lia].
Qed.

Lemma diff_sl_spec a b :
  0 <= snd a -> nonneg b ->
  exists r, diff_sl a b = Some r /\
    (forall i, covers r i <-> in_seg a i /\ ~ covers b i) /\
    sorted_separated r /\ nonneg r /\ (0 < snd a -> positive r) /\
    (forall s, In s r -> fst a <= fst s /\ fst s + snd s <= fst a + snd a).
Proof.
  intros Ha Hb.
  destruct (diff_fold_spec b [a]) as (r & Hr & R1 & R2 & R3 & R4 & R5); auto.
  - cbn; tauto.
  - apply nonneg_cons; split; [exact Ha | intros s []].
  - exists r; split; [exact Hr|]. split; [|split; [exact R2 | split; [exact R3 | split]]].
    + intros i; rewrite R1, covers_cons. split; [intros [[H|H] Hn]; [tauto | destruct (covers_nil _ H)] | tauto].
    + intros H; apply R4. apply positive_cons; split; [exact H | intros s []].
    + intros s Hs; destruct (R5 s Hs) as (t & [<-|[]] & L); exact L.
Qed.

Lemma diff_ll_spec a b :
  nonneg a -> nonneg b ->
  exists r, diff_ll a b = Some r /\
    (forall i, covers r i <-> covers a i /\ ~ covers b i) /\
    nonneg r /\ (positive a -> positive r) /\
    (forall R, (R = before \/ R = separated) -> chain R a -> chain R r) /\
    (forall s, In s r -> exists t, In t a /\ fst t <= fst s /\ fst s + snd s <= fst t + snd t).
Proof.
  intros Ha Hb; induction a as [|x a IH]; cbn [diff_ll].
  - exists []; split; [reflexivity|]. split; [|split; [|split; [|split]]]; auto.
    + intros i; split; [intros H; destruct (covers_nil _ H) | intros [H _]; exact H].
    + intros s [].
  - apply nonneg_cons in Ha as [Hx Ha].
    destruct (IH Ha) as (r & Hr & R1 & R2 & R3 & R4 & R5).
    destruct (diff_sl_spec x b Hx Hb) as (d & Hd & D1 & D2 & D3 & D4 & D5).
    rewrite Hd, Hr. exists (d ++ r); split; [reflexivity|]. split; [|split; [|split; [|split]]].
    + intros i; rewrite covers_app, covers_cons, D1, R1; tauto.
    + apply nonneg_app; split; auto.
    + intros HP; apply positive_cons in HP as [P1 P2]; apply positive_app; split; auto.
    + intros R HR [C1 C2]; apply chain_app; split; [|split].
      * eapply chain_impl; [|exact D2]. intros s t _ _; destruct HR as [->| ->]; unfold separated, before; lia.
      * apply R4; auto.
      * intros s t Hs Ht; specialize (D5 s Hs); destruct (R5 t Ht) as (u & Hu & L).
        specialize (C1 u Hu); destruct HR as [->| ->]; unfold separated, before in *; lia.
    + intros s Hs; apply in_app_or in Hs as [Hs|Hs].
      * exists x; split; [left; auto | apply D5; exact Hs].
      * destruct (R5 s Hs) as (t & Ht & L); exists t; split; [right; auto | exact L].
Qed.

(** * split *)

Lemma seg_indices_split a n m : 0 <= n -> 0 <= m ->
  seg_indices (a, n + m) = seg_indices (a, n) ++ seg_indices (a + n, m).
Proof.
  intros Hn Hm; unfold seg_indices; cbn [fst snd].
  rewrite Z2Nat.inj_add, zseq_app by assumption. do 2 f_equal; lia.
Qed.

Lemma split_app l : forall n r l', nonneg l -> 0 <= n -> split l n = (r, l') ->
  indices l = indices r ++ indices l' /\ nonneg r /\ nonneg l' /\
  cardinal r = Z.min n (cardinal l).
Proof.
  induction l as [|it t IH]; intros n r l' HN Hn H; cbn [split] in H.
  - injection H as <- <-. rewrite cardinal_nil; repeat split; auto; lia.
  - apply nonneg_cons in HN as [N1 HN]; pose proof (cardinal_nonneg t HN) as Ct.
    destruct (Z.gtb_spec (snd it) n).
    + injection H as <- <-.
      rewrite !cardinal_cons, cardinal_nil; cbn [fst snd]. repeat split.
      * unfold indices; cbn [flat_map]. rewrite app_nil_r, app_assoc, <- seg_indices_split by lia.
        f_equal; destruct it as [f s]; cbn [fst snd]; do 2 f_equal; lia.
      * intros s [<-|[]]; cbn; lia.
      * apply nonneg_cons; split; [cbn; lia | exact HN].
      * lia.
    + destruct (Z.eqb_spec (snd it) n).
      * injection H as <- <-. rewrite !cardinal_cons, cardinal_nil; repeat split; auto.
        -- unfold indices; cbn [flat_map]; rewrite app_nil_r; reflexivity.
        -- intros s [<-|[]]; lia.
        -- lia.
      * destruct (split t (n - snd it)) as [r1 l1] eqn:E; injection H as <- <-.
        assert (Hn' : 0 <= n - snd it) by lia.
        destruct (IH _ _ _ HN Hn' E) as (I1 & I2 & I3 & I4).
        repeat split; auto.
        -- unfold indices in *; cbn [flat_map]; rewrite I1, app_assoc; reflexivity.
        -- apply nonneg_cons; auto.
        -- rewrite !cardinal_cons, I4; lia.
Qed.

Lemma split_spec l n r l' : nonneg l -> 0 <= n -> split l n = (r, l') ->
  indices r = firstn (Z.to_nat n) (indices l) /\ indices l' = skipn (Z.to_nat n) (indices l) /\
  nonneg r /\ nonneg l'.
Proof.
  intros HN Hn H; destruct (split_app l n r l' HN Hn H) as (I1 & I2 & I3 & I4).
  rewrite !cardinal_indices in I4 by assumption.
  assert (L : length (indices l) = (length (indices r) + length (indices l'))%nat)
    by (rewrite I1, app_length; reflexivity).
  rewrite I1. destruct (Z.le_gt_cases n (Z.of_nat (length (indices l)))) as [C|C].
  - assert (E : Z.to_nat n = length (indices r)) by lia.
    rewrite E, firstn_app, Nat.sub_diag, firstn_O, app_nil_r, firstn_all.
    rewrite skipn_app, Nat.sub_diag, skipn_O, skipn_all; auto.
  - assert (E0 : indices l' = []) by (apply length_zero_iff_nil; lia).
    rewrite E0, app_nil_r, firstn_all2, skipn_all2 by lia; auto.
Qed.

(** * extract *)

Lemma ext_end_spec l : forall n, nonneg l -> 0 < n -> n <= cardinal l ->
  exists r, ext_end l n = Some r /\ indices r = firstn (Z.to_nat n) (indices l).
Proof.
  induction l as [|it t IH]; intros n HN Hn Hc; [rewrite cardinal_nil in Hc; lia|].
  apply nonneg_cons in HN as [N1 HN]; rewrite cardinal_cons in Hc; cbn [ext_end].
  change (indices (it :: t)) with (seg_indices it ++ indices t).
  destruct (Z.geb_spec (snd it) n).
  - eexists; split; [reflexivity|]. unfold indices at 1; cbn [flat_map]; rewrite app_nil_r.
    rewrite firstn_app.
    assert (L : length (seg_indices it) = Z.to_nat (snd it)) by (unfold seg_indices; apply zseq_length).
    replace (Z.to_nat n - length (seg_indices it))%nat with O by lia.
    rewrite firstn_O, app_nil_r.
    destruct it as [f s]; cbn [fst snd] in *.
    replace s with (n + (s - n)) by lia. rewrite seg_indices_split by lia.
    rewrite firstn_app.
    assert (L2 : length (seg_indices (f, n)) = Z.to_nat n) by (unfold seg_indices; apply zseq_length).
    rewrite L2, Nat.sub_diag, firstn_O, app_nil_r, <- L2, firstn_all; reflexivity.
  - destruct (IH (n - snd it) HN ltac:(lia) ltac:(lia)) as (r & Hr & Ir).
    rewrite Hr; eexists; split; [reflexivity|].
    change (indices ((fst it, snd it) :: r)) with (seg_indices (fst it, snd it) ++ indices r).
    rewrite <- surjective_pairing, Ir, firstn_app.
    assert (L : length (seg_indices it) = Z.to_nat (snd it)) by (unfold seg_indices; apply zseq_length).
    f_equal; [symmetry; apply firstn_all2; lia | f_equal; lia].
Qed.

Lemma ext_start_spec l : forall s n, nonneg l -> 0 <= s -> 0 <= n -> s < cardinal l -> s + n <= cardinal l ->
  exists r, ext_start l s n = Some r /\
            indices r = firstn (Z.to_nat n) (skipn (Z.to_nat s) (indices l)).
Proof.
  induction l as [|it t IH]; intros s n HN Hs Hn Hs2 Hc; [rewrite cardinal_nil in *; lia|].
  apply nonneg_cons in HN as [N1 HN]; rewrite cardinal_cons in *; cbn [ext_start].
  change (indices (it :: t)) with (seg_indices it ++ indices t).
  assert (L : length (seg_indices it) = Z.to_nat (snd it)) by (unfold seg_indices; apply zseq_length).
  destruct (Z.gtb_spec (snd it) s).
  - assert (SK : skipn (Z.to_nat s) (seg_indices it ++ indices t) =
                 seg_indices (fst it + s, snd it - s) ++ indices t).
    { rewrite skipn_app. replace (Z.to_nat s - length (seg_indices it))%nat with O by lia.
      rewrite skipn_O; f_equal. destruct it as [f u]; cbn [fst snd] in *.
      replace u with (s + (u - s)) at 1 by lia. rewrite seg_indices_split by lia.
      assert (L2 : length (seg_indices (f, s)) = Z.to_nat s) by (unfold seg_indices; apply zseq_length).
      rewrite skipn_app, <- L2, Nat.sub_diag, skipn_O, skipn_all; reflexivity. }
    rewrite SK.
    destruct (Z.geb_spec (snd it - s) n).
    + eexists; split; [reflexivity|]. unfold indices at 1; cbn [flat_map]; rewrite app_nil_r.
      replace (snd it - s) with (n + (snd it - s - n)) by lia.
      rewrite seg_indices_split by lia.
      assert (L2 : length (seg_indices (fst it + s, n)) = Z.to_nat n) by (unfold seg_indices; apply zseq_length).
      rewrite <- app_assoc, firstn_app, <- L2, Nat.sub_diag, firstn_O, app_nil_r, firstn_all; reflexivity.
    + destruct (ext_end_spec t (n - (snd it - s)) HN ltac:(lia) ltac:(lia)) as (r & Hr & Ir).
      rewrite Hr; eexists; split; [reflexivity|].
      change (indices ((fst it + s, snd it - s) :: r)) with (seg_indices (fst it + s, snd it - s) ++ indices r).
      assert (L2 : length (seg_indices (fst it + s, snd it - s)) = Z.to_nat (snd it - s))
        by (unfold seg_indices; apply zseq_length).
      rewrite Ir, firstn_app; f_equal; [symmetry; apply firstn_all2; lia | f_equal; lia].
  - destruct (IH (s - snd it) n HN) as (r & Hr & Ir); try lia.
    exists r; split; [exact Hr|]. rewrite Ir; f_equal.
    rewrite skipn_app, (skipn_all2 (seg_indices it)) by lia. cbn [app]; f_equal; lia.
Qed.

Lemma ext_start_fail l : forall s n, nonneg l -> cardinal l <= s -> ext_start l s n = None.
Proof.
  induction l as [|it t IH]; intros s n HN Hs; [reflexivity|].
  apply nonneg_cons in HN as [N1 HN]; rewrite cardinal_cons in Hs; cbn [ext_start].
  pose proof (cardinal_nonneg t HN).
  destruct (Z.gtb_spec (snd it) s); [lia | apply IH; auto; lia].
Qed.

(** * from_logical *)

Lemma true_segs_spec m : forall i,
  (forall j, covers (true_segs i m) j <-> (i <= j /\ nth_error m (Z.to_nat (j - i)) = Some true)) /\
  chain start_le (true_segs i m) /\ positive (true_segs i m) /\
  (forall s, In s (true_segs i m) -> i <= fst s).
Proof.
  induction m as [|b m IH]; intros i; cbn [true_segs].
  - split; [|split; [exact I | split; intros s []]].
    intros j; split; [intros H; destruct (covers_nil _ H)|].
    intros [_ H]; destruct (Z.to_nat (j - i)); discriminate.
  - destruct (IH (i + 1)) as (I1 & I2 & I3 & I4).
    split; [|split; [|split]].
    + intros j; rewrite covers_app, I1.
      destruct (Z.eq_dec j i) as [->|Hne].
      * rewrite Z.sub_diag; change (nth_error (b :: m) (Z.to_nat 0)) with (Some b).
        destruct b; rewrite ?covers_cons; unfold in_seg; cbn [fst snd]; split.
        -- intros _; split; [lia | reflexivity].
        -- intros _; left; left; lia.
        -- intros [H|[H _]]; [destruct (covers_nil _ H) | lia].
        -- intros [_ H]; discriminate.
      * assert (Hb : ~ covers (if b then [(i, 1)] else []) j).
        { destruct b; rewrite ?covers_cons; unfold in_seg; cbn [fst snd];
            [intros [H|H]; [lia | destruct (covers_nil _ H)] | apply covers_nil]. }
        destruct (Z.le_gt_cases (i + 1) j) as [C|C].
        -- replace (Z.to_nat (j - i)) with (S (Z.to_nat (j - (i + 1)))) by lia; cbn [nth_error].
           split; [intros [H|H]; [tauto | split; [lia | tauto]] | intros [_ H]; right; split; [lia | exact H]].
        -- split; [intros [H|H]; [tauto | lia] | lia].
    + apply chain_app; split; [destruct b; cbn; tauto | split; [exact I2|]].
      intros s t Hs Ht; specialize (I4 t Ht); unfold start_le.
      destruct b; [destruct Hs as [<-|[]]; cbn; lia | destruct Hs].
    + apply positive_app; split; [|exact I3]. intros s Hs; destruct b; [destruct Hs as [<-|[]]; cbn; lia | destruct Hs].
    + intros s Hs; apply in_app_or in Hs as [Hs|Hs].
      * destruct b; [destruct Hs as [<-|[]]; cbn; lia | destruct Hs].
      * specialize (I4 s Hs); lia.
Qed.

Lemma from_logical_spec m :
  (forall j, covers (from_logical m) j <-> (0 <= j /\ nth_error m (Z.to_nat j) = Some true)) /\
  sorted_separated (from_logical m) /\ positive (from_logical m).
Proof.
  destruct (true_segs_spec m 0) as (I1 & I2 & I3 & _); unfold from_logical.
  pose proof (positive_nonneg _ I3) as HN.
  split; [|split; [apply shrink_separated; exact HN | apply shrink_positive; exact I3]].
  intros j; rewrite shrink_covers, I1, Z.sub_0_r by assumption; tauto.
Qed.

(** * shrink on unsorted input *)

Lemma shrink_from_sound rest : forall e1 i,
  covers (shrink_from e1 rest) i -> covers (e1 :: rest) i.
Proof.
  induction rest as [|e2 t IH]; intros e1 i; cbn [shrink_from]; [tauto|].
  destruct (comp_ft e1 e2) eqn:E; cbn [negb]; unfold comp_ft, send in E.
  - rewrite (covers_cons e1 (e2 :: t)), (covers_cons e1 (shrink_from e2 t)).
    intros [H|H]; [left; exact H | right; apply IH; exact H].
  - intros H; apply IH in H. rewrite !covers_cons in *. unfold in_seg in *; cbn [fst snd] in *.
    destruct H as [H|H]; [|tauto]. lia.
Qed.
Lemma shrink_sound l i : covers (shrink l) i -> covers l i.
Proof. destruct l as [|e t]; [auto | apply shrink_from_sound]. Qed.

(** * Statements used by the property file *)

Lemma normalise_all l :
  nonneg l ->
  (forall i, covers (normalise l) i <-> covers l i) /\
  sorted_separated (normalise l) /\ nonneg (normalise l) /\
  normalise (normalise l) = normalise l.
Proof.
  intros H; split; [intros i; apply normalise_covers; exact H|].
  split; [apply normalise_separated; exact H|].
  split; [apply normalise_nonneg; exact H | apply normalise_idem; exact H].
Qed.

Lemma shrink_only_any_order l :
  nonneg l -> sorted_separated (shrink l) /\ (forall i, covers (shrink l) i -> covers l i).
Proof. intros H; split; [apply shrink_separated; exact H | intros i; apply shrink_sound]. Qed.

Lemma shrink_only_loses :
  exists l i, positive l /\ covers l i /\ ~ covers (shrink l) i.
Proof.
  exists [(5, 1); (0, 1)], 0. split; [|split].
  - intros s [<-|[<-|[]]]; cbn; lia.
  - exists (0, 1); split; [right; left; reflexivity | unfold in_seg; cbn; lia].
  - intros [s [Hs Hi]]; vm_compute in Hs. destruct Hs as [<-|[]]; unfold in_seg in Hi; cbn in Hi; lia.
Qed.

Lemma cardinal_all l :
  nonneg l ->
  cardinal l = Z.of_nat (length (indices l)) /\
  cardinal (sort l) = cardinal l /\
  (forall d, NoDup d -> (forall i, In i d <-> covers l i) ->
     cardinal (normalise l) = Z.of_nat (length d)).
Proof.
  intros H; split; [apply cardinal_indices; exact H|].
  split; [apply cardinal_perm, sort_perm|].
  intros d Hd Hi; apply cardinal_distinct; auto.
  - apply normalise_nonneg; exact H.
  - apply sorted_separated_disjoint, normalise_separated; exact H.
  - intros i; rewrite Hi, normalise_covers by exact H; tauto.
Qed.

Lemma difference_seg_seg a b :
  0 <= snd a -> 0 <= snd b ->
  (forall i, covers (diff_ss a b) i <-> in_seg a i /\ ~ in_seg b i) /\
  sorted_separated (diff_ss a b) /\ positive (diff_ss a b).
Proof.
  intros Ha Hb; split; [intros i; apply diff_ss_spec; auto|].
  split; [apply diff_ss_sep; auto | apply diff_ss_positive; auto].
Qed.

Lemma difference_segs_seg a b :
  sorted_disjoint a -> nonneg a -> 0 <= snd b ->
  exists r, diff_ls a b = Some r /\
    (forall i, covers r i <-> covers a i /\ ~ in_seg b i) /\
    sorted_disjoint r /\ (sorted_separated a -> sorted_separated r) /\
    (positive a -> positive r).
Proof.
  intros H1 H2 H3; destruct (diff_ls_spec a b H1 H2 H3) as (r & Hr & R1 & R2 & R3 & R4 & R5).
  exists r; repeat split; auto; try (apply R1; assumption).
  - apply R2; auto.
  - intros HS; apply R2; auto.
Qed.

Lemma difference_seg_segs a b :
  0 <= snd a -> nonneg b ->
  exists r, diff_sl a b = Some r /\
    (forall i, covers r i <-> in_seg a i /\ ~ covers b i) /\
    sorted_separated r /\ (0 < snd a -> positive r).
Proof.
  intros H1 H2; destruct (diff_sl_spec a b H1 H2) as (r & Hr & R1 & R2 & R3 & R4 & R5).
  exists r; repeat split; auto; apply R1; assumption.
Qed.

Lemma difference_segs_segs a b :
  nonneg a -> nonneg b ->
  exists r, diff_ll a b = Some r /\
    (forall i, covers r i <-> covers a i /\ ~ covers b i) /\
    (sorted_disjoint a -> sorted_disjoint r) /\ (sorted_separated a -> sorted_separated r) /\
    (positive a -> positive r).
Proof.
  intros H1 H2; destruct (diff_ll_spec a b H1 H2) as (r & Hr & R1 & R2 & R3 & R4 & R5).
  exists r; repeat split; auto; try (apply R1; assumption); intros HC; apply R4; auto.
Qed.

Lemma add_list_sorted a b :
  lex_sorted a ->
  exists r, add_segs a b = Some r /\ Permutation r (a ++ b) /\ (lex_sorted b -> lex_sorted r).
Proof.
  intros H; destruct (add_segs_perm a b H) as (r & Hr & HP); exists r; split; [exact Hr|]; split; [exact HP|].
  intros Hb; exact (add_segs_sorted a b r H Hb Hr).
Qed.

Lemma add_list_unsorted_result :
  exists a b r, lex_sorted a /\ add_segs a b = Some r /\ ~ lex_sorted r.
Proof.
  exists [(3, 1)], [(5, 1); (0, 1)], [(3, 1); (5, 1); (0, 1)].
  split; [cbn; tauto|]. split; [reflexivity|].
  intros [_ [H _]]. specialize (H (0, 1) (or_introl eq_refl)); unfold lex_le in H; cbn in H; lia.
Qed.

Lemma overlap_sound_exact a b :
  0 <= snd a -> 0 <= snd b ->
  (overlap a b = true <->
   (exists i, in_seg a i /\ in_seg b i) /\
   ~ (fst b < fst a /\ fst a + snd a < fst b + snd b)).
Proof. exact (overlap_spec a b). Qed.

Lemma overlap_misses :
  exists a b, (exists i, in_seg a i /\ in_seg b i) /\ overlap a b = false /\ overlap b a = true.
Proof.
  exists (2, 1), (0, 5); split; [exists 2; unfold in_seg; cbn; lia | split; reflexivity].
Qed.

Lemma sum_all a b :
  0 <= snd a -> 0 <= snd b ->
  (forall i, covers (sum a b) i <-> in_seg a i \/ in_seg b i) /\
  sum a b = sum b a /\ sorted_separated (sum a b) /\
  (length (sum a b) = 1%nat <-> (fst a <= fst b + snd b /\ fst b <= fst a + snd a)).
Proof.
  intros Ha Hb; split; [intros i; apply sum_spec; auto|].
  split; [apply sum_sym; auto|]. split; [apply sum_separated; auto | apply sum_length; auto].
Qed.

Lemma split_all l n :
  nonneg l -> 0 <= n ->
  indices (fst (split l n)) = firstn (Z.to_nat n) (indices l) /\
  indices (snd (split l n)) = skipn (Z.to_nat n) (indices l) /\
  nonneg (fst (split l n)) /\ nonneg (snd (split l n)).
Proof.
  intros H Hn; destruct (split l n) as [r l'] eqn:E; cbn [fst snd].
  exact (split_spec l n r l' H Hn E).
Qed.

Lemma split_checked_all l n :
  nonneg l -> 0 <= n <= cardinal l ->
  exists r l', split_checked l n = Some (r, l') /\
    indices r = firstn (Z.to_nat n) (indices l) /\ cardinal r = n /\
    indices l' = skipn (Z.to_nat n) (indices l).
Proof.
  intros H Hn; unfold split_checked.
  destruct (split l n) as [r l'] eqn:E.
  replace ((cardinal l >=? n) && (n >=? 0)) with true by lia.
  assert (Hn0 : 0 <= n) by lia.
  exists r, l'; destruct (split_spec l n r l' H Hn0 E) as (I1 & I2 & I3 & I4).
  destruct (split_app l n r l' H Hn0 E) as (_ & _ & _ & I5).
  repeat split; auto; lia.
Qed.

Lemma extract_all l s n :
  nonneg l -> extract_pre l s n = true ->
  (s < cardinal l ->
     exists r, extract l s n = Some r /\
       indices r = firstn (Z.to_nat n) (skipn (Z.to_nat s) (indices l))) /\
  (s = cardinal l -> extract l s n = None).
Proof.
  intros H HP; unfold extract_pre in HP; split; intros Hs.
  - apply ext_start_spec; auto; lia.
  - apply ext_start_fail; auto; lia.
Qed.

Lemma extract_corner :
  exists l s n, positive l /\ extract_pre l s n = true /\ extract l s n = None.
Proof.
  exists [(0, 2)], 2, 0; split; [intros s [<-|[]]; cbn; lia | split; reflexivity].
Qed.
