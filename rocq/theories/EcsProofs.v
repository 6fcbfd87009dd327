(** Lemmas about EcsModel. *)
From Coq Require Import ZArith List Bool Lia ZifyBool Permutation.
From Verif Require Import SegModel SegSpec SegProofs ViewModel ViewProofs EcsModel EcsSpec.
Import ListNotations.
Open Scope Z_scope.

(** * Index sets *)

(** a list in which an index lying before the start of an earlier interval is
    covered by a still earlier one *)
Definition back_covered (l : list (Z * Z)) : Prop :=
  forall l1 p l2 x, l = l1 ++ p :: l2 -> covers l2 x -> x < fst p -> covers l1 x.

Lemma shrink_from_back : forall rest pre e1,
  0 <= snd e1 -> nonneg rest ->
  (* e1 starts where some element p of the processed list starts *)
  (exists l1 p l2, pre = l1 ++ p :: l2 /\ fst p = fst e1) ->
  back_covered (pre ++ rest) ->
  (forall x, covers rest x -> covers (shrink_from e1 rest) x \/ covers pre x).
Proof.
  induction rest as [|e2 t IH]; intros pre e1 He Hn Hp Hb x Hx; [destruct (covers_nil _ Hx)|].
  apply nonneg_cons in Hn as [He2 Hn]; cbn [shrink_from].
  assert (Hb' : back_covered ((pre ++ [e2]) ++ t)) by (rewrite <- app_assoc; exact Hb).
  apply covers_cons in Hx.
  destruct (comp_ft e1 e2) eqn:E; cbn [negb].
  - (* e1 kept, e2 becomes current *)
    destruct Hx as [Hx|Hx].
    + left; apply covers_cons; right.
      assert (G : forall r e, 0 <= snd e -> in_seg e x -> covers (shrink_from e r) x).
      { clear; induction r as [|f r IHr]; intros e He Hx; cbn [shrink_from].
        - apply covers_cons; auto.
        - destruct (comp_ft e f) eqn:Ef; cbn [negb].
          + apply covers_cons; auto.
          + apply IHr; unfold in_seg in *; cbn; lia. }
      apply G; auto.
    + destruct (IH (pre ++ [e2]) e2 He2 Hn) with (x := x) as [H|H]; auto.
      * exists pre, e2, []; split; reflexivity.
      * left; apply covers_cons; auto.
      * apply covers_app in H as [H|H]; [right; exact H|].
        apply covers_cons in H as [H|H]; [|destruct (covers_nil _ H)].
        left; apply covers_cons; right.
        clear -He2 H. revert e2 He2 H; induction t as [|f r IHr]; intros e He Hx; cbn [shrink_from].
        -- apply covers_cons; auto.
        -- destruct (comp_ft e f) eqn:Ef; cbn [negb].
           ++ apply covers_cons; auto.
           ++ apply IHr; unfold in_seg in *; cbn; lia.
  - set (e := (fst e1, Z.max (snd e1) (fst e2 + snd e2 - fst e1))).
    assert (He' : 0 <= snd e) by (subst e; cbn; lia).
    assert (G : forall r e, 0 <= snd e -> in_seg e x -> covers (shrink_from e r) x).
    { clear; induction r as [|f r IHr]; intros e He Hx; cbn [shrink_from].
      - apply covers_cons; auto.
      - destruct (comp_ft e f) eqn:Ef; cbn [negb].
        + apply covers_cons; auto.
        + apply IHr; unfold in_seg in *; cbn; lia. }
    assert (Hpre2 : in_seg e2 x -> covers (shrink_from e t) x \/ covers pre x).
    { intros H2. destruct (Z.lt_ge_cases x (fst e1)) as [Hlt|Hge].
      - right. destruct Hp as (l1 & p & l2 & -> & Hpf).
        apply covers_app; left. apply (Hb l1 p (l2 ++ e2 :: t) x).
        + rewrite <- app_assoc; reflexivity.
        + apply covers_app; right; apply covers_cons; left; exact H2.
        + lia.
      - left; apply G; [exact He'|]. unfold in_seg, comp_ft, send in *; subst e; cbn; lia. }
    destruct Hx as [Hx|Hx]; [apply Hpre2; exact Hx|].
    destruct (IH (pre ++ [e2]) e He' Hn) with (x := x) as [H|H]; auto.
    + destruct Hp as (l1 & p & l2 & -> & Hpf). exists l1, p, (l2 ++ [e2]); split; [|exact Hpf].
      rewrite <- app_assoc; reflexivity.
    + apply covers_app in H as [H|H]; [right; exact H|].
      apply covers_cons in H as [H|H]; [|destruct (covers_nil _ H)]. apply Hpre2; exact H.
Qed.

Lemma shrink_from_self r : forall e x, 0 <= snd e -> in_seg e x -> covers (shrink_from e r) x.
Proof.
  induction r as [|f r IHr]; intros e x He Hx; cbn [shrink_from].
  - apply covers_cons; auto.
  - destruct (comp_ft e f) eqn:Ef; cbn [negb].
    + apply covers_cons; auto.
    + apply IHr; unfold in_seg in *; cbn; lia.
Qed.

Lemma shrink_back l i : nonneg l -> back_covered l -> (covers (shrink l) i <-> covers l i).
Proof.
  intros HN HB; split; [apply shrink_sound|].
  destruct l as [|e t]; cbn [shrink]; [auto|]. apply nonneg_cons in HN as [He HN].
  intros H; apply covers_cons in H as [H|H]; [apply shrink_from_self; auto|].
  destruct (shrink_from_back t [e] e He HN) with (x := i) as [G|G]; auto.
  - exists [], e, []; split; reflexivity.
  - apply covers_cons in G as [G|G]; [apply shrink_from_self; auto | destruct (covers_nil _ G)].
Qed.

(** the difference of a lex-sorted list with any list is back-covered *)
Lemma diff_ll_back a b r :
  nonneg a -> nonneg b -> lex_sorted a -> diff_ll a b = Some r -> back_covered r.
Proof.
  intros Ha Hb. revert r; induction a as [|x a IH]; intros r HL; cbn [diff_ll].
  - intros H; injection H as <-. intros [|w l1] p l2 y E; discriminate.
  - apply nonneg_cons in Ha as [Hx Ha]. destruct HL as [L1 L2].
    destruct (diff_sl_spec x b Hx Hb) as (d & Hd & D1 & D2 & D3 & D4 & D5).
    destruct (diff_ll_spec a b Ha Hb) as (r0 & Hr0 & R1 & R2 & R3 & R4 & R5).
    rewrite Hd, Hr0. intros H; injection H as <-.
    specialize (IH Ha r0 L2 Hr0).
    intros l1 p l2 y E Hy Hlt.
    (* is the split inside d or inside r0 ? *)
    assert (Hcase : (exists d2, d = l1 ++ p :: d2 /\ l2 = d2 ++ r0) \/ (exists r1, l1 = d ++ r1 /\ r0 = r1 ++ p :: l2)).
    { clear -E. revert l1 E; induction d as [|z d IHd]; intros l1 E.
      - right; exists l1; split; [reflexivity | exact E].
      - destruct l1 as [|w l1]; cbn in E; injection E as -> E.
        + left; exists d; split; [reflexivity | auto].
        + destruct (IHd l1 E) as [(d2 & -> & ->)|(r1 & -> & ->)].
          * left; exists d2; split; reflexivity.
          * right; exists r1; split; reflexivity. }
    destruct Hcase as [(d2 & -> & ->)|(r1 & -> & ->)].
    + (* p comes from x *)
      assert (Hp : fst x <= fst p /\ fst p + snd p <= fst x + snd x) by (apply D5; apply in_or_app; right; left; auto).
      assert (Np : 0 <= snd p) by (apply D3; apply in_or_app; right; left; auto).
      apply covers_app in Hy as [Hy|Hy].
      * (* d is sorted: later pieces start after p *)
        exfalso. apply chain_app in D2 as (_ & [D2 _] & _). destruct Hy as (s & Hs & Hys).
        specialize (D2 s Hs); unfold separated, in_seg in *; lia.
      * assert (Hyx : in_seg x y).
        { pose proof (proj1 (R1 y) Hy) as [(s & Hs & Hys) _]. specialize (L1 s Hs).
          unfold lex_le, in_seg in *; lia. }
        assert (Hyb : ~ covers b y) by (apply R1 in Hy; tauto).
        assert (Hyd : covers (l1 ++ p :: d2) y) by (apply D1; tauto).
        apply covers_app in Hyd as [Hyd|Hyd]; [exact Hyd|].
        exfalso. apply chain_app in D2 as (_ & [D2 _] & _).
        destruct Hyd as (s & [<-|Hs] & Hys); [unfold in_seg in *; lia|].
        specialize (D2 s Hs); unfold separated, in_seg in *; lia.
    + apply covers_app; right. eapply IH; eauto.
Qed.

Lemma lex_sorted_separated_app (l : list (Z * Z)) : nonneg l -> sorted_separated l -> lex_sorted l.
Proof. apply separated_lex. Qed.

Lemma upd_in_spec ins cin outs :
  nonneg ins -> sorted_separated ins -> nonneg cin -> lex_sorted cin -> nonneg outs ->
  exists r, upd_in ins cin outs = Some r /\
    (forall i, covers r i <-> (covers ins i \/ covers cin i) /\ ~ covers outs i) /\
    nonneg r /\ sorted_separated r.
Proof.
  intros HN HS HC HL HO; unfold upd_in.
  assert (LI : lex_sorted ins) by (apply separated_lex; auto).
  destruct (add_segs_perm ins cin LI) as (a & Ha & P).
  pose proof (add_segs_sorted ins cin a LI HL Ha) as L.
  rewrite Ha.
  assert (Na : nonneg a) by (eapply nonneg_perm; [apply Permutation_sym; exact P | apply nonneg_app; auto]).
  destruct (diff_ll_spec a outs Na HO) as (r & Hr & R1 & R2 & _).
  rewrite Hr; cbn [update_rows]. exists (shrink r); split; [reflexivity|].
  split; [|split; [apply shrink_nonneg; exact R2 | apply shrink_separated; exact R2]].
  intros i; rewrite shrink_back; [|exact R2 | eapply diff_ll_back; [exact Na | exact HO | exact L | exact Hr]].
  rewrite R1. assert (E : covers a i <-> covers ins i \/ covers cin i).
  { rewrite <- covers_app; split; apply covers_perm; [exact P | apply Permutation_sym; exact P]. }
  tauto.
Qed.

Lemma upd_out_spec outs o :
  nonneg outs -> 0 <= snd o ->
  (forall i, covers (upd_out outs o) i <-> covers outs i \/ in_seg o i) /\
  nonneg (upd_out outs o) /\ sorted_separated (upd_out outs o).
Proof.
  intros HN Ho; unfold upd_out.
  assert (N : nonneg (outs ++ [o])) by (apply nonneg_app; split; [exact HN | apply nonneg_cons; split; [exact Ho | intros s []]]).
  split; [|split; [apply normalise_nonneg; exact N | apply normalise_separated; exact N]].
  intros i; rewrite normalise_covers by exact N. rewrite covers_app, covers_cons.
  split; [intros [H|[H|H]]; auto; destruct (covers_nil _ H) | tauto].
Qed.

(** * Tables index -> computing constraint *)
Section Proofs.
Context {V Rh : Type}.
Notation con := (con V Rh).
Notation ecs := (ecs V Rh).

Definition tab (proj : con -> list (Z * Z)) (l : list con) (f : Z -> Z) : Prop :=
  (forall k c i, nth_error l k = Some c -> covers (proj c) i -> f i = Z.of_nat k) /\
  (forall i, 0 <= f i -> exists c, nth_error l (Z.to_nat (f i)) = Some c /\ covers (proj c) i).

Lemma covers_single o i : covers [o] i <-> in_seg o i.
Proof. rewrite covers_cons. split; [intros [H|H]; [exact H | destruct (covers_nil _ H)] | auto]. Qed.

Lemma nth_error_snoc {A} (l : list A) x k c :
  nth_error (l ++ [x]) k = Some c -> nth_error l k = Some c \/ (k = length l /\ c = x).
Proof.
  intros H. destruct (Nat.lt_ge_cases k (length l)) as [Hk|Hk].
  - rewrite nth_error_app1 in H by exact Hk; auto.
  - rewrite nth_error_app2 in H by exact Hk.
    destruct (k - length l)%nat as [|n] eqn:E; cbn in H.
    + injection H as <-. right; split; [lia | reflexivity].
    + destruct n; discriminate.
Qed.

Lemma tab_add proj l f c o :
  tab proj l f -> proj c = [o] -> (forall i, in_seg o i -> f i < 0) ->
  tab proj (l ++ [c]) (fill f o (Z.of_nat (length l))).
Proof.
  intros [T1 T2] Ho Hf; split.
  - intros k d i Hk Hd. unfold fill.
    apply nth_error_snoc in Hk as [Hk|[-> ->]].
    + pose proof (T1 _ _ _ Hk Hd) as E.
      destruct ((fst o <=? i) && (i <? send o)) eqn:B; [|exact E].
      assert (f i < 0) by (apply Hf; unfold in_seg, send in *; lia). lia.
    + rewrite Ho in Hd; apply covers_single in Hd; unfold in_seg in Hd.
      replace ((fst o <=? i) && (i <? send o)) with true by (unfold send; lia); reflexivity.
  - intros i; unfold fill. destruct ((fst o <=? i) && (i <? send o)) eqn:B; intros Hi.
    + exists c; split.
      * rewrite Nat2Z.id, nth_error_app2 by lia. rewrite Nat.sub_diag; reflexivity.
      * rewrite Ho; apply covers_single; unfold in_seg, send in *; lia.
    + destruct (T2 i Hi) as (d & Hd & Hd2). exists d; split; [|exact Hd2].
      rewrite nth_error_app1; [exact Hd|]. apply nth_error_Some; congruence.
Qed.

Lemma tab_neg proj l f i : tab proj l f -> (f i < 0 <-> ~ exists c, In c l /\ covers (proj c) i).
Proof.
  intros [T1 T2]; split.
  - intros H (c & Hc & Hi). apply In_nth_error in Hc as [k Hk]. rewrite (T1 _ _ _ Hk Hi) in H; lia.
  - intros H. destruct (Z.lt_ge_cases (f i) 0) as [G|G]; [exact G|].
    destruct (T2 i G) as (c & Hc & Hi). exfalso; apply H; exists c; split; [eapply nth_error_In; exact Hc | exact Hi].
Qed.

(** two constraints with a common output are the same one *)
Lemma tab_disjoint proj l f k1 k2 c1 c2 i : tab proj l f ->
  nth_error l k1 = Some c1 -> nth_error l k2 = Some c2 ->
  covers (proj c1) i -> covers (proj c2) i -> k1 = k2.
Proof. intros [T1 _] H1 H2 I1 I2. pose proof (T1 _ _ _ H1 I1); pose proof (T1 _ _ _ H2 I2). lia. Qed.

(** * Loop detection *)

Lemma In_append l i : In i (append l) <-> covers l i.
Proof. unfold append. rewrite vread_indices, map_id. apply In_indices. Qed.

Lemma loop_check_true fuel : forall n (d : list con) af o q,
  loop_check fuel n d af o q = Val true ->
  exists vis, (forall x, In x q -> In x vis) /\
    (forall x, In x vis -> ~ in_seg o x /\ 0 <= x < n) /\
    (forall x c y, In x vis -> 0 <= af x -> nth_error d (Z.to_nat (af x)) = Some c ->
       covers (c_in c) y -> In y vis).
Proof.
  induction fuel as [|f IH]; intros n d af o q H.
  - destruct q; [|discriminate]. exists []; split; [intros x []|split; [intros x [] | intros x c y []]].
  - destruct q as [|i t]; cbn [loop_check] in H.
    { exists []; split; [intros x []|split; [intros x [] | intros x c y []]]. }
    destruct ((fst o <=? i) && (i <? send o)) eqn:Eo; [discriminate|].
    destruct (negb ((0 <=? i) && (i <? n))) eqn:En; [discriminate|].
    destruct (Z.ltb_spec (af i) 0) as [Ha|Ha].
    + apply IH in H as (vis & V1 & V2 & V3). exists (i :: vis); split; [|split].
      * intros x [<-|Hx]; [left; auto | right; auto].
      * intros x [<-|Hx]; [|auto]. unfold in_seg, send in *; lia.
      * intros x c y [<-|Hx] Hax; [lia|]. intros; right; eapply V3; eauto.
    + destruct (nth_error d (Z.to_nat (af i))) as [c|] eqn:Ec; [|discriminate].
      apply IH in H as (vis & V1 & V2 & V3). exists (i :: vis); split; [|split].
      * intros x [<-|Hx]; [left; auto | right; apply V1, in_or_app; auto].
      * intros x [<-|Hx]; [|auto]. unfold in_seg, send in *; lia.
      * intros x c' y [<-|Hx] Hax Hc' Hy; [|right; eapply V3; eauto].
        rewrite Ec in Hc'; injection Hc' as <-. right; apply V1, in_or_app; right. apply In_append; exact Hy.
Qed.

Lemma loop_check_false fuel : forall n (d : list con) af o q (N : Z -> Prop),
  tab c_out d af ->
  (forall x, In x q -> N x) ->
  (forall x c y, N x -> In c d -> covers (c_out c) x -> covers (c_in c) y -> N y) ->
  loop_check fuel n d af o q = Val false -> exists x, N x /\ in_seg o x.
Proof.
  induction fuel as [|f IH]; intros n d af o q N T Hq HN H.
  - destruct q; discriminate.
  - destruct q as [|i t]; cbn [loop_check] in H; [discriminate|].
    destruct ((fst o <=? i) && (i <? send o)) eqn:Eo.
    { exists i; split; [apply Hq; left; auto | unfold in_seg, send in *; lia]. }
    destruct (negb ((0 <=? i) && (i <? n))) eqn:En; [discriminate|].
    destruct (Z.ltb_spec (af i) 0) as [Ha|Ha].
    + eapply IH; [exact T | | exact HN | exact H]. intros x Hx; apply Hq; right; exact Hx.
    + destruct (nth_error d (Z.to_nat (af i))) as [c|] eqn:Ec; [|discriminate].
      eapply IH; [exact T | | exact HN | exact H].
      intros x Hx; apply in_app_or in Hx as [Hx|Hx]; [apply Hq; right; exact Hx|].
      apply In_append in Hx. destruct T as [_ T2]. destruct (T2 i Ha) as (c' & Hc' & Hi).
      rewrite Ec in Hc'; injection Hc' as <-.
      eapply HN; [apply Hq; left; reflexivity | eapply nth_error_In; exact Ec | exact Hi | exact Hx].
Qed.

(** rank function: every output ranks above the inputs it is computed from *)
Definition ranked (l : list con) (rank : Z -> nat) : Prop :=
  forall c i j, In c l -> covers (c_out c) i -> covers (c_in c) j -> (rank j < rank i)%nat.

(** number of queue pops caused by one index *)
Definition ins_of (d : list con) (af : Z -> Z) (i : Z) : list Z :=
  if af i <? 0 then [] else
  match nth_error d (Z.to_nat (af i)) with Some c => append (c_in c) | None => [] end.
Fixpoint weight (d : list con) (af : Z -> Z) (n : nat) (i : Z) : nat :=
  match n with
  | O => 1%nat
  | S m => S (list_sum (map (weight d af m) (ins_of d af i)))
  end.
Lemma list_sum_map_ext {A} (f g : A -> nat) l : (forall x, In x l -> f x = g x) ->
  list_sum (map f l) = list_sum (map g l).
Proof. intros H; f_equal; apply map_ext_in; exact H. Qed.

Lemma weight_stable d af rank : tab c_out d af -> ranked d rank ->
  forall r i n m, (rank i <= r)%nat -> (rank i <= n)%nat -> (rank i <= m)%nat -> weight d af n i = weight d af m i.
Proof.
  intros T HR; induction r as [|r IH]; intros i n m Hr Hn Hm.
  - (* rank 0: no inputs *)
    assert (E : ins_of d af i = []).
    { unfold ins_of. destruct (Z.ltb_spec (af i) 0) as [|Ha]; [reflexivity|].
      destruct T as [_ T2]. destruct (T2 i Ha) as (c & Hc & Hi). rewrite Hc.
      destruct (append (c_in c)) as [|y l] eqn:E; [reflexivity|].
      assert (Hy : covers (c_in c) y) by (apply In_append; rewrite E; left; auto).
      pose proof (HR c i y (nth_error_In _ _ Hc) Hi Hy); lia. }
    destruct n, m; cbn [weight]; rewrite ?E; reflexivity.
  - assert (Hin : forall y, In y (ins_of d af i) -> (rank y < rank i)%nat).
    { intros y Hy; unfold ins_of in Hy. destruct (Z.ltb_spec (af i) 0) as [|Ha]; [destruct Hy|].
      destruct T as [_ T2]. destruct (T2 i Ha) as (c & Hc & Hi). rewrite Hc in Hy.
      apply (HR c i y (nth_error_In _ _ Hc) Hi). apply In_append; exact Hy. }
    assert (E0 : rank i = O -> ins_of d af i = []).
    { intros E0; destruct (ins_of d af i) as [|y l]; [reflexivity|]. specialize (Hin y (or_introl eq_refl)); lia. }
    destruct n as [|n], m as [|m]; cbn [weight]; auto.
    + rewrite E0 by lia; reflexivity.
    + rewrite E0 by lia; reflexivity.
    + f_equal; apply list_sum_map_ext; intros y Hy; specialize (Hin y Hy); apply IH; lia.
Qed.

Lemma weight_unfold d af rank i : tab c_out d af -> ranked d rank ->
  weight d af (rank i) i = S (list_sum (map (fun j => weight d af (rank j) j) (ins_of d af i))).
Proof.
  intros T HR.
  rewrite (weight_stable d af rank T HR (rank i) i (rank i) (S (rank i))) by lia.
  cbn [weight]; f_equal; apply list_sum_map_ext; intros y Hy.
  unfold ins_of in Hy. destruct (Z.ltb_spec (af i) 0) as [|Ha]; [destruct Hy|].
  destruct T as [T1 T2]. destruct (T2 i Ha) as (c & Hc & Hi). rewrite Hc in Hy.
  pose proof (HR c i y (nth_error_In _ _ Hc) Hi (proj1 (In_append _ _) Hy)).
  apply (weight_stable d af rank (conj T1 T2) HR (rank y)); lia.
Qed.

Lemma loop_check_total d af rank n o : tab c_out d af -> ranked d rank ->
  (forall c, In c d -> inside_ n (c_in c)) ->
  forall fuel q, (forall x, In x q -> 0 <= x < n) ->
  (list_sum (map (fun j => weight d af (rank j) j) q) <= fuel)%nat ->
  exists b, loop_check fuel n d af o q = Val b.
Proof.
  intros T HR HI; induction fuel as [|f IH]; intros q Hq Hf.
  - destruct q as [|i t]; [exists true; reflexivity|]. exfalso; cbn [map list_sum fold_right] in Hf.
    rewrite (weight_unfold d af rank i T HR) in Hf. lia.
  - destruct q as [|i t]; [exists true; reflexivity|]. cbn [loop_check].
    destruct ((fst o <=? i) && (i <? send o)); [exists false; reflexivity|].
    assert (Hi : 0 <= i < n) by (apply Hq; left; auto).
    replace (negb ((0 <=? i) && (i <? n))) with false by lia.
    change (list_sum (map (fun j => weight d af (rank j) j) (i :: t)))
      with (weight d af (rank i) i + list_sum (map (fun j => weight d af (rank j) j) t))%nat in Hf.
    rewrite (weight_unfold d af rank i T HR) in Hf. unfold ins_of in Hf.
    destruct (Z.ltb_spec (af i) 0) as [Ha|Ha].
    + apply IH; [intros x Hx; apply Hq; right; exact Hx | cbn in Hf; lia].
    + destruct T as [T1 T2]. destruct (T2 i Ha) as (c & Hc & Hci). rewrite Hc in *.
      apply IH.
      * intros x Hx; apply in_app_or in Hx as [Hx|Hx]; [apply Hq; right; exact Hx|].
        apply In_append in Hx. destruct Hx as (s & Hs & Hxs).
        specialize (HI c (nth_error_In _ _ Hc) s Hs). unfold in_seg in Hxs; lia.
      * rewrite map_app, list_sum_app; lia.
Qed.

Lemma loop_check_mono' fuel : forall n (d : list con) af o q x fuel',
  (fuel <= fuel')%nat -> loop_check fuel n d af o q = x -> x <> Fuel -> loop_check fuel' n d af o q = x.
Proof.
  induction fuel as [|f IH]; intros n d af o q x fuel' Hle H Hx.
  - destruct q; [destruct fuel'; exact H | cbn in H; congruence].
  - destruct fuel' as [|f']; [lia|]. destruct q as [|i t]; [exact H|]. cbn [loop_check] in *.
    destruct ((fst o <=? i) && (i <? send o)); [exact H|].
    destruct (negb ((0 <=? i) && (i <? n))); [exact H|].
    destruct (af i <? 0); [apply IH; [lia | exact H | exact Hx]|].
    destruct (nth_error d (Z.to_nat (af i))); [apply IH; [lia | exact H | exact Hx] | exact H].
Qed.
Lemma loop_check_mono fuel n (d : list con) af o q b fuel' :
  (fuel <= fuel')%nat -> loop_check fuel n d af o q = Val b -> loop_check fuel' n d af o q = Val b.
Proof. intros Hle H; eapply loop_check_mono'; [exact Hle | exact H | discriminate]. Qed.

(** new rank after an accepted addition *)
Lemma ranked_add l af rank c n o fuel :
  tab c_out l af -> ranked l rank -> c_out c = [o] ->
  loop_check fuel n l af o (append (c_in c)) = Val true ->
  exists rank', ranked (l ++ [c]) rank'.
Proof.
  intros T HR Ho HL. apply loop_check_true in HL as (vis & V1 & V2 & V3).
  set (M := S (list_max (map rank vis))).
  assert (HM : forall x, In x vis -> (rank x < M)%nat).
  { intros x Hx; subst M. pose proof (proj1 (list_max_le (map rank vis) _) (Nat.le_refl _)) as F.
    rewrite Forall_forall in F. specialize (F (rank x) (in_map rank vis x Hx)); lia. }
  exists (fun i => if in_dec Z.eq_dec i vis then rank i else (rank i + M)%nat).
  intros d i j Hd Hi Hj. apply in_app_or in Hd as [Hd|[<-|[]]].
  - pose proof (HR d i j Hd Hi Hj) as Hlt.
    destruct (in_dec Z.eq_dec i vis) as [Iv|Iv]; destruct (in_dec Z.eq_dec j vis) as [Jv|Jv]; try lia.
    exfalso; apply Jv. destruct T as [T1 T2].
    apply In_nth_error in Hd as [k Hk]. pose proof (T1 _ _ _ Hk Hi) as E.
    eapply (V3 i d j); [exact Iv | lia | rewrite E, Nat2Z.id; exact Hk | exact Hj].
  - rewrite Ho in Hi; apply covers_single in Hi.
    assert (Jv : In j vis) by (apply V1, In_append; exact Hj).
    destruct (in_dec Z.eq_dec i vis) as [Iv|Iv]; [destruct (V2 i Iv); contradiction|].
    destruct (in_dec Z.eq_dec j vis) as [_|X]; [|contradiction]. specialize (HM j Jv); lia.
Qed.

Lemma loop_check_needs l af c n o fuel :
  tab c_out l af ->
  loop_check fuel n l af o (append (c_in c)) = Val true ->
  forall x, needs l c x -> ~ in_seg o x.
Proof.
  intros T HL. apply loop_check_true in HL as (vis & V1 & V2 & V3).
  intros x Hx; apply V2. induction Hx as [i Hi | i j d Hj IH Hd Hdj Hdi].
  - apply V1, In_append; exact Hi.
  - destruct T as [T1 T2]. apply In_nth_error in Hd as [k Hk]. pose proof (T1 _ _ _ Hk Hdj) as E.
    eapply (V3 j d i); [exact IH | lia | rewrite E, Nat2Z.id; exact Hk | exact Hdi].
Qed.

Lemma ranked_needs l rank c : ranked l rank -> In c l ->
  forall i j, covers (c_out c) i -> needs l c j -> (rank j < rank i)%nat.
Proof.
  intros HR Hc i j Hi Hj. induction Hj as [j Hj | j k d Hk IH Hd Hdk Hdj].
  - eapply HR; eauto.
  - pose proof (HR d k j Hd Hdk Hdj); lia.
Qed.
End Proofs.
