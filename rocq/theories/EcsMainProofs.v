(** The invariant of explicit constraint sets. *)
From Coq Require Import ZArith List Bool Lia ZifyBool Permutation.
From Verif Require Import SegModel SegSpec SegProofs ViewModel ViewProofs EcsModel EcsSpec EcsProofs EcsOrderProofs.
Import ListNotations.
Open Scope Z_scope.

Section Main.
Context {V Rh : Type}.
Notation con := (con V Rh).
Notation ecs := (ecs V Rh).
Variable iadd : Z -> Z -> Z.

(** fuel monotonicity *)
Section Mono.
Variables (m : Z) (d : list con) (df : Z -> Z).
Lemma order_inputs_mono rec rec' iE : (forall r s x, rec r s = x -> x <> Fuel -> rec' r s = x) ->
  forall l s x, order_inputs iadd m d df rec iE l s = x -> x <> Fuel -> order_inputs iadd m d df rec' iE l s = x.
Proof.
  intros Hr; induction l as [|y l IH]; intros s x H Hx; cbn [order_inputs] in *; [exact H|].
  destruct (negb ((0 <=? y) && (y <? m))); [exact H|].
  destruct (df y <? 0); [apply IH; assumption|].
  destruct (negb (Nat.ltb (Z.to_nat (df y)) (length d))); [exact H|].
  destruct (rec (Z.to_nat (df y)) s) as [s1| |] eqn:E.
  - rewrite (Hr _ _ _ E) by discriminate. apply IH; assumption.
  - rewrite (Hr _ _ _ E) by discriminate. exact H.
  - congruence.
Qed.
Lemma compute_order_mono f : forall f' r s x, (f <= f')%nat ->
  compute_order iadd m d df f r s = x -> x <> Fuel -> compute_order iadd m d df f' r s = x.
Proof.
  induction f as [|f IH]; intros f' r s x Hle H Hx.
  - cbn [compute_order] in H. destruct f'; cbn [compute_order]; destruct (d_comp s r); try congruence; exact H.
  - destruct f' as [|f']; [lia|]. cbn [compute_order] in *. destruct (d_comp s r); [exact H|].
    destruct (nth_error d r) as [c|]; [|exact H].
    assert (HM : forall r s x, compute_order iadd m d df f r s = x -> x <> Fuel -> compute_order iadd m d df f' r s = x)
      by (intros r0 s0 x0; apply IH; lia).
    destruct (order_inputs iadd m d df (compute_order iadd m d df f) r (append (c_inv c)) s) as [s1| |] eqn:E.
    + rewrite (order_inputs_mono _ _ r HM _ _ _ E) by discriminate. exact H.
    + rewrite (order_inputs_mono _ _ r HM _ _ _ E) by discriminate. exact H.
    + congruence.
Qed.
Lemma order_all_mono f f' : (f <= f')%nat -> forall l s x,
  order_all iadd m d df f l s = x -> x <> Fuel -> order_all iadd m d df f' l s = x.
Proof.
  intros Hle; induction l as [|r l IH]; intros s x H Hx; cbn [order_all] in *; [exact H|].
  destruct (compute_order iadd m d df f r s) as [s1| |] eqn:E.
  - rewrite (compute_order_mono f f' r s _ Hle E) by discriminate. apply IH; assumption.
  - rewrite (compute_order_mono f f' r s _ Hle E) by discriminate. exact H.
  - congruence.
Qed.
End Mono.

Record inv (P : con -> Prop) (n m : Z) (st : ecs) : Prop := {
  i_nq : nq st = n; i_nv : nv st = m;
  i_P : forall c, In c (data st) -> P c;
  i_arg : tab c_out (data st) (argF st);
  i_der : tab c_outv (data st) (derF st);
  i_rank : exists rank, ranked (data st) rank;
  i_rhs : length (rhsl st) = length (data st);
  i_out : forall i, covers (outArgs st) i <-> output (data st) i;
  i_outn : nonneg (outArgs st) /\ sorted_separated (outArgs st);
  i_not : forall i, covers (notOutArgs st) i <-> 0 <= i < n /\ ~ output (data st) i;
  i_notn : nonneg (notOutArgs st) /\ sorted_separated (notOutArgs st);
  i_in : forall i, covers (inArgs st) i <-> input (data st) i /\ ~ output (data st) i;
  i_inn : nonneg (inArgs st) /\ sorted_separated (inArgs st);
  i_outv : forall i, covers (outDers st) i <-> outputv (data st) i;
  i_outvn : nonneg (outDers st) /\ sorted_separated (outDers st);
  i_notv : forall i, covers (notOutDers st) i <-> 0 <= i < m /\ ~ outputv (data st) i;
  i_notvn : nonneg (notOutDers st) /\ sorted_separated (notOutDers st);
  i_inv : forall i, covers (inDers st) i <-> inputv (data st) i /\ ~ outputv (data st) i;
  i_invn : nonneg (inDers st) /\ sorted_separated (inDers st);
  i_perm : Permutation (order st) (seq 0 (length (data st)));
  i_topo : topo (data st) (derF st) (order st);
  i_deps : exact_add iadd -> forall k j, (k < length (data st))%nat ->
     0 <= deps st k j /\ (0 < deps st k j <-> dep (data st) (derF st) k j) }.

Lemma nonneg_single s : 0 <= snd s -> nonneg [s].
Proof. intros H; apply nonneg_cons; split; [exact H | intros x []]. Qed.

Lemma inv_init P n m : 0 <= n -> 0 <= m -> inv P n m (init n m).
Proof.
  intros Hn Hm; constructor; cbn; auto.
  - intros c [].
  - split; [intros [|k] c i H; discriminate | intros i H; lia].
  - split; [intros [|k] c i H; discriminate | intros i H; lia].
  - exists (fun _ => O); intros c i j [].
  - intros i; split; [intros H; destruct (covers_nil _ H) | intros (c & [] & _)].
  - split; [intros s [] | exact I].
  - intros i; rewrite covers_single; unfold in_seg; cbn. split; [intros H; split; [lia | intros (c & [] & _)] | lia].
  - split; [apply nonneg_single; exact Hn | cbn; tauto].
  - intros i; split; [intros H; destruct (covers_nil _ H) | intros [(c & [] & _) _]].
  - split; [intros s [] | exact I].
  - intros i; split; [intros H; destruct (covers_nil _ H) | intros (c & [] & _)].
  - split; [intros s [] | exact I].
  - intros i; rewrite covers_single; unfold in_seg; cbn. split; [intros H; split; [lia | intros (c & [] & _)] | lia].
  - split; [apply nonneg_single; exact Hm | cbn; tauto].
  - intros i; split; [intros H; destruct (covers_nil _ H) | intros [(c & [] & _) _]].
  - split; [intros s [] | exact I].
  - intros l1 k l2 E; destruct l1; discriminate.
  - intros _ k j H; lia.
Qed.

(** function rank derived from a variable rank *)
Definition frank (l : list con) (rank : Z -> nat) (k : nat) : nat :=
  match nth_error l k with
  | Some c => list_max (map (fun i => S (rank i)) (append (c_in c)))
  | None => O
  end.

Lemma list_max_In l x : In x l -> (x <= list_max l)%nat.
Proof.
  intros H. pose proof (proj1 (list_max_le l _) (Nat.le_refl _)) as F.
  rewrite Forall_forall in F; auto.
Qed.
Lemma list_max_lub l b : (forall x, In x l -> (x <= b)%nat) -> (list_max l <= b)%nat.
Proof. intros H; apply list_max_le, Forall_forall; exact H. Qed.

Lemma frank_spec l df rank : tab c_outv l df -> ranked l rank ->
  (forall c d, In c l -> In d l -> meet (c_inv c) (c_outv d) -> meet (c_in c) (c_out d)) ->
  forall k c j, nth_error l k = Some c -> covers (c_inv c) j -> 0 <= df j ->
  (frank l rank (Z.to_nat (df j)) < frank l rank k)%nat.
Proof.
  intros T HR HC k c j Hk Hj Hdj. destruct (proj2 T j Hdj) as (d & Hd & Hdj2).
  destruct (HC c d (nth_error_In _ _ Hk) (nth_error_In _ _ Hd)) as (i & Hi1 & Hi2); [exists j; auto|].
  unfold frank. rewrite Hk, Hd.
  assert (H1 : (S (rank i) <= list_max (map (fun i => S (rank i)) (append (c_in c))))%nat).
  { apply list_max_In. apply in_map_iff; exists i; split; [reflexivity | apply In_append; exact Hi1]. }
  assert (H2 : (list_max (map (fun i => S (rank i)) (append (c_in d))) <= rank i)%nat).
  { apply list_max_lub. intros x Hx; apply in_map_iff in Hx as (y & <- & Hy). apply In_append in Hy.
    exact (HR d i y (nth_error_In _ _ Hd) Hi2 Hy). }
  lia.
Qed.

Lemma output_snoc (l : list con) c i : output (l ++ [c]) i <-> output l i \/ covers (c_out c) i.
Proof.
  unfold output; split.
  - intros (d & Hd & Hi). apply in_app_or in Hd as [Hd|[<-|[]]]; [left; exists d; auto | auto].
  - intros [(d & Hd & Hi)|Hi]; [exists d | exists c]; split; auto; apply in_or_app; cbn; auto.
Qed.
Lemma outputv_snoc (l : list con) c i : outputv (l ++ [c]) i <-> outputv l i \/ covers (c_outv c) i.
Proof.
  unfold outputv; split.
  - intros (d & Hd & Hi). apply in_app_or in Hd as [Hd|[<-|[]]]; [left; exists d; auto | auto].
  - intros [(d & Hd & Hi)|Hi]; [exists d | exists c]; split; auto; apply in_or_app; cbn; auto.
Qed.
Lemma input_snoc (l : list con) c i : input (l ++ [c]) i <-> input l i \/ covers (c_in c) i.
Proof.
  unfold input; split.
  - intros (d & Hd & Hi). apply in_app_or in Hd as [Hd|[<-|[]]]; [left; exists d; auto | auto].
  - intros [(d & Hd & Hi)|Hi]; [exists d | exists c]; split; auto; apply in_or_app; cbn; auto.
Qed.
Lemma inputv_snoc (l : list con) c i : inputv (l ++ [c]) i <-> inputv l i \/ covers (c_inv c) i.
Proof.
  unfold inputv; split.
  - intros (d & Hd & Hi). apply in_app_or in Hd as [Hd|[<-|[]]]; [left; exists d; auto | auto].
  - intros [(d & Hd & Hi)|Hi]; [exists d | exists c]; split; auto; apply in_or_app; cbn; auto.
Qed.

Lemma covers_dec l i : covers l i \/ ~ covers l i.
Proof.
  destruct (in_dec Z.eq_dec i (indices l)) as [H|H]; [left | right; intros X; apply H]; apply In_indices; auto.
Qed.
Lemma output_dec (l : list con) i : output l i \/ ~ output l i.
Proof.
  induction l as [|c l IH].
  - right; intros (c & [] & _).
  - destruct (covers_dec (c_out c) i) as [H|H]; [left; exists c; split; [left; auto | exact H]|].
    destruct IH as [(d & Hd & Hi)|IH]; [left; exists d; split; [right; auto | exact Hi]|].
    right; intros (d & [<-|Hd] & Hi); [contradiction|]. apply IH; exists d; auto.
Qed.
Lemma outputv_dec (l : list con) i : outputv l i \/ ~ outputv l i.
Proof.
  induction l as [|c l IH].
  - right; intros (c & [] & _).
  - destruct (covers_dec (c_outv c) i) as [H|H]; [left; exists c; split; [left; auto | exact H]|].
    destruct IH as [(d & Hd & Hi)|IH]; [left; exists d; split; [right; auto | exact Hi]|].
    right; intros (d & [<-|Hd] & Hi); [contradiction|]. apply IH; exists d; auto.
Qed.

(** the four index set updates *)
Lemma sets_update (P : con -> Prop) n (l : list con) ins outs cin co o (out inp : list con -> Z -> Prop) c :
  0 <= n -> inside_ n cin -> lex_sorted cin -> co = [o] -> inside_ n co ->
  (forall i, covers outs i <-> out l i) -> nonneg outs -> sorted_separated outs ->
  (forall i, covers ins i <-> inp l i /\ ~ out l i) -> nonneg ins -> sorted_separated ins ->
  (forall i, out (l ++ [c]) i <-> out l i \/ covers co i) ->
  (forall i, inp (l ++ [c]) i <-> inp l i \/ covers cin i) ->
  (forall i, out l i \/ ~ out l i) ->
  exists no inz, diff_sl (0, n) (upd_out outs o) = Some no /\
    upd_in ins cin (upd_out outs o) = Some inz /\
    (forall i, covers (upd_out outs o) i <-> out (l ++ [c]) i) /\
    nonneg (upd_out outs o) /\ sorted_separated (upd_out outs o) /\
    (forall i, covers no i <-> 0 <= i < n /\ ~ out (l ++ [c]) i) /\ nonneg no /\ sorted_separated no /\
    (forall i, covers inz i <-> inp (l ++ [c]) i /\ ~ out (l ++ [c]) i) /\ nonneg inz /\ sorted_separated inz.
Proof.
  intros Hn Hcin Hlex -> Hco O1 O2 O3 I1 I2 I3 So Si Od.
  assert (Ho : 0 <= snd o) by (apply (Hco o); left; auto).
  destruct (upd_out_spec outs o O2 Ho) as (U1 & U2 & U3).
  destruct (diff_sl_spec (0, n) (upd_out outs o) Hn U2) as (no & N1 & N2 & N3 & N4 & _).
  assert (Hnc : nonneg cin) by (intros s Hs; apply (Hcin s Hs)).
  destruct (upd_in_spec ins cin (upd_out outs o) I2 I3 Hnc Hlex U2) as (inz & Z1 & Z2 & Z3 & Z4).
  assert (E : forall i, covers (upd_out outs o) i <-> out (l ++ [c]) i).
  { intros i; rewrite U1, So, O1, covers_single; tauto. }
  exists no, inz. split; [exact N1|]. split; [exact Z1|]. split; [exact E|]. split; [exact U2|]. split; [exact U3|].
  split; [|split; [exact N4|split; [exact N3|split; [|split; [exact Z3 | exact Z4]]]]].
  - intros i; rewrite N2, E. unfold in_seg; cbn [fst snd]. split; intros [H1 H2]; (split; [lia | exact H2]).
  - intros i; rewrite Z2, E, Si, I1, So. destruct (Od i); tauto.
Qed.

Lemma add_big P n m st c : family n m P -> inv P n m st -> P c ->
  exists fuel0, forall fuel, (fuel0 <= fuel)%nat ->
  (acceptable (data st) c /\ exists st', add iadd fuel st c = (st', Added (length (data st))) /\
     inv P n m st' /\ data st' = data st ++ [c] /\ rhsl st' = rhsl st ++ [c_rhs0 c]) \/
  (~ acceptable (data st) c /\
    (add iadd fuel st c = (st, Refused) \/ add iadd fuel st c = (st, Thrown))).
Proof.
  intros (Hn & Hm & HW & HC) I Pc.
  destruct (HW c Pc) as ((o & Ho) & (ov & Hov) & W1 & W2 & W3 & W4 & W5 & W6).
  pose proof (i_rank _ _ _ _ I) as [rank HR].
  assert (Hso : 0 <= fst o /\ 0 <= snd o /\ fst o + snd o <= n) by (apply W2; rewrite Ho; left; auto).
  assert (Hsov : 0 <= fst ov /\ 0 <= snd ov /\ fst ov + snd ov <= m) by (apply W4; rewrite Hov; left; auto).
  set (q := append (c_in c)).
  assert (Hq : forall x, In x q -> 0 <= x < n).
  { intros x Hx; apply In_append in Hx as (s & Hs & Hxs). specialize (W1 s Hs); unfold in_seg in Hxs; lia. }
  assert (Hins : forall d, In d (data st) -> inside_ n (c_in d)).
  { intros d Hd; apply (HW d (i_P _ _ _ _ I d Hd)). }
  set (w := list_sum (map (fun j => weight (data st) (argF st) (rank j) j) q)).
  pose proof (loop_check_total (data st) (argF st) rank n o (i_arg _ _ _ _ I) HR Hins) as LT.
  (* fuel for the order: needs the new rank, whose existence depends on the loop check *)
  destruct (LT w q Hq (Nat.le_refl _)) as [b Hb].
  assert (HbF : forall fuel, (w <= fuel)%nat -> loop_check fuel n (data st) (argF st) o q = Val b).
  { intros fuel Hle; eapply loop_check_mono; [exact Hle | exact Hb]. }
  (* overlap *)
  destruct (existsb (fun s => overlap s o) (c_in c)) eqn:Eov.
  { exists O; intros fuel _. right. split; [|right; unfold add; rewrite Ho, Hov, Eov; reflexivity].
    intros (_ & _ & A3). apply existsb_exists in Eov as (s & Hs & Hsx).
    apply overlap_spec in Hsx as ((i & Hi1 & Hi2) & _); [|apply (W1 s Hs) | lia].
    apply (A3 i); [rewrite Ho; apply covers_single; exact Hi2|].
    apply needs_direct; exists s; auto. }
  destruct (existsb bad_cmp (c_cmp c)) eqn:Ebad.
  { exists O; intros fuel _. right. split; [|left; unfold add; rewrite Ho, Hov, Eov, Ebad; reflexivity].
    intros (A1 & _). apply existsb_exists in Ebad as (t & Ht & Hbt).
    destruct (A1 t Ht) as [->| ->]; discriminate. }
  assert (Hacc : accepts c).
  { intros t Ht. destruct (bad_cmp t) eqn:Et.
    - assert (X : existsb bad_cmp (c_cmp c) = true) by (apply existsb_exists; exists t; auto). congruence.
    - destruct t; cbn in Et; auto; discriminate. }
  assert (Hinb : negb (seg_inb (nq st) o) = false) by (rewrite (i_nq _ _ _ _ I); unfold seg_inb, send; lia).
  destruct (existsb (fun x => 0 <=? x) (vread (argF st) [o])) eqn:Eout.
  { exists O; intros fuel _. right. split; [|left; unfold add; rewrite Ho, Hov, Eov, Ebad, Hinb, Eout; reflexivity].
    intros (_ & A2 & _). apply existsb_exists in Eout as (x & Hx & Hx0).
    rewrite vread_indices in Hx. apply in_map_iff in Hx as (i & <- & Hi). apply In_indices in Hi.
    apply (A2 i); [rewrite Ho; exact Hi|].
    destruct (proj2 (i_arg _ _ _ _ I) i ltac:(lia)) as (d & Hd & Hdi).
    exists d; split; [eapply nth_error_In; exact Hd | exact Hdi]. }
  assert (Hfree : forall i, in_seg o i -> argF st i < 0).
  { intros i Hi. destruct (Z.lt_ge_cases (argF st i) 0) as [|G]; [assumption|].
    assert (X : existsb (fun x => 0 <=? x) (vread (argF st) [o]) = true); [|congruence].
    apply existsb_exists; exists (argF st i); split; [|lia].
    rewrite vread_indices; apply in_map. apply In_indices, covers_single; exact Hi. }
  assert (Hdis : forall i, covers (c_out c) i -> ~ output (data st) i).
  { intros i Hi. rewrite Ho in Hi; apply covers_single in Hi.
    apply (tab_neg c_out _ (argF st)); [apply I | apply Hfree; exact Hi]. }
  destruct b.
  2:{ exists w; intros fuel Hle. right. split.
      - intros (_ & _ & A3).
        destruct (loop_check_false w n (data st) (argF st) o q (needs (data st) c)) as (x & Hx1 & Hx2); auto.
        + apply I.
        + intros x Hx; apply needs_direct, In_append; exact Hx.
        + intros x d y Hx Hd Hdx Hdy; exact (needs_trans _ _ y x d Hx Hd Hdx Hdy).
        + apply (A3 x); [rewrite Ho; apply covers_single; exact Hx2 | exact Hx1].
      - left; unfold add; rewrite Ho, Hov, Eov, Ebad, Hinb, Eout, (i_nq _ _ _ _ I).
        fold q. rewrite HbF by exact Hle. reflexivity. }
  (* accepted *)
  assert (Hneeds : forall i, covers (c_out c) i -> ~ needs (data st) c i).
  { intros i Hi Hni. rewrite Ho in Hi; apply covers_single in Hi. revert Hi.
    eapply loop_check_needs; [apply I | exact Hb | exact Hni]. }
  destruct (ranked_add (data st) (argF st) rank c n o w) as (rank' & HR'); auto.
  { apply I. }
  set (dat := data st ++ [c]).
  assert (PD : forall d, In d dat -> P d).
  { intros d Hd; apply in_app_or in Hd as [Hd|[<-|[]]]; [apply I; exact Hd | exact Pc]. }
  assert (Hfreev : forall i, in_seg ov i -> derF st i < 0).
  { intros i Hi. destruct (Z.lt_ge_cases (derF st i) 0) as [|G]; [assumption|]. exfalso.
    destruct (proj2 (i_der _ _ _ _ I) i G) as (d & Hd & Hdi).
    assert (Pd : P d) by (apply I; eapply nth_error_In; exact Hd).
    destruct (HC c d Pc Pd) as [_ HC2].
    destruct HC2 as (x & Hx1 & Hx2); [exists i; split; [rewrite Hov; apply covers_single; exact Hi | exact Hdi]|].
    apply (Hdis x Hx1). exists d; split; [eapply nth_error_In; exact Hd | exact Hx2]. }
  assert (TA : tab c_out dat (fill (argF st) o (Z.of_nat (length (data st))))) by (apply tab_add; auto; apply I).
  assert (TD : tab c_outv dat (fill (derF st) ov (Z.of_nat (length (data st))))) by (apply tab_add; auto; apply I).
  assert (HCd : forall a b, In a dat -> In b dat -> meet (c_inv a) (c_outv b) -> meet (c_in a) (c_out b)).
  { intros a b Ha Hb2. apply (HC a b); auto. }
  pose proof (frank_spec dat _ rank' TD HR' HCd) as HFR.
  assert (HBD : forall d, In d dat -> inside_ m (c_inv d)) by (intros d Hd; apply (HW d (PD d Hd))).
  destruct (sets_update P n (data st) (inArgs st) (outArgs st) (c_in c) (c_out c) o output input c)
    as (no & inz & S1 & S2 & S3 & S4 & S5 & S6 & S7 & S8 & S9 & S10 & S11); auto; try apply I.
  { intros i; apply output_snoc. } { intros i; apply input_snoc. } { intros i; apply output_dec. }
  destruct (sets_update P m (data st) (inDers st) (outDers st) (c_inv c) (c_outv c) ov outputv inputv c)
    as (nod & ind & D1 & D2 & D3 & D4 & D5 & D6 & D7 & D8 & D9 & D10 & D11); auto; try apply I.
  { intros i; apply outputv_snoc. } { intros i; apply inputv_snoc. } { intros i; apply outputv_dec. }
  set (F := S (list_max (map (frank dat rank') (seq 0 (length dat))))).
  exists (Nat.max w F); intros fuel Hle. left. split; [split; [exact Hacc | split; [exact Hdis | exact Hneeds]]|].
  destruct (order_all_init iadd m dat _ TD (frank dat rank') HFR HBD fuel) as (s & E1 & E2 & E3 & E4).
  { intros k Hk.
    assert (Hin : In (frank dat rank' k) (map (frank dat rank') (seq 0 (length dat)))) by (apply in_map, in_seq; lia).
    apply list_max_In in Hin. lia. }
  eexists. split.
  { unfold add. rewrite Ho, Hov, Eov, Ebad, Hinb, Eout, (i_nq _ _ _ _ I), (i_nv _ _ _ _ I).
    fold q. rewrite HbF by lia. replace (negb (seg_inb m ov)) with false by (unfold seg_inb, send; lia).
    fold dat. rewrite S1, S2, D1, D2, E1. reflexivity. }
  split; [|split; reflexivity].
  constructor; cbn; auto.
  - exists rank'; exact HR'.
  - unfold dat; rewrite !app_length, (i_rhs _ _ _ _ I); reflexivity.
Qed.

Lemma add_mono (st : ecs) c fuel fuel' st' r : (fuel <= fuel')%nat ->
  add iadd fuel st c = (st', r) -> r <> NoFuel -> add iadd fuel' st c = (st', r).
Proof.
  intros Hle H Hr. unfold add in *.
  destruct (c_out c) as [|o [|]]; try exact H.
  destruct (c_outv c) as [|ov [|]]; try exact H.
  destruct (existsb (fun s => overlap s o) (c_in c)); [exact H|].
  destruct (existsb bad_cmp (c_cmp c)); [exact H|].
  destruct (negb (seg_inb (nq st) o)); [exact H|].
  destruct (existsb (fun x => 0 <=? x) (vread (argF st) [o])); [exact H|].
  destruct (loop_check fuel (nq st) (data st) (argF st) o (append (c_in c))) as [b| |] eqn:E.
  - rewrite (loop_check_mono' fuel _ _ _ _ _ _ fuel' Hle E) by discriminate. destruct b; [|exact H].
    destruct (negb (seg_inb (nv st) ov)); [exact H|].
    destruct (diff_sl (0, nq st) (upd_out (outArgs st) o)); [|exact H].
    destruct (upd_in (inArgs st) (c_in c) (upd_out (outArgs st) o)); [|exact H].
    destruct (diff_sl (0, nv st) (upd_out (outDers st) ov)); [|exact H].
    destruct (upd_in (inDers st) (c_inv c) (upd_out (outDers st) ov)); [|exact H].
    match type of H with (match ?X with _ => _ end) = _ => destruct X as [s| |] eqn:EO end.
    + rewrite (order_all_mono _ _ _ _ _ Hle _ _ _ EO) by discriminate. exact H.
    + rewrite (order_all_mono _ _ _ _ _ Hle _ _ _ EO) by discriminate. exact H.
    + injection H as <- <-; contradiction.
  - rewrite (loop_check_mono' fuel _ _ _ _ _ _ fuel' Hle E) by discriminate. exact H.
  - injection H as <- <-; contradiction.
Qed.

Lemma add_any P n m st c fuel st' r : family n m P -> inv P n m st -> P c ->
  add iadd fuel st c = (st', r) ->
  (r = Added (length (data st)) /\ acceptable (data st) c /\ inv P n m st' /\
     data st' = data st ++ [c] /\ rhsl st' = rhsl st ++ [c_rhs0 c]) \/
  ((r = Refused \/ r = Thrown) /\ st' = st /\ ~ acceptable (data st) c) \/
  (r = NoFuel /\ st' = st).
Proof.
  intros HFam I Pc H.
  destruct (add_big P n m st c HFam I Pc) as (fuel0 & HB).
  specialize (HB (Nat.max fuel fuel0) ltac:(lia)).
  assert (Hd : r = NoFuel \/ r <> NoFuel) by (destruct r; auto; right; discriminate).
  destruct Hd as [->|Hd].
  { right; right; split; [reflexivity|]. unfold add in H.
    repeat match type of H with
    | (match ?X with _ => _ end) = _ => destruct X; try (injection H as H; symmetry; exact H); try discriminate
    end. }
  pose proof (add_mono st c fuel (Nat.max fuel fuel0) st' r ltac:(lia) H Hd) as E.
  destruct HB as [(A & st2 & B1 & B2 & B3 & B4)|(A & [B|B])]; rewrite E in *.
  - injection B1 as -> ->. left; auto.
  - injection B as -> ->. right; left; auto.
  - injection B as -> ->. right; left; auto.
Qed.

Lemma reach_inv P n m st : family n m P -> reach iadd P n m st -> inv P n m st.
Proof.
  intros HFam H; induction H as [|st c fuel st' r Hst IH Pc Hadd].
  - destruct HFam as (Hn & Hm & _). apply inv_init; auto.
  - destruct (add_any P n m st c fuel st' r HFam IH Pc Hadd) as [(_ & _ & I & _)|[(_ & -> & _)|(_ & ->)]]; auto.
Qed.
End Main.
