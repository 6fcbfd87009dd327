From Coq Require Import ZArith List Bool Lia.
From Verif Require Import ViewModel FunModel FunSpec SegSpec FunProofs.
Import ListNotations.
Local Open Scope Z_scope.

Lemma nth_repeat_lt n i : (i < n)%nat -> nth i (repeat true n) false = true.
Proof. revert i. induction n; intros [|i] H; cbn; auto; try lia. apply IHn. lia. Qed.

Section D.
Context {A : Type}.
Variables (sub : list A -> list A -> list A) (neg : A -> A).
Implicit Types (f g : fn A) (m : mat A).

Definition apart (s t : Z * Z) : Prop := fst s + snd s <= fst t \/ fst t + snd t <= fst s.

Lemma difference_spec g nargs nders la ld ra rd x m :
  wf_fn g -> snd la = f_in g -> snd ra = f_in g -> snd ld = f_ind g -> snd rd = f_ind g ->
  fits la nargs -> fits ra nargs -> fits ld nders -> fits rd nders -> apart ld rd ->
  length x = Z.to_nat nargs -> nr m = f_outd g -> nc m = nders ->
  let f := difference_fn sub neg g nargs nders la ld ra rd in
  f_val f x = sub (f_val g (segment la x)) (f_val g (segment ra x)) /\
  exists m' bl br bl' br', f_jac f x m = Some m' /\ nr m' = nr m /\ nc m' = nc m /\
    col_block m (fst ld) (snd ld) bl /\ f_jac g (segment la x) bl = Some bl' /\ col_block m' (fst ld) (snd ld) bl' /\
    col_block m (fst rd) (snd rd) br /\ f_jac g (segment ra x) br = Some br' /\
    (forall i j, 0 <= i < nr m -> 0 <= j < snd rd -> at_ m' i (fst rd + j) = neg (at_ br' i j)) /\
    forall i j, ~ (fst ld <= j < fst ld + snd ld) -> ~ (fst rd <= j < fst rd + snd rd) -> at_ m' i j = at_ m i j.
Proof.
  intros W El Er Edl Edr Fl Fr Fdl Fdr Ap Lx Hr Hc. cbv zeta. split; [reflexivity|]. cbn [f_jac difference_fn].
  assert (No : 0 <= nr m) by (destruct W as (?&?&?&?&?); lia).
  assert (LL : length (segment la x) = Z.to_nat (f_in g)).
  { rewrite segment_length; try apply Fl; [congruence|]. destruct Fl as (? & ? & ?). lia. }
  assert (LR : length (segment ra x) = Z.to_nat (f_in g)).
  { rewrite segment_length; try apply Fr; [congruence|]. destruct Fr as (? & ? & ?). lia. }
  destruct (jacobian_some g (segment la x) (cols_of (fst ld) (snd ld) m) LL W) as (bl' & Ej & Ej' & B1 & B2); cbn; try congruence.
  destruct (on_cols (fst ld) (snd ld) (jacobian g (segment la x)) m) as [m1|] eqn:E1.
  2: { exfalso. revert E1. apply on_cols_some; try apply Fdl; [lia|destruct Fdl; lia|congruence]. }
  apply on_cols_spec in E1 as (_ & _ & _ & Nr & Nc & bo & Eb & In1 & Out1).
  assert (bo = bl') by congruence. subst bo.
  destruct (jacobian_some g (segment ra x) (cols_of (fst rd) (snd rd) m1) LR W) as (b1 & Ek & Ek' & C1 & C2); cbn; try congruence.
  destruct (on_cols (fst rd) (snd rd) (jacobian g (segment ra x)) m1) as [m2|] eqn:E2.
  2: { exfalso. revert E2. apply on_cols_some; try apply Fdr; [lia|destruct Fdr; lia|congruence]. }
  apply on_cols_spec in E2 as (_ & _ & _ & Nr2 & Nc2 & bo & Eb2 & In2 & Out2).
  assert (bo = b1) by congruence. subst bo.
  destruct (jacobian_some g (segment ra x) (cols_of (fst rd) (snd rd) m) LR W) as (br' & _ & Er' & D1 & D2); cbn; try congruence.
  set (opp := fun b : mat A => Some (mkmat (nr b) (nc b) (fun i j => neg (at_ b i j)))).
  destruct (on_cols (fst rd) (snd rd) opp m2) as [m3|] eqn:E3.
  2: { exfalso. revert E3. apply on_cols_some; try apply Fdr; [lia|destruct Fdr as (?&?&?); lia|discriminate]. }
  apply on_cols_spec in E3 as (_ & _ & _ & Nr3 & Nc3 & bo & Eb3 & In3 & Out3). injection Eb3 as <-. cbn [at_ cols_of] in In3.
  assert (SM : same b1 br').
  { destruct W as (_ & _ & _ & _ & _ & _ & _ & _ & EX). eapply (EX (segment ra x)); [exact LR| | | |exact Ek'|exact Er']; cbn; try congruence.
    split; [cbn; congruence|]. split; [reflexivity|]. intros i j (Hi & Hj). cbn in *. apply Out1. unfold apart in Ap. lia. }
  exists m3, (cols_of (fst ld) (snd ld) m), (cols_of (fst rd) (snd rd) m), bl', br'.
  split; [reflexivity|]. split; [congruence|]. split; [congruence|].
  split; [repeat split|]. split; [exact Ej'|].
  split; [split; [cbn in B1; congruence|split; [cbn in B2; congruence|]]|].
  { intros i j Hi Hj. rewrite Out3, Out2 by (unfold apart in Ap; lia). symmetry. auto. }
  split; [repeat split|]. split; [exact Er'|]. split.
  - intros i j Hi Hj. rewrite In3, In2 by lia. f_equal. destruct SM as (_ & _ & SM). apply SM. split; [rewrite C1; cbn; lia|rewrite C2; cbn; lia].
  - intros i j H1 H2. rewrite Out3, Out2, Out1; auto.
Qed.

Lemma difference_active g nargs nders la ld ra rd i :
  wf_fn g -> snd la = f_in g -> snd ra = f_in g -> snd ld = f_ind g -> snd rd = f_ind g ->
  fits la nargs -> fits ra nargs -> fits ld nders -> fits rd nders -> apart la ra -> apart ld rd ->
  let f := difference_fn sub neg g nargs nders la ld ra rd in
  let shifted (s : Z * Z) (fl : list bool) := fst s <= Z.of_nat i < fst s + snd s /\ nth (i - Z.to_nat (fst s)) fl false = true in
  (nth i (f_act f) false = true <-> shifted la (f_act g) \/ shifted ra (f_act g)) /\
  (nth i (f_actd f) false = true <-> shifted ld (f_actd g) \/ shifted rd (f_actd g)).
Proof.
  intros (W0 & W1 & W2 & W3 & W4 & W5 & _) E1 E2 E3 E4 (F1 & F2 & F3) (F4 & F5 & F6) (F7 & F8 & F9) (F10 & F11 & F12) A1 A2.
  unfold apart in *. cbv zeta. cbn [f_act f_actd difference_fn].
  assert (L : forall s v (l : list bool), 0 <= fst s -> (Z.to_nat (fst s) + length v <= length l)%nat -> length (bseg_write s v l) = length l).
  { intros s v l H H'. unfold bseg_write. rewrite !app_length, firstn_length, skipn_length. lia. }
  rewrite !nth_bseg_write, !nth_repeat_false by (rewrite ?L, ?repeat_length; rewrite ?repeat_length; lia). rewrite W4, W5. rewrite <- E1 at 2. rewrite <- E3 at 2. rewrite <- E2, <- E4. split.
  - destruct (Nat.leb_spec (Z.to_nat (fst ra)) i), (Nat.ltb_spec i (Z.to_nat (fst ra) + Z.to_nat (snd ra))),
      (Nat.leb_spec (Z.to_nat (fst la)) i), (Nat.ltb_spec i (Z.to_nat (fst la) + Z.to_nat (snd la))); cbn; split; intros H'; try discriminate;
    try (exfalso; lia); try (right; split; [lia|assumption]); try (left; split; [lia|assumption]); destruct H' as [[H' H'']|[H' H'']]; try assumption; exfalso; lia.
  - destruct (Nat.leb_spec (Z.to_nat (fst rd)) i), (Nat.ltb_spec i (Z.to_nat (fst rd) + Z.to_nat (snd rd))),
      (Nat.leb_spec (Z.to_nat (fst ld)) i), (Nat.ltb_spec i (Z.to_nat (fst ld) + Z.to_nat (snd ld))); cbn; split; intros H'; try discriminate;
    try (exfalso; lia); try (right; split; [lia|assumption]); try (left; split; [lia|assumption]); destruct H' as [[H' H'']|[H' H'']]; try assumption; exfalso; lia.
Qed.

Lemma active_set_spec (zero : A) g l x m : wf_fn g -> Forall (fun s => fits s (f_ind g)) l ->
  length x = Z.to_nat (f_in g) -> nr m = f_outd g -> nc m = f_ind g ->
  let f := active_set_fn zero g l in
  f_val f x = f_val g x /\ (forall i, (i < Z.to_nat (f_ind g))%nat -> nth i (f_actd f) false = true) /\
  exists mg m', f_jac g x m = Some mg /\ f_jac f x m = Some m' /\ nr m' = nr m /\ nc m' = nc m /\
  forall i j, (covers l j -> at_ m' i j = zero) /\ (~ covers l j -> at_ m' i j = at_ mg i j).
Proof.
  intros W F Lx Hr Hc. cbv zeta. split; [reflexivity|]. split.
  - intros i Hi. cbn. apply nth_repeat_lt. exact Hi.
  - destruct (jacobian_some g x m Lx W Hr Hc) as (mg & E & E' & N1 & N2). cbn. rewrite E.
    destruct (zero_cols_spec zero l mg) as (m' & Em & M1 & M2 & C); [destruct W as (?&?&?&?&?); lia|now rewrite N2, Hc|].
    exists mg, m'. repeat split; auto; try congruence; apply C.
Qed.
End D.
