From Coq Require Import ZArith List Bool Lia ZifyBool Reals Lra.
From Verif Require Import SegModel SegSpec SegProofs ViewModel ViewProofs EcsModel EcsJacModel EcsJacSpec EcsJacProofs EcsDerivProofs FunModel FunProofs ImplFunModel.
Import ListNotations.
Open Scope Z_scope.

Section P.
Context {V K : Type}.
Variable zero : K.
Notation ifun := (ifun V K).
Notation factor := (factor V K).

Lemma mark_spec segs a i : mark segs a i = true <-> covers segs i \/ a i = true.
Proof.
  unfold mark. destruct (existsb _ segs) eqn:E.
  - apply existsb_exists in E as (s & Hs & E). split; [|auto]. intros _. left. exists s. split; [exact Hs|]. unfold in_seg, send in *. lia.
  - split; [auto|]. intros [(s & Hs & H)|H]; [|exact H]. exfalso. enough (existsb (fun s : Z * Z => (fst s <=? i) && (i <? send s)) segs = true) by congruence.
    apply existsb_exists. exists s. split; [exact Hs|]. unfold in_seg, send in *. lia.
Qed.

Lemma indices_length l : nonneg l -> length (indices l) = Z.to_nat (cardinal l).
Proof. intros N. rewrite (cardinal_indices l N). lia. Qed.
Lemma split_inside n l r : 0 <= r -> inside n l -> inside n (fst (split l r)) /\ inside n (snd (split l r)).
Proof.
  revert r. induction l as [|s t IH]; intros r Hr H; cbn.
  - split; intros x [].
  - pose proof (H s (or_introl eq_refl)) as (A & B & C). assert (Ht : inside n t) by (intros x Hx; apply H; now right).
    destruct (snd s >? r) eqn:E1; cbn.
    + split; intros x [<-|Hx]; cbn; try lia; try contradiction. apply Ht, Hx.
    + destruct (snd s =? r) eqn:E2; cbn.
      * split; [|exact Ht]. intros x [<-|[]]; auto.
      * destruct (split t (r - snd s)) as [a b] eqn:E. destruct (IH (r - snd s)) as [I1 I2]; [lia|exact Ht|]. rewrite E in I1, I2. cbn in *.
        split; [|exact I2]. intros x [<-|Hx]; auto.
Qed.

Lemma split_all_cardinal l n : nonneg l -> n = cardinal l -> 0 <= n -> indices (fst (split l n)) = indices l.
Proof.
  intros N E Hn. destruct (split_all l n N Hn) as (H & _). rewrite H.
  rewrite firstn_all2; [reflexivity|]. rewrite (indices_length l N). lia.
Qed.

Lemma single_jacobian (g : ifun) fa q J : if_space g = [fa] -> 0 <= fa_v fa ->
  let qo := vread q (if_out g) in let fq := if_f g (vread q (if_in g)) in let F := if_J g (vread q (if_in g)) in
  nr J = fa_v fa -> nc J = if_nv g ->
  inside (if_nv g) (if_inv g) -> inside (if_nv g) (if_outv g) ->
  NoDup (indices (if_inv g)) -> NoDup (indices (if_outv g)) -> (forall i, ~ (covers (if_inv g) i /\ covers (if_outv g) i)) ->
  cardinal (if_outv g) = fa_v fa -> 0 <= if_nv g ->
  length qo = Z.to_nat (fa_q fa) -> length fq = Z.to_nat (fa_q fa) ->
  nr F = fa_v fa -> nc F = cardinal (if_inv g) ->
  (nr (fa_out fa qo fq) = fa_v fa /\ nc (fa_out fa qo fq) = fa_v fa) ->
  (forall M, nr M = fa_v fa -> nc M = cardinal (if_inv g) -> nr (fa_in fa qo fq M) = nr M /\ nc (fa_in fa qo fq M) = nc M) ->
  exists J', if_jacobian zero g q J = Some J' /\ nr J' = nr J /\ nc J' = nc J /\
    (forall i p j, 0 <= i < fa_v fa -> nth_error (indices (if_outv g)) p = Some j -> at_ J' i j = at_ (fa_out fa qo fq) i (Z.of_nat p)) /\
    (forall i p j, 0 <= i < fa_v fa -> nth_error (indices (if_inv g)) p = Some j -> at_ J' i j = at_ (fa_in fa qo fq (rows_of 0 (fa_v fa) F)) i (Z.of_nat p)) /\
    (forall i j, 0 <= i < fa_v fa -> ~ covers (if_inv g) j -> ~ covers (if_outv g) j -> at_ J' i j = zero).
Proof.
  intros SP Hv qo fq F Hr Hc II IO NI NO DJ CO Hnv Lq Lf HF1 HF2 [HO1 HO2] HI.
  unfold if_jacobian. rewrite SP. cbn [visits].
  assert (Sq : segment (0, fa_q fa) qo = qo) by (unfold segment; cbn; apply firstn_all2; lia).
  assert (Sf : segment (0, fa_q fa) fq = fq) by (unfold segment; cbn; apply firstn_all2; lia).
  fold qo fq F. rewrite Sq, Sf.
  destruct (split (if_outv g) (fa_v fa)) as [cols rem] eqn:E.
  pose proof (inside_nonneg _ _ IO) as NNo.
  pose proof (split_inside (if_nv g) (if_outv g) (fa_v fa) Hv IO) as [SI _]. rewrite E in SI. cbn in SI.
  pose proof (split_all_cardinal (if_outv g) (fa_v fa) NNo (eq_sym CO) Hv) as SC. rewrite E in SC. cbn [fst] in SC.
  pose proof (inside_nonneg _ _ SI) as NNc.
  assert (CC : cardinal cols = fa_v fa).
  { pose proof (indices_length cols NNc). pose proof (indices_length (if_outv g) NNo). rewrite SC in H.
    rewrite CO in H0. pose proof (cardinal_nonneg cols NNc). lia. }
  set (Z0 := mkmat (nr J) (nc J) (fun _ _ => zero)).
  assert (IR : indices [(0, fa_v fa)] = zseq 0 (Z.to_nat (fa_v fa))) by (cbn; now rewrite app_nil_r).
  assert (NR : NoDup (indices [(0, fa_v fa)])).
  { rewrite IR. apply NoDup_zseq. }
  assert (C1 : cardinal [(0, fa_v fa)] = fa_v fa) by (cbn; lia).
  set (sub := rows_of 0 (fa_v fa) Z0).
  destruct (write_view_spec (fa_out fa qo fq) sub [(0, fa_v fa)] cols) as (m1 & E1 & R1 & S1 & W1 & F1); cbn; auto; try lia; try congruence.
  { intros s [<-|[]]; cbn; lia. } { rewrite Hc. exact SI. }
  destruct (HI (rows_of 0 (fa_v fa) F)) as [HI1 HI2]; [reflexivity|cbn; lia|]. cbn in HI1, HI2.
  destruct (write_view_spec (fa_in fa qo fq (rows_of 0 (fa_v fa) F)) m1 [(0, fa_v fa)] (if_inv g)) as (m2 & E2 & R2 & S2 & W2 & F2); auto; try lia; try congruence.
  { intros s [<-|[]]; cbn. rewrite R1. cbn. lia. } { rewrite S1. cbn. rewrite Hc. exact II. }
  unfold on_rows. replace (in_range Z0 0 0 (fa_v fa) (nc Z0)) with true by (symmetry; apply in_range_spec; cbn; lia).
  fold sub. unfold visit. rewrite E1, E2. eexists. split; [reflexivity|]. cbn [nr nc at_]. split; [reflexivity|]. split; [reflexivity|].
  assert (RR : forall i, 0 <= i < fa_v fa -> nth_error (indices [(0, fa_v fa)]) (Z.to_nat i) = Some i).
  { intros i Hi. rewrite IR, nth_error_zseq by lia. f_equal. lia. }
  assert (RC : forall i, 0 <= i < fa_v fa -> covers [(0, fa_v fa)] i).
  { intros i Hi. exists (0, fa_v fa). split; [now left|]. exact Hi. }
  repeat split.
  - intros i p j Hi Hp. replace ((0 <=? i) && (i <? 0 + fa_v fa)) with true by lia. rewrite Z.sub_0_r.
    rewrite F2.
    + apply (W1 i (Z.of_nat p)); [lia|lia|apply RR, Hi|]. rewrite Nat2Z.id, SC. exact Hp.
    + intros [_ X]. apply (DJ j). split; [exact X|]. apply In_indices. eapply nth_error_In; eauto.
  - intros i p j Hi Hp. replace ((0 <=? i) && (i <? 0 + fa_v fa)) with true by lia. rewrite Z.sub_0_r.
    apply (W2 i (Z.of_nat p)); [lia|lia|apply RR, Hi|]. rewrite Nat2Z.id. exact Hp.
  - intros i j Hi A B. replace ((0 <=? i) && (i <? 0 + fa_v fa)) with true by lia. rewrite Z.sub_0_r.
    rewrite F2 by tauto. rewrite F1; [reflexivity|]. intros [_ X]. apply B. apply In_indices. rewrite <- SC. apply In_indices. exact X.
Qed.

(** as soon as the output space has two factors of positive dimension *)
Lemma several_undefined (g : ifun) fa fb t q J : if_space g = fa :: fb :: t -> 0 < fa_v fa -> 0 < fa_v fb ->
  nonneg (if_outv g) -> fa_v fa + fa_v fb <= cardinal (if_outv g) -> if_jacobian zero g q J = None.
Proof.
  intros SP Ha Hb NN CO. unfold if_jacobian. rewrite SP. cbn [visits].
  destruct (split (if_outv g) (fa_v fa)) as [cols rem] eqn:E.
  destruct (on_rows 0 (fa_v fa) _ _) as [J'|]; [|reflexivity].
  destruct (split_all (if_outv g) (fa_v fa) NN (Z.lt_le_incl _ _ Ha)) as (_ & SI & _ & NR). rewrite E in SI, NR. cbn [fst snd] in SI, NR.
  destruct (split rem (fa_v fb)) as [cols2 rem2] eqn:E2.
  destruct (split_all rem (fa_v fb) NR (Z.lt_le_incl _ _ Hb)) as (SF & _ & NF & _). rewrite E2 in SF, NF. cbn [fst snd] in SF, NF.
  assert (NE : indices cols2 <> []).
  { rewrite SF, SI. intros X. apply (f_equal (@length Z)) in X. rewrite firstn_length, skipn_length, (indices_length _ NN) in X. cbn in X. lia. }
  assert (NC : cols2 <> []) by (intros ->; now apply NE).
  unfold on_rows at 1. destruct (in_range _ _ _ _ _); [|reflexivity].
  replace (visit fb _ _ _ _ _ _ _) with (@None (mat K)); [reflexivity|]. symmetry. unfold visit.
  replace (write_view _ _ cols2 _) with (@None (mat K)); [reflexivity|]. symmetry.
  destruct cols2 as [|c cs]; [contradiction|]. unfold write_view, blocks. cbn [axis_blocks flat_map map app loop].
  unfold write_step at 1, put. cbn [b_ri b_ci b_rs b_cs b_ro b_co fst snd].
  replace (in_range (rows_of (0 + fa_v fa) (fa_v fb) J') (0 + fa_v fa) (fst c) (fa_v fb) (snd c)) with false.
  - rewrite andb_false_r. reflexivity.
  - symmetry. apply not_true_iff_false. rewrite in_range_spec. cbn. lia.
Qed.
End P.

Fixpoint lsum (l : list R) : R := match l with [] => 0%R | x :: t => (x + lsum t)%R end.
Lemma lsum_app a b : lsum (a ++ b) = (lsum a + lsum b)%R.
Proof. induction a as [|x t IH]; cbn; [lra|]. rewrite IH. lra. Qed.
Lemma rsum_plus N f g : rsum N (fun j => (f j + g j)%R) = (rsum N f + rsum N g)%R.
Proof. induction N as [|N IH]; cbn; [lra|]. rewrite IH. lra. Qed.
Lemma rsum_zero N f : (forall j, 0 <= j < Z.of_nat N -> f j = 0%R) -> rsum N f = 0%R.
Proof. induction N as [|N IH]; cbn; intros H; [reflexivity|]. rewrite IH by (intros; apply H; lia). rewrite H by lia. lra. Qed.
Lemma rsum_ext N f g : (forall j, 0 <= j < Z.of_nat N -> f j = g j) -> rsum N f = rsum N g.
Proof. induction N as [|N IH]; cbn; intros H; [reflexivity|]. rewrite IH by (intros; apply H; lia). rewrite H by lia. reflexivity. Qed.

Lemma rsum_support l : forall N h, NoDup l -> (forall j, In j l -> 0 <= j < Z.of_nat N) ->
  (forall j, 0 <= j < Z.of_nat N -> ~ In j l -> h j = 0%R) -> rsum N h = lsum (map h l).
Proof.
  induction l as [|x t IH]; intros N h ND HI HZ.
  - cbn. apply rsum_zero. intros j Hj. apply HZ; auto.
  - cbn [map lsum]. inversion ND as [|x' t' Hx ND']; subst.
    rewrite (rsum_ext N h (fun j => ((if x =? j then 1 else 0) * h j + (if x =? j then 0 else h j))%R)).
    + rewrite rsum_plus, (rsum_delta N x h) by (apply HI; now left). f_equal.
      rewrite (IH N (fun j => if x =? j then 0%R else h j)); auto.
      * f_equal. apply map_ext_in. intros j Hj. destruct (Z.eqb_spec x j) as [->|]; [contradiction|reflexivity].
      * intros j Hj. apply HI. now right.
      * intros j Hj Hn. destruct (Z.eqb_spec x j); [reflexivity|]. apply HZ; [exact Hj|]. intros [|]; auto.
    + intros j _. destruct (x =? j); lra.
Qed.

Lemma lsum_pick (h : nat -> R) (d : Z -> R) l : forall o k j, nth_error l k = Some j ->
  (forall p, h p = if Nat.eqb p (o + k) then 1 else 0)%R ->
  lsum (map (fun p => (h (fst p) * d (snd p))%R) (combine (seq o (length l)) l)) = d j.
Proof.
  induction l as [|x t IH]; intros o k j Hk Hh; [destruct k; discriminate|]. cbn. rewrite Hh. destruct k as [|k]; cbn in Hk.
  - injection Hk as <-. rewrite Nat.add_0_r, Nat.eqb_refl.
    enough (lsum (map (fun p => (h (fst p) * d (snd p))%R) (combine (seq (S o) (length t)) t)) = 0)%R by lra.
    assert (G : forall o', (o < o')%nat -> lsum (map (fun p => (h (fst p) * d (snd p))%R) (combine (seq o' (length t)) t)) = 0%R).
    { clear IH. induction t as [|y u IHu]; intros o' L; cbn; [reflexivity|]. rewrite IHu by lia. rewrite Hh, Nat.add_0_r.
      destruct (Nat.eqb_spec o' o); [lia|]. lra. }
    apply G. lia.
  - destruct (Nat.eqb_spec o (o + S k)); [lia|]. rewrite (IH (S o) k j Hk).
    + lra.
    + intros p. rewrite Hh. replace (S o + k)%nat with (o + S k)%nat by lia. reflexivity.
Qed.

Lemma lsum_neg_dot F i (d : Z -> R) l : forall o,
  lsum (map (fun p => (- at_ F (Z.of_nat i) (Z.of_nat (fst p)) * d (snd p))%R) (combine (seq o (length l)) l)) =
  (- rdot (map (fun k => at_ F (Z.of_nat i) (Z.of_nat k)) (seq o (length l))) (map d l))%R.
Proof.
  induction l as [|x t IH]; intros o; cbn [length seq combine map lsum].
  - rewrite rdot_nil_r. lra.
  - rewrite rdot_cons, IH. cbn. lra.
Qed.

Lemma nth_error_combine_seq (l : list Z) k j : nth_error l k = Some j -> forall o, nth_error (combine (seq o (length l)) l) k = Some ((o + k)%nat, j).
Proof. revert k. induction l as [|x t IH]; intros [|k] H o; cbn in *; try discriminate; [injection H as <-; now rewrite Nat.add_0_r|]. rewrite (IH k H). f_equal. f_equal. lia. Qed.

Lemma map_indexed (h : Z -> R) (c : nat -> Z -> R) l : forall o, (forall k j, nth_error l k = Some j -> h j = c (o + k)%nat j) ->
  map h l = map (fun p => c (fst p) (snd p)) (combine (seq o (length l)) l).
Proof.
  induction l as [|x t IH]; intros o H; cbn; [reflexivity|]. f_equal.
  - rewrite (H 0%nat x eq_refl), Nat.add_0_r. reflexivity.
  - apply IH. intros k j Hk. rewrite (H (S k) j Hk). f_equal. lia.
Qed.

Definition rminus (a b : list R) : list R := map (fun p => (fst p - snd p)%R) (combine a b).
Lemma nth_rminus a b i : (i < length a)%nat -> (i < length b)%nat -> nth i (rminus a b) 0%R = (nth i a 0 - nth i b 0)%R.
Proof. revert b i. induction a as [|x t IH]; intros [|y u] [|i]; cbn; try lia; intros A B; [reflexivity|]. apply IH; lia. Qed.

Lemma plain_derivative (g : ifun R R) n (q : R -> Z -> R) dq J J' :
  if_space g = [plain 0%R 1%R Ropp n] -> if_sub g = rminus -> if_in g = if_inv g -> if_out g = if_outv g ->
  0 <= n -> nr J = n -> nc J = if_nv g -> 0 <= if_nv g ->
  inside (if_nv g) (if_inv g) -> inside (if_nv g) (if_outv g) ->
  NoDup (indices (if_inv g)) -> NoDup (indices (if_outv g)) -> (forall i, ~ (covers (if_inv g) i /\ covers (if_outv g) i)) ->
  cardinal (if_outv g) = n -> (forall x, length x = length (indices (if_in g)) -> length (if_f g x) = Z.to_nat n) ->
  let x0 := map (q 0%R) (indices (if_in g)) in
  nr (if_J g x0) = n -> nc (if_J g x0) = cardinal (if_inv g) -> diff_along (if_f g) x0 (if_J g x0) (Z.to_nat n) ->
  (forall i, 0 <= i < if_nv g -> derivable_pt_lim (fun t => q t i) 0 (dq i)) ->
  if_jacobian 0%R g (q 0%R) J = Some J' ->
  forall i, (i < Z.to_nat n)%nat ->
    derivable_pt_lim (fun t => nth i (if_value g (q t)) 0%R) 0 (ksum 0%R Rplus (Z.to_nat (if_nv g)) (fun j => (at_ J' (Z.of_nat i) j * dq j)%R)).
Proof.
  intros SP SUB EI EO Hn Hr Hc Hnv II IO NI NO DJ CO FL x0 F1 F2 DF DQ EJ i Hi.
  pose proof (inside_nonneg _ _ IO) as NNo. pose proof (inside_nonneg _ _ II) as NNi.
  assert (LO : length (indices (if_outv g)) = Z.to_nat n) by (rewrite (indices_length _ NNo), CO; reflexivity).
  assert (X0 : vread (q 0%R) (if_in g) = x0) by apply vread_indices.
  destruct (single_jacobian 0%R g (plain 0%R 1%R Ropp n) (q 0%R) J) as (J2 & E2 & _ & _ & A & B & C); cbn [plain fa_v fa_q fa_out fa_in nr nc at_]; auto.
  { rewrite vread_indices, map_length, EO. exact LO. }
  { apply FL. rewrite vread_indices, map_length. reflexivity. }
  { rewrite X0. exact F1. } { rewrite X0. exact F2. }
  rewrite EJ in E2. injection E2 as <-.
  cbn [plain fa_v fa_q fa_out fa_in nr nc at_] in A, B, C.
  rewrite (rsum_support (indices (if_outv g) ++ indices (if_inv g))).
  - rewrite map_app, lsum_app.
    assert (Ho : exists o, nth_error (indices (if_outv g)) i = Some o).
    { destruct (nth_error _ i) eqn:E; [eauto|]. apply nth_error_None in E. lia. }
    destruct Ho as [o Ho].
    rewrite (map_indexed (fun j => (at_ J' (Z.of_nat i) j * dq j)%R) (fun p j => ((if Nat.eqb p (0 + i) then 1 else 0) * dq j)%R) (indices (if_outv g)) 0).
    2:{ intros k j Hk. rewrite (A (Z.of_nat i) k j) by (auto; lia). f_equal. cbn. destruct (Nat.eqb_spec k i), (Z.eqb_spec (Z.of_nat i) (Z.of_nat k)); auto; lia. }
    rewrite (lsum_pick (fun p => if Nat.eqb p (0 + i) then 1 else 0)%R dq _ 0 i o Ho) by reflexivity.
    rewrite (map_indexed (fun j => (at_ J' (Z.of_nat i) j * dq j)%R) (fun p j => (- at_ (if_J g x0) (Z.of_nat i) (Z.of_nat p) * dq j)%R) (indices (if_inv g)) 0).
    2:{ intros k j Hk. rewrite (B (Z.of_nat i) k j) by (auto; lia). rewrite X0. reflexivity. }
    rewrite lsum_neg_dot.
    apply (derive_eq _ (fun t => (q t o - nth i (if_f g (map (q t) (indices (if_in g)))) 0)%R) _ _ (dq o - rdot (row_of (if_J g x0) i (length x0)) (map dq (indices (if_in g))))%R).
    + intros t. unfold if_value. rewrite SUB, !vread_indices, nth_rminus.
      * f_equal. rewrite EO. apply nth_map_Z. exact Ho.
      * rewrite map_length, EO. lia.
      * rewrite FL by (now rewrite map_length). exact Hi.
    + unfold row_of. replace (length x0) with (length (indices (if_inv g))) by (unfold x0; rewrite map_length, EI; reflexivity). rewrite EI. lra.
    + apply derivable_pt_lim_minus.
      * apply DQ. assert (X : In o (indices (if_outv g))) by (eapply nth_error_In; eauto). apply In_indices in X as (s & Hs & Hi'). specialize (IO s Hs). unfold in_seg in Hi'. lia.
      * apply (DF (fun t => map (q t) (indices (if_in g)))); auto.
        -- intros t. unfold x0. now rewrite !map_length.
        -- unfold x0. now rewrite !map_length.
        -- intros k Hk. unfold x0 in Hk. rewrite map_length in Hk.
           destruct (nth_error (indices (if_in g)) k) as [j|] eqn:E; [|apply nth_error_None in E; lia].
           apply (derive_eq _ (fun t => q t j) _ _ (dq j)).
           ++ intros t. apply nth_map_Z, E.
           ++ apply nth_map_Z, E.
           ++ apply DQ. assert (X : In j (indices (if_inv g))) by (rewrite <- EI; eapply nth_error_In; eauto).
              apply In_indices in X as (s & Hs & Hi'). specialize (II s Hs). unfold in_seg in Hi'. lia.
  - apply NoDup_app_intro; auto. intros x A1 B1. apply (DJ x). split; apply In_indices; auto.
  - intros j Hj. apply in_app_or in Hj. rewrite Z2Nat.id by lia.
    destruct Hj as [Hj|Hj]; apply In_indices in Hj as (s & Hs & Hi'); [specialize (IO s Hs)|specialize (II s Hs)]; unfold in_seg in Hi'; lia.
  - intros j Hj Hn'. rewrite C; [lra|lia| |]; intros X; apply Hn', in_or_app; [right|left]; apply In_indices; exact X.
Qed.

From Verif Require Import EcsSpec EcsFinalProofs EcsSolveProofs.
Section Equiv.
Context {V K : Type}.
Variable integ : list V -> list V -> list V.
(** elements and tangent vectors for which the two operations are inverse of each other *)
Variables (elt tan : list V -> Prop).
Lemma implicit_explicit (g : ifun V K) (c : con V (list V)) q r :
  (forall a v, elt a -> tan v -> if_sub g (integ a v) a = v) ->
  (forall a b, elt a -> elt b -> integ a (if_sub g b a) = b) ->
  c_in c = if_in g -> c_out c = if_out g -> (forall rhs x, c_val c rhs x = integ (if_f g x) rhs) ->
  elt (map q (indices (if_out g))) -> elt (if_f g (map q (indices (if_in g)))) -> tan r ->
  (if_value g q = r <-> satisfies q c r).
Proof.
  intros L1 L2 EI EO EV E1 E2 T. unfold if_value, satisfies. rewrite !vread_indices, EI, EO, EV. split.
  - intros H. rewrite <- H. symmetry. apply L2; auto.
  - intros ->. apply L1; auto.
Qed.

Lemma solved_implicit iadd (P : con V (list V) -> Prop) n m : family n m P ->
  forall (st : ecs V (list V)) rl q q' k c r (g : ifun V K), reach iadd P n m st -> length rl = length (data st) ->
  (forall c, In c (data st) -> sized c) -> solve (with_rhs st rl) q = Some q' ->
  nth_error (data st) k = Some c -> nth_error rl k = Some r ->
  c_in c = if_in g -> c_out c = if_out g -> (forall rhs x, c_val c rhs x = integ (if_f g x) rhs) ->
  (forall a, a = if_f g (map q' (indices (if_in g))) -> if_sub g (integ a r) a = r) ->
  if_value g q' = r.
Proof.
  intros FM st rl q q' k c r g R L SZ S Hk Hr EI EO EV LAW.
  destruct (solve_spec iadd P n m FM st rl q R L SZ) as (q2 & S2 & (A & _) & _). rewrite S in S2. injection S2 as <-.
  assert (In (c, r) (combine (data st) rl)).
  { clear - Hk Hr. revert rl k Hk Hr. induction (data st) as [|x t IH]; intros [|y u] [|k]; cbn; try discriminate.
    - intros E1 E2. injection E1 as <-. injection E2 as <-. now left.
    - intros E1 E2. right. eapply IH; eauto. }
  specialize (A c r H). unfold satisfies in A. unfold if_value. rewrite !vread_indices, <- EO, A, EV, <- EI. apply LAW. now rewrite EI.
Qed.
End Equiv.

Lemma active_spec {V K} (g : ifun V K) i :
  (if_active g i = true <-> covers (if_in g) i \/ covers (if_out g) i) /\ (if_activev g i = true <-> covers (if_inv g) i \/ covers (if_outv g) i).
Proof. unfold if_active, if_activev. rewrite !mark_spec. split; intuition congruence. Qed.
