From Coq Require Import ZArith List Bool Lia.
From Verif Require Import ViewModel FunModel FunSpec SegSpec.
Import ListNotations.
Local Open Scope Z_scope.

Section FunP.
Context {A : Type}.
Implicit Types (f g : fn A) (m : mat A) (fs : list (fn A)).

Lemma same_refl m : same m m.
Proof. repeat split. Qed.
Lemma same_sym m1 m2 : same m1 m2 -> same m2 m1.
Proof. intros (a & b & c). unfold same, in_mat in *. rewrite <- a, <- b. repeat split; intros; symmetry; apply c; auto. Qed.
Lemma same_trans m1 m2 m3 : same m1 m2 -> same m2 m3 -> same m1 m3.
Proof.
  intros (a & b & c) (d & e & h). unfold same, in_mat in *. rewrite a, b in *. repeat split; auto; intros; rewrite c by auto; apply h; auto.
Qed.

Ltac zb := repeat match goal with
  | H : _ && _ = true |- _ => apply andb_prop in H as [? ?]
  | H : (_ <=? _) = true |- _ => apply Z.leb_le in H
  | H : (_ <? _) = true |- _ => apply Z.ltb_lt in H
  end.

Lemma in_range_iff m r c rs cs : in_range m r c rs cs = true <-> 0 <= r /\ 0 <= c /\ 0 <= rs /\ 0 <= cs /\ r + rs <= nr m /\ c + cs <= nc m.
Proof. unfold in_range. rewrite !andb_true_iff, !Z.leb_le. tauto. Qed.

Lemma on_rows_spec r n (k : mat A -> option (mat A)) m m' : on_rows r n k m = Some m' ->
  0 <= r /\ r + n <= nr m /\ 0 <= n /\ nr m' = nr m /\ nc m' = nc m /\
  exists bo, k (rows_of r n m) = Some bo /\
    (forall i j, 0 <= i < n -> at_ m' (r + i) j = at_ bo i j) /\
    (forall i j, ~ (r <= i < r + n) -> at_ m' i j = at_ m i j).
Proof.
  unfold on_rows. destruct (in_range m r 0 n (nc m)) eqn:R; [|discriminate]. apply in_range_iff in R.
  destruct (k (rows_of r n m)) as [bo|] eqn:K; [|discriminate]. intros E. injection E as <-. cbn.
  repeat split; try lia. exists bo. repeat split.
  - intros i j Hi. replace (r + i - r) with i by lia.
    destruct ((r <=? r + i) && (r + i <? r + n)) eqn:B; auto. apply andb_false_iff in B. rewrite Z.leb_gt, Z.ltb_ge in B. lia.
  - intros i j Hi. destruct ((r <=? i) && (i <? r + n)) eqn:B; auto. zb. lia.
Qed.

Lemma on_cols_spec c n (k : mat A -> option (mat A)) m m' : on_cols c n k m = Some m' ->
  0 <= c /\ c + n <= nc m /\ 0 <= n /\ nr m' = nr m /\ nc m' = nc m /\
  exists bo, k (cols_of c n m) = Some bo /\
    (forall i j, 0 <= j < n -> at_ m' i (c + j) = at_ bo i j) /\
    (forall i j, ~ (c <= j < c + n) -> at_ m' i j = at_ m i j).
Proof.
  unfold on_cols. destruct (in_range m 0 c (nr m) n) eqn:R; [|discriminate]. apply in_range_iff in R.
  destruct (k (cols_of c n m)) as [bo|] eqn:K; [|discriminate]. intros E. injection E as <-. cbn.
  repeat split; try lia. exists bo. repeat split.
  - intros i j Hi. replace (c + j - c) with j by lia.
    destruct ((c <=? c + j) && (c + j <? c + n)) eqn:B; auto. apply andb_false_iff in B. rewrite Z.leb_gt, Z.ltb_ge in B. lia.
  - intros i j Hi. destruct ((c <=? j) && (j <? c + n)) eqn:B; auto. zb. lia.
Qed.

Lemma on_rows_some r n k m : 0 <= r -> 0 <= n -> 0 <= nc m -> r + n <= nr m -> k (rows_of r n m) <> None -> on_rows r n k m <> None.
Proof.
  intros. unfold on_rows. rewrite (proj2 (in_range_iff m r 0 n (nc m))) by lia. destruct (k (rows_of r n m)); congruence.
Qed.
Lemma on_cols_some c n k m : 0 <= c -> 0 <= n -> 0 <= nr m -> c + n <= nc m -> k (cols_of c n m) <> None -> on_cols c n k m <> None.
Proof.
  intros. unfold on_cols. rewrite (proj2 (in_range_iff m 0 c (nr m) n)) by lia. destruct (k (cols_of c n m)); congruence.
Qed.

(** sets *)
Lemma or_arrays_spec a : forall b, length a = length b ->
  exists l, or_arrays a b = Some l /\ length l = length a /\ forall i, nth i l false = nth i a false || nth i b false.
Proof.
  induction a as [|x a IH]; intros [|y b'] L; try discriminate L.
  - exists []. repeat split. now intros [|i].
  - destruct (IH b') as (l & E & L' & N); [now injection L|]. exists ((x || y) :: l). cbn. rewrite E. repeat split; cbn; auto.
    intros [|i]; cbn; auto.
Qed.

Definition set_inv (s : fset A) (l : list (fn A)) : Prop :=
  s_fs s = l /\ s_out s = sumz (map f_out l) /\ s_outd s = sumz (map f_outd l) /\
  (forall f, In f l -> s_in s = f_in f /\ s_ind s = f_ind f) /\
  (l = [] -> s_act s = [] /\ s_actd s = [] /\ s_in s = 0 /\ s_ind s = 0) /\
  length (s_act s) = Z.to_nat (s_in s) /\ length (s_actd s) = Z.to_nat (s_ind s) /\
  (forall i, nth i (s_act s) false = existsb (fun f => nth i (f_act f) false) l) /\
  (forall i, nth i (s_actd s) false = existsb (fun f => nth i (f_actd f) false) l).

Lemma sumz_app l1 l2 : sumz (l1 ++ l2) = sumz l1 + sumz l2.
Proof. induction l1 as [|a l1 IH]; [reflexivity|]. change (a + sumz (l1 ++ l2) = a + sumz l1 + sumz l2). lia. Qed.

Lemma set_add_inv s l f : set_inv s l -> wf_fn f -> (forall g, In g l -> same_input g f) ->
  exists s', set_add s f = Some s' /\ set_inv s' (l ++ [f]).
Proof.
  intros (Hf & Ho & Hod & Hin & He & La & Ld & Na & Nd) (W1 & W2 & _ & _ & WA & WD & _) SI.
  unfold set_add. rewrite Hf. destruct l as [|g l].
  - eexists. split; [reflexivity|]. unfold set_inv. cbn in *. 
    repeat split; auto; try lia; try congruence.
    + intros; destruct H as [->|[]]; reflexivity.
    + intros; destruct H as [->|[]]; reflexivity.
    + intros i. now rewrite orb_false_r.
    + intros i. now rewrite orb_false_r.
  - destruct (Hin g (or_introl eq_refl)) as [Eg1 Eg2]. destruct (SI g (or_introl eq_refl)) as [Sg1 Sg2].
    assert (L1 : length (s_act s) = length (f_act f)) by (rewrite La, WA; congruence).
    assert (L2 : length (s_actd s) = length (f_actd f)) by (rewrite Ld, WD; congruence).
    destruct (or_arrays_spec _ _ L1) as (a & Ea & La' & Na'). destruct (or_arrays_spec _ _ L2) as (d & Ed & Ld' & Nd').
    rewrite Ea, Ed. eexists. split; [reflexivity|]. unfold set_inv. cbn [s_fs s_out s_outd s_in s_ind s_act s_actd].
    rewrite !map_app, !sumz_app, Ho, Hod. cbn [map sumz fold_right]. repeat split; try lia; try congruence.
    + rename H into HI. apply in_app_iff in HI as [I|[<-|[]]]; [apply (Hin _ I)|congruence].
    + rename H into HI. apply in_app_iff in HI as [I|[<-|[]]]; [apply (Hin _ I)|congruence].
    + destruct l; discriminate.
    + destruct l; discriminate.
    + destruct l; discriminate.
    + destruct l; discriminate.
    + intros i. rewrite Na', Na, existsb_app. cbn. now rewrite orb_false_r.
    + intros i. rewrite Nd', Nd, existsb_app. cbn. now rewrite orb_false_r.
Qed.

Lemma set_adds_inv l : forall s l0, set_inv s l0 -> Forall wf_fn l -> (forall f g, In f (l0 ++ l) -> In g (l0 ++ l) -> same_input f g) ->
  exists s', set_adds s l = Some s' /\ set_inv s' (l0 ++ l).
Proof.
  induction l as [|f l IH]; intros s l0 I W SI.
  - exists s. rewrite app_nil_r. auto.
  - inversion W; subst. cbn. destruct (set_add_inv s l0 f I H1) as (s1 & E & I1).
    { intros g Hg. apply SI; apply in_app_iff; [now left|right; now left]. }
    rewrite E. destruct (IH s1 (l0 ++ [f]) I1 H2) as (s2 & E2 & I2).
    { rewrite <- app_assoc. exact SI. }
    exists s2. rewrite <- app_assoc in I2. auto.
Qed.

Lemma set_new_inv : set_inv set_new [].
Proof. unfold set_inv. cbn. repeat split; auto; try contradiction; destruct i; reflexivity. Qed.

Definition good (n : nat) f := wf_fn f /\ Z.to_nat (f_in f) = n.

Lemma set_values_spec n x fs : length x = n -> Forall (good n) fs -> forall pre post,
  length post = list_sum (map (fun f => Z.to_nat (f_out f)) fs) ->
  set_values fs x (length pre) (pre ++ post) = Some (pre ++ concat (map (fun f => f_val f x) fs)).
Proof.
  intros Lx W. induction W as [|f fs [Wf En] W IH]; intros pre post Lp.
  - cbn in *. destruct post; [reflexivity|discriminate].
  - cbn in Lp |- *. assert (Lv : length (f_val f x) = Z.to_nat (f_out f)) by (apply Wf; congruence).
    unfold seg_write. rewrite Lv, Nat.eqb_refl, app_length, Lp. cbn.
    replace (Nat.leb _ _) with true by (symmetry; apply Nat.leb_le; lia).
    rewrite firstn_app, firstn_all, Nat.sub_diag, firstn_O, app_nil_r.
    rewrite skipn_app, skipn_all2 by lia. cbn.
    replace (length pre + Z.to_nat (f_out f) - length pre)%nat with (Z.to_nat (f_out f)) by lia.
    rewrite app_assoc. rewrite <- Lv at 1. rewrite <- app_length. rewrite (IH (pre ++ f_val f x)).
    + now rewrite <- app_assoc.
    + rewrite skipn_length. unfold list_sum in *. lia.
Qed.

Lemma sumz_nonneg (l : list Z) : (forall z, In z l -> 0 <= z) -> 0 <= sumz l.
Proof.
  induction l as [|a l IH]; intros H; [cbn; lia|]. change (0 <= a + sumz l). assert (0 <= sumz l) by (apply IH; intros; apply H; now right).
  specialize (H a (or_introl eq_refl)). lia.
Qed.

Lemma list_sum_sumz fs : Forall wf_fn fs -> list_sum (map (fun f => Z.to_nat (f_out f)) fs) = Z.to_nat (sumz (map f_out fs)).
Proof.
  induction 1 as [|f fs W HW IH]; [reflexivity|]. destruct W as (_ & _ & H & _).
  change (Z.to_nat (f_out f) + list_sum (map (fun f => Z.to_nat (f_out f)) fs) = Z.to_nat (f_out f + sumz (map f_out fs)))%nat.
  rewrite IH, Z2Nat.inj_add; auto. apply sumz_nonneg. intros z Hz. apply in_map_iff in Hz as (g & <- & Hg).
  rewrite Forall_forall in HW. apply (HW g Hg).
Qed.

Lemma set_rows_spec n nd x fs : length x = n -> Forall (good n) fs -> Forall (fun f => f_ind f = nd) fs -> forall row m,
  0 <= row -> nc m = nd -> 0 <= nd -> row + sumz (map f_outd fs) <= nr m ->
  exists m', set_rows fs x row m = Some m' /\ nr m' = nr m /\ nc m' = nc m /\
  (forall i j, ~ (row <= i < row + sumz (map f_outd fs)) -> at_ m' i j = at_ m i j) /\
  (forall k f, nth_error fs k = Some f ->
     let r := row + sumz (map f_outd (firstn k fs)) in
     exists old new, row_block m r (f_outd f) old /\ f_jac f x old = Some new /\ row_block m' r (f_outd f) new).
Proof.
  intros Lx W. induction W as [|f fs [Wf En] W IH]; intros D row m Hr Hc Hd Hn.
  - exists m. cbn. repeat split; auto; try lia. intros [|k] ? ?; discriminate.
  - apply Forall_cons_iff in D as [Df D]. cbn [map sumz fold_right] in Hn. fold (sumz (map f_outd fs)) in Hn.
    assert (SN : 0 <= sumz (map f_outd fs)).
    { apply sumz_nonneg. intros z Hz. apply in_map_iff in Hz as (g & <- & Hg).
      clear -W Hg. rewrite Forall_forall in W. destruct (W g Hg) as [(_ & _ & _ & H & _) _]. exact H. }
    pose proof Wf as (_ & _ & _ & HO & _ & _ & _ & TJ & EJ).
    cbn [set_rows]. destruct (on_rows row (f_outd f) (f_jac f x) m) as [m1|] eqn:E1.
    2: { exfalso. revert E1. apply on_rows_some; try lia. destruct (TJ x (rows_of row (f_outd f) m)) as (b & Eb & _); cbn; congruence. }
    apply on_rows_spec in E1 as (_ & _ & _ & Nr & Nc & bo & Eb & In1 & Out1).
    destruct (IH D (row + f_outd f) m1) as (m' & E & Nr' & Nc' & Out & Blk); try lia.
    exists m'. split; [exact E|]. split; [congruence|]. split; [congruence|]. split.
    + intros i j Hi. cbn [map sumz fold_right] in Hi. fold (sumz (map f_outd fs)) in Hi. rewrite Out by lia. apply Out1. lia.
    + intros [|k] g Hk.
      * injection Hk as <-. cbn [firstn map sumz fold_right]. rewrite Z.add_0_r. exists (rows_of row (f_outd f) m), bo.
        destruct (TJ x (rows_of row (f_outd f) m)) as (b' & Eb' & B1 & B2); cbn; auto; try congruence.
        rewrite Eb in Eb'. injection Eb' as <-.
        repeat split; auto; cbn in *; try congruence. intros i j Hi Hj. rewrite Out by lia. symmetry. apply In1. exact Hi.
      * cbn [nth_error] in Hk. cbn [firstn map sumz fold_right]. fold (sumz (map f_outd (firstn k fs))).
        destruct (Blk k g Hk) as (old & new & Bo & Ej & Bn). rewrite Z.add_assoc. cbv zeta in Bo, Bn.
        exists old, new. split; [|split; auto]. destruct Bo as (O1 & O2 & O3). repeat split; auto; [congruence|].
        intros i j Hi Hj. rewrite O3; auto; [|congruence]. apply Out1.
        assert (0 <= sumz (map f_outd (firstn k fs))).
        { apply sumz_nonneg. intros z Hz. apply in_map_iff in Hz as (h & <- & Hh). apply firstn_In in Hh || idtac.
          clear -W Hh. rewrite Forall_forall in W. assert (In h fs) by (revert Hh; clear; revert k; induction fs; intros [|k]; cbn; intros; try contradiction; destruct Hh; auto; right; eapply IHfs; eauto).
          destruct (W h H) as [(_ & _ & _ & HH & _) _]. exact HH. }
        lia.
Qed.

Theorem set_spec fs : Forall wf_fn fs -> (forall f g, In f fs -> In g fs -> same_input f g) ->
  exists s, set_adds set_new fs = Some s /\ s_fs s = fs /\
  s_out s = sumz (map f_out fs) /\ s_outd s = sumz (map f_outd fs) /\
  (forall f, In f fs -> s_in s = f_in f /\ s_ind s = f_ind f) /\
  length (s_act s) = Z.to_nat (s_in s) /\ length (s_actd s) = Z.to_nat (s_ind s) /\
  (forall i, nth i (s_act s) false = true <-> exists f, In f fs /\ nth i (f_act f) false = true) /\
  (forall i, nth i (s_actd s) false = true <-> exists f, In f fs /\ nth i (f_actd f) false = true) /\
  (forall x res, length x = Z.to_nat (s_in s) -> length res = Z.to_nat (s_out s) ->
     set_compute s x res = Some (concat (map (fun f => f_val f x) fs))) /\
  (forall x m, length x = Z.to_nat (s_in s) -> nr m = s_outd s -> nc m = s_ind s ->
     exists m', set_jacobian s x m = Some m' /\ nr m' = nr m /\ nc m' = nc m /\
     forall k f, nth_error fs k = Some f ->
       let r := sumz (map f_outd (firstn k fs)) in
       exists old new, row_block m r (f_outd f) old /\ f_jac f x old = Some new /\ row_block m' r (f_outd f) new).
Proof.
  intros W SI. destruct (set_adds_inv fs set_new [] set_new_inv W SI) as (s & E & I). cbn in I.
  destruct I as (Hf & Ho & Hod & Hin & He & La & Ld & Na & Nd). exists s. repeat split; auto; try (apply Hin; assumption).
  - rewrite Na, existsb_exists. auto.
  - rewrite Na, existsb_exists. auto.
  - rewrite Nd, existsb_exists. auto.
  - rewrite Nd, existsb_exists. auto.
  - intros x res Lx Lr. unfold set_compute. rewrite Hf. apply (set_values_spec (length x) x fs eq_refl) with (pre := []).
    + rewrite Forall_forall in *. intros f If. split; [auto|]. rewrite Lx. f_equal. symmetry. now apply Hin.
    + rewrite list_sum_sumz by auto. congruence.
  - intros x m Lx Hr Hc. unfold set_jacobian. rewrite Hf.
    destruct (set_rows_spec (length x) (nc m) x fs eq_refl) with (row := 0) (m := m) as (m' & Em & N1 & N2 & _ & B); try lia.
    + rewrite Forall_forall in *. intros f If. split; [auto|]. rewrite Lx. f_equal. symmetry. now apply Hin.
    + rewrite Forall_forall. intros f If. destruct (Hin f If). congruence.
    + rewrite Hc. destruct fs as [|f fs]; [destruct (He eq_refl) as (_ & _ & _ & ->); lia|].
      destruct (Hin f (or_introl eq_refl)) as [_ ->]. inversion W; subst. apply H1.
    + exists m'. repeat split; auto.
Qed.

(** subsets of parameters *)
Lemma segment_length (s : Z * Z) (x : list A) : 0 <= fst s -> 0 <= snd s -> fst s + snd s <= Z.of_nat (length x) -> length (segment s x) = Z.to_nat (snd s).
Proof. intros. unfold segment. rewrite firstn_length, skipn_length. lia. Qed.

Lemma jacobian_some g x m : length x = Z.to_nat (f_in g) -> wf_fn g -> nr m = f_outd g -> nc m = f_ind g ->
  exists m', jacobian g x m = Some m' /\ f_jac g x m = Some m' /\ nr m' = nr m /\ nc m' = nc m.
Proof.
  intros Lx W Hr Hc. destruct W as (W0 & W1 & W2 & W3 & W4 & W5 & W6 & TJ & _). destruct (TJ x m Lx Hr Hc) as (m' & E & N1 & N2).
  exists m'. unfold jacobian. rewrite Lx, Z2Nat.id by auto. rewrite Hr, Hc, !Z.eqb_refl. cbn. repeat split; auto; congruence.
Qed.

Definition fits (s : Z * Z) (n : Z) : Prop := 0 <= fst s /\ 0 <= snd s /\ fst s + snd s <= n.

Lemma subset_spec g nargs nders sa sd x m :
  wf_fn g -> snd sa = f_in g -> snd sd = f_ind g -> fits sa nargs -> fits sd nders ->
  length x = Z.to_nat nargs -> nr m = f_outd g -> nc m = nders ->
  let f := subset_fn g nargs nders sa sd in
  f_val f x = f_val g (segment sa x) /\
  exists m' b b', f_jac f x m = Some m' /\ nr m' = nr m /\ nc m' = nc m /\
    col_block m (fst sd) (snd sd) b /\ f_jac g (segment sa x) b = Some b' /\ col_block m' (fst sd) (snd sd) b' /\
    forall i j, ~ (fst sd <= j < fst sd + snd sd) -> at_ m' i j = at_ m i j.
Proof.
  intros W Ea Ed Fa Fd Lx Hr Hc. cbv zeta. split; [reflexivity|]. cbn [f_jac subset_fn].
  assert (LS : length (segment sa x) = Z.to_nat (f_in g)).
  { rewrite segment_length; try apply Fa; [congruence|]. destruct Fa as (? & ? & ?). lia. }
  destruct (jacobian_some g (segment sa x) (cols_of (fst sd) (snd sd) m) LS W) as (b' & Ej & Ej' & B1 & B2); cbn; try congruence.
  destruct (on_cols (fst sd) (snd sd) (jacobian g (segment sa x)) m) as [m'|] eqn:E.
  2: { exfalso. revert E. apply on_cols_some; try apply Fd; [destruct W as (?&?&?&?&?); lia|destruct Fd; lia|congruence]. }
  apply on_cols_spec in E as (_ & _ & _ & Nr & Nc & bo & Eb & In1 & Out1).
  assert (bo = b') by congruence. subst bo.
  exists m', (cols_of (fst sd) (snd sd) m), b'. repeat split; auto; cbn in *; try congruence.
  intros i j Hi Hj. symmetry. auto.
Qed.

Lemma nth_bseg_write s (v l : list bool) i : 0 <= fst s -> fst s + Z.of_nat (length v) <= Z.of_nat (length l) ->
  nth i (bseg_write s v l) false =
  if (Z.to_nat (fst s) <=? i)%nat && (i <? Z.to_nat (fst s) + length v)%nat then nth (i - Z.to_nat (fst s)) v false else nth i l false.
Proof.
  intros H H'. unfold bseg_write. set (o := Z.to_nat (fst s)). assert (Ho : (o + length v <= length l)%nat) by lia.
  assert (Lf : length (firstn o l) = o) by (rewrite firstn_length; lia).
  destruct (Nat.leb_spec o i).
  - rewrite app_nth2 by lia. rewrite Lf. destruct (Nat.ltb_spec i (o + length v)); cbn.
    + rewrite app_nth1 by lia. reflexivity.
    + rewrite app_nth2 by lia. rewrite <- (firstn_skipn (o + length v) l) at 2. rewrite (app_nth2 (firstn _ _)); rewrite firstn_length; [f_equal; lia|lia].
  - cbn. rewrite app_nth1 by lia. rewrite <- (firstn_skipn o l) at 2. rewrite app_nth1 by lia. reflexivity.
Qed.

Lemma nth_repeat_false n i : nth i (repeat false n) false = false.
Proof. revert i. induction n; intros [|i]; cbn; auto. Qed.

Lemma subset_active g nargs nders sa sd i :
  wf_fn g -> snd sa = f_in g -> snd sd = f_ind g -> fits sa nargs -> fits sd nders ->
  (nth i (f_act (subset_fn g nargs nders sa sd)) false = true <->
     fst sa <= Z.of_nat i < fst sa + snd sa /\ nth (i - Z.to_nat (fst sa)) (f_act g) false = true) /\
  (nth i (f_actd (subset_fn g nargs nders sa sd)) false = true <->
     fst sd <= Z.of_nat i < fst sd + snd sd /\ nth (i - Z.to_nat (fst sd)) (f_actd g) false = true).
Proof.
  intros (W0 & W1 & W2 & W3 & W4 & W5 & _) Ea Ed (Fa1 & Fa2 & Fa3) (Fd1 & Fd2 & Fd3). cbn [f_act f_actd subset_fn].
  rewrite !nth_bseg_write, !nth_repeat_false by (rewrite ?repeat_length; lia). rewrite W4, W5, <- Ea, <- Ed. split.
  - destruct (Nat.leb_spec (Z.to_nat (fst sa)) i), (Nat.ltb_spec i (Z.to_nat (fst sa) + Z.to_nat (snd sa))); cbn; split; intros H'; try tauto; try (split; [lia|assumption]); try discriminate; exfalso; lia.
  - destruct (Nat.leb_spec (Z.to_nat (fst sd)) i), (Nat.ltb_spec i (Z.to_nat (fst sd) + Z.to_nat (snd sd))); cbn; split; intros H'; try tauto; try (split; [lia|assumption]); try discriminate; exfalso; lia.
Qed.

(** functions with saturated variables *)
Lemma covers_dec l j : covers l j \/ ~ covers l j.
Proof.
  induction l as [|s l [IH|IH]]; [right; intros (s & [] & _)|left; destruct IH as (t & I & H); exists t; split; [now right|auto]|].
  destruct (Z_lt_dec j (fst s)); [|destruct (Z_lt_dec j (fst s + snd s))].
  - right. intros (t & [<-|I] & H); [unfold in_seg in H; lia|apply IH; exists t; auto].
  - left. exists s. split; [now left|unfold in_seg; lia].
  - right. intros (t & [<-|I] & H); [unfold in_seg in H; lia|apply IH; exists t; auto].
Qed.

Lemma zero_cols_spec (zero : A) l : forall m, 0 <= nr m -> Forall (fun s => fits s (nc m)) l ->
  exists m', zero_cols zero l m = Some m' /\ nr m' = nr m /\ nc m' = nc m /\
  forall i j, (covers l j -> at_ m' i j = zero) /\ (~ covers l j -> at_ m' i j = at_ m i j).
Proof.
  induction l as [|s l IH]; intros m Hn W.
  - exists m. cbn. repeat split; auto. intros (s & [] & _).
  - inversion W; subst. destruct H1 as (F1 & F2 & F3). cbn.
    destruct (on_cols _ _ _ m) as [m1|] eqn:E; [|exfalso; revert E; apply on_cols_some; auto; discriminate].
    apply on_cols_spec in E as (_ & _ & _ & Nr & Nc & bo & Eb & In1 & Out1). injection Eb as <-. cbn in *.
    destruct (IH m1) as (m' & E' & N1 & N2 & C); [congruence|rewrite Nc; auto|]. exists m'. repeat split; auto; try congruence.
    + intros Hj. destruct (covers_dec l j) as [Cl|Cl]; [apply C; auto|]. rewrite (proj2 (C i j)); auto.
      destruct Hj as (s' & [<-|I] & Hs); [|exfalso; apply Cl; exists s'; auto].
      replace j with (fst s + (j - fst s)) by lia. apply In1. unfold in_seg in Hs. lia.
    + intros Hj. rewrite (proj2 (C i j)). 2: { intros (s' & I & Hs). apply Hj. exists s'. split; [now right|auto]. }
      apply Out1. intros Hs. apply Hj. exists s. split; [now left|]. unfold in_seg. lia.
Qed.
End FunP.
