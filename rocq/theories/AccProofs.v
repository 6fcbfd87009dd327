(** Proofs about the stacked accessors (C80). *)
From Coq Require Import ZArith List Bool Lia Floats.SpecFloat.
From Verif Require Import SegModel SegSpec SegProofs ViewModel EcsModel EcsSpec EcsMainProofs EcsFinalProofs EcsRhsModel EcsRhsSpec EcsRhsProofs NanModel NanProofs
  ImplModel ImplSpec HierModel HierSpec HierProofs HierRhsProofs HierErrProofs BySubModel BySubSpec BySubProofs AccModel AccSpec.
Import ListNotations.
Local Open Scope nat_scope.

Lemma skipn_twice {A} (a b : nat) (l : list A) : skipn a (skipn b l) = skipn (b + a) l.
Proof. revert l. induction b as [|b IH]; intros [|x l]; cbn; try reflexivity; [apply skipn_nil|apply IH]. Qed.
Lemma put_all_spec {A} (xs : list (list A)) : forall (v : list A) pre, 
  (length pre + length (concat xs) <= length (pre ++ v) -> put_all (pre ++ v) (length pre) xs = Some (pre ++ concat xs ++ skipn (length (concat xs)) v, length pre + length (concat xs))) /\
  (length (pre ++ v) < length pre + length (concat xs) -> put_all (pre ++ v) (length pre) xs = None).
Proof.
  induction xs as [|x xs IH]; intros v pre.
  - cbn. split; [rewrite Nat.add_0_r; reflexivity|]. rewrite app_length. lia.
  - cbn [put_all concat]. rewrite !app_length. unfold set_segment. rewrite app_length.
    destruct (Nat.leb_spec (length pre + length x) (length pre + length v)) as [H|H].
    + rewrite firstn_exact by reflexivity. rewrite skipn_app, skipn_all2 by lia. cbn [app].
      replace (length pre + length x - length pre) with (length x) by lia.
      rewrite app_assoc. destruct (IH (skipn (length x) v) (pre ++ x)) as [I1 I2].
      rewrite (app_length (pre ++ x)), (app_length pre x), skipn_length in I1, I2. split; intros L.
      * rewrite I1 by lia. f_equal. f_equal; [|lia]. rewrite <- !app_assoc. do 3 f_equal.
        rewrite skipn_twice. reflexivity.
      * rewrite I2 by lia. reflexivity.
    + split; [lia|reflexivity].
Qed.
Lemma put_all_0 {A} (xs : list (list A)) (v : list A) :
  put_all v 0 xs = if Nat.leb (length (concat xs)) (length v)
    then Some (concat xs ++ skipn (length (concat xs)) v, length (concat xs)) else None.
Proof.
  destruct (put_all_spec xs v []) as [A1 A2]. cbn [app length] in *. rewrite !Nat.add_0_l in *.
  destruct (Nat.leb_spec (length (concat xs)) (length v)); auto.
Qed.

(** errors of constraints, each with the right hand side stored for it *)
Section P.
Context {F V : Type}.
Variable feq : F -> F -> bool.
Variable zero : V.
Variable mem : imp V -> list V -> Prop.
Variable okq : (Z -> V) -> Prop.
Hypothesis E : equivalence feq.
Notation wf_ic := (wf_ic zero mem okq).
Notation ic := (ic F V).
Notation hs := (hs F V).
Notation lvl := (lvl F V).
Notation inv := (inv feq zero mem okq).
Notation hreach := (hreach feq zero mem okq).

Lemma lvls_at (s : hs) adds {B} (g : lvl -> B) (h : list ic -> B) : inv s adds -> (forall p l, nth_error (lvls s) p = Some l -> g l = h (at_level adds p)) ->
  map g (lvls s) = map h (map (at_level adds) (seq 0 (nlevels adds))).
Proof.
  intros I H. apply nth_error_ext. intros p. rewrite !nth_error_map.
  destruct (nth_error (lvls s) p) as [l|] eqn:El.
  - assert (Hp : p < nlevels adds) by (rewrite <- (inv_len _ _ _ _ _ _ I); apply nth_error_Some; congruence).
    rewrite nth_error_nth' with (d := 0) by (rewrite seq_length; exact Hp). rewrite seq_nth by exact Hp. cbn. rewrite (H p l El). reflexivity.
  - apply nth_error_None in El. rewrite (inv_len _ _ _ _ _ _ I) in El.
    rewrite (proj2 (nth_error_None _ _)) by (rewrite seq_length; exact El). reflexivity.
Qed.
Lemma concat_map_map {A B C} (f : A -> list B) (g : B -> list C) l : concat (map (fun x => concat (map g (f x))) l) = concat (map g (concat (map f l))).
Proof. induction l as [|x l IH]; [reflexivity|]. cbn. rewrite map_app, concat_app, IH. reflexivity. Qed.
Lemma in_order_In adds (c : ic) : In c (in_order adds) <-> exists p, In (c, p) adds.
Proof.
  unfold in_order. rewrite in_concat. split.
  - intros (x & Hx & Hc). apply in_map_iff in Hx as (p & <- & _). apply at_level_In in Hc. eauto.
  - intros (p & H). exists (at_level adds p). split; [apply in_map, in_seq; split; [lia|]; cbn; eapply nlevels_In, H|]. apply at_level_In, H.
Qed.
Lemma fold_left_map {A} (f : A -> nat) (l : list A) : forall n, fold_left (fun n x => n + f x) l n = fold_left (fun n x => n + x) (map f l) n.
Proof. induction l as [|a l IH]; intros n; [reflexivity|]. cbn. apply IH. Qed.
Lemma fold_sum (l : list nat) : forall n, fold_left (fun n x => n + x) l n = n + list_sum l.
Proof. induction l as [|a l IH]; intros n; cbn [fold_left]; [cbn; lia|]. rewrite IH. change (list_sum (a :: l)) with (a + list_sum l). lia. Qed.
Lemma sum_nv_concat (cs : list (list ic)) : sum_nv (concat cs) = list_sum (map sum_nv cs).
Proof. unfold sum_nv. induction cs as [|c cs IH]; [reflexivity|]. cbn. rewrite map_app, list_sum_app, IH. reflexivity. Qed.
Lemma dimension_spec (s : hs) adds : hreach s adds -> dimension s = sum_nv (in_order adds).
Proof.
  intros R. assert (I := hreach_inv _ _ _ _ _ _ R). unfold dimension, in_order. rewrite (fold_left_map l_nv), fold_sum.
  rewrite (lvls_at s adds _ sum_nv I); [|intros p l Hl; apply (inv_lvl _ _ _ _ _ _ I _ _ Hl)]. rewrite sum_nv_concat. reflexivity.
Qed.

Lemma concat_length_sum {A} (f : ic -> list A) (n : ic -> nat) cs : (forall c, In c cs -> length (f c) = n c) ->
  length (concat (map f cs)) = list_sum (map n cs).
Proof. induction cs as [|c cs IH]; intros H; [reflexivity|]. cbn. rewrite app_length, (H c (or_introl eq_refl)), IH by (intros d Hd; apply H; right; exact Hd). reflexivity. Qed.

Lemma get_value_spec (s : hs) adds q v w : hreach s adds ->
  get_value s q v = Some w <->
  length v = sum_nq (in_order adds) /\ w = concat (map (fun c => s_fun (ic_s c) q) (in_order adds)).
Proof.
  intros R. assert (I := hreach_inv _ _ _ _ _ _ R). unfold get_value.
  rewrite (lvls_at s adds _ (fun cs => concat (map (fun c : ic => s_fun (ic_s c) q) cs)) I);
    [|intros p l Hl; unfold level_value; rewrite (proj1 (inv_lvl _ _ _ _ _ _ I _ _ Hl)); reflexivity].
  rewrite map_map. rewrite put_all_0, concat_map_map. fold (in_order adds).
  set (x := concat (map (fun c : ic => s_fun (ic_s c) q) (in_order adds))).
  assert (Lx : length x = sum_nq (in_order adds)).
  { unfold x. apply concat_length_sum. intros c Hc. apply in_order_In in Hc as (p & Hc). apply (inv_wf _ _ _ _ _ _ I) in Hc. apply Hc. }
  rewrite <- Lx. destruct (Nat.leb_spec (length x) (length v)) as [H|H].
  - destruct (Nat.eqb_spec (length v) (length x)) as [H'|H'].
    + rewrite <- H', skipn_all, app_nil_r. split; [intros G; injection G as <-; auto|intros [_ ->]; reflexivity].
    + split; [discriminate|]. intros [G _]. contradiction.
  - split; [discriminate|]. intros [G _]. lia.
Qed.

Variables (add sub : V -> V -> V) (neg : V -> V) (ltb : V -> V -> bool).
Notation con_error := (con_error zero add sub neg ltb).

Notation own_error := (own_error feq zero add sub neg ltb).
Lemma piece_errors_own thr q (s : hs) adds p l : inv s adds -> nth_error (lvls s) p = Some l ->
  Forall2 (own_error thr q s) (at_level adds p) (piece_errors zero add sub neg ltb thr (l_cons l) (l_rhs l) q).
Proof.
  intros I Hl. destruct (inv_lvl _ _ _ _ _ _ I _ _ Hl) as (A1 & A2 & A3 & A4 & A5 & A6 & A7 & A8 & A9).
  rewrite A1. unfold piece_errors.
  assert (G : forall j c, nth_error (at_level adds p) j = Some c -> exists k, nth_error adds k = Some (c, p) /\ length (at_level (firstn k adds) p) = j).
  { clear. intros j c Hc. revert j Hc. induction adds as [|[d t] adds IH]; intros j Hc; [destruct j; discriminate|].
    unfold at_level in Hc. cbn in Hc. destruct (Nat.eqb_spec t p) as [->|Ht].
    - cbn in Hc. destruct j as [|j].
      + injection Hc as ->. exists 0. auto.
      + cbn in Hc. destruct (IH j Hc) as (k & K1 & K2). exists (S k). split; [exact K1|]. unfold at_level in *. cbn. rewrite Nat.eqb_refl. cbn. congruence.
    - destruct (IH j Hc) as (k & K1 & K2). exists (S k). split; [exact K1|]. unfold at_level in *. cbn. rewrite (proj2 (Nat.eqb_neq t p) Ht). exact K2. }
  assert (K : forall j c, nth_error (at_level adds p) j = Some c -> exists r,
    nth_error (combine (at_level adds p) (pieces (map ic_s (at_level adds p)) (l_rhs l))) j = Some (c, r) /\
    get_rhs_of feq s (ic_f c) (s_nq (ic_s c)) = Some (Some r)).
  { intros j c Hj. destruct (G j c Hj) as (k & Hk & Ej). eexists. split.
    - rewrite <- Ej. eapply piece_at; [exact A9|apply at_level_split, Hk].
    - destruct (lookup_at feq zero mem okq E s adds (ic_f c) k c p I Hk) as (l' & B1 & B2 & B3 & B4 & B5); [apply (proj1 E)|].
      unfold get_rhs_of. rewrite B1, B2, Hl. unfold segment. rewrite A9.
      destruct (Nat.leb_spec (sum_nq (at_level (firstn k adds) p) + s_nq (ic_s c)) (sum_nq (at_level adds p))) as [_|L]; [reflexivity|].
      exfalso. rewrite (offset_end _ _ _ _ Hk) in L. pose proof (offset_total adds (S k) p). lia. }
  clear - K. revert K. set (ps := combine _ _).
  assert (Lp : length ps = length (at_level adds p)).
  { unfold ps. rewrite combine_length, pieces_length, map_length. lia. }
  clearbody ps. revert ps Lp. generalize (at_level adds p) as cs.
  induction cs as [|c cs IH]; intros [|x ps] L K; try discriminate; cbn; constructor.
  - destruct (K 0 c eq_refl) as (r & K1 & K2). injection K1 as ->. exists r. auto.
  - apply IH; [cbn in L; lia|]. intros j d Hj. exact (K (S j) d Hj).
Qed.
Lemma errors_of_own thr q (s : hs) adds : inv s adds -> exists es ess, errors_of zero add sub neg ltb thr (lvls s) q = Some es /\
  Forall2 (own_error thr q s) (in_order adds) ess /\ concat es = concat ess /\ length (concat es) = sum_nv (in_order adds).
Proof.
  intros I. destruct (errors_of_spec feq zero mem okq add sub neg ltb thr q s adds I (lvls s)) as (es & E1 & E2); [auto|].
  exists es, (concat (map (fun l => piece_errors zero add sub neg ltb thr (l_cons l) (l_rhs l) q) (lvls s))).
  split; [exact E1|].
  assert (A : Forall2 (own_error thr q s) (in_order adds) (concat (map (fun l => piece_errors zero add sub neg ltb thr (l_cons l) (l_rhs l) q) (lvls s)))).
  { assert (H : forall n k, k + n <= length (lvls s) -> Forall2 (own_error thr q s) (concat (map (at_level adds) (seq k n)))
        (concat (map (fun l => piece_errors zero add sub neg ltb thr (l_cons l) (l_rhs l) q) (firstn n (skipn k (lvls s)))))).
    { induction n as [|n IH]; intros k L; [constructor|].
      destruct (nth_error (lvls s) k) as [l|] eqn:El; [|apply nth_error_None in El; lia].
      assert (Es : skipn k (lvls s) = l :: skipn (S k) (lvls s)).
      { clear - El. revert k El. generalize (lvls s). induction l0 as [|a l0 IH]; intros [|k] H; try discriminate; [injection H as ->; reflexivity|]. apply IH, H. }
      rewrite Es. cbn [seq map concat firstn]. apply Forall2_app; [apply piece_errors_own; assumption|]. apply IH. lia. }
    assert (Ln := inv_len _ _ _ _ _ _ I). specialize (H (nlevels adds) 0). rewrite <- Ln in H. cbn [skipn] in H. rewrite firstn_all in H. unfold in_order. rewrite <- Ln. apply H. lia. }
  split; [exact A|]. split.
  - clear - E2. induction E2 as [|l e ls es H E2 IH]; [reflexivity|]. cbn. rewrite concat_app, IH, H. reflexivity.
  - assert (Ec : concat es = concat (concat (map (fun l => piece_errors zero add sub neg ltb thr (l_cons l) (l_rhs l) q) (lvls s)))).
    { clear - E2. induction E2 as [|l e ls es H E2 IH]; [reflexivity|]. cbn. rewrite concat_app, IH, H. reflexivity. }
    rewrite Ec. assert (W : forall c, In c (in_order adds) -> wf_ic c).
    { intros c Hc. apply in_order_In in Hc as (p & Hc). eapply (inv_wf _ _ _ _ _ _ I), Hc. }
    assert (Lr : forall c r, In c (in_order adds) -> get_rhs_of feq s (ic_f c) (s_nq (ic_s c)) = Some (Some r) -> length r = s_nq (ic_s c)).
    { intros c r _. unfold get_rhs_of. destruct (find_f feq (ic_f c) (prio s)) as [p|]; [|discriminate]. destruct (find_f feq (ic_f c) (iqm s)) as [iq|]; [|discriminate].
      destruct (nth_error (lvls s) p) as [l|]; [|discriminate]. unfold segment. destruct (Nat.leb_spec (iq + s_nq (ic_s c)) (length (l_rhs l))); [|discriminate].
      intros X. injection X as <-. rewrite firstn_length, skipn_length. lia. }
    clear - A W Lr. induction A as [|c e cs es (r & R1 & ->) A IH]; [reflexivity|]. cbn [concat]. rewrite app_length.
    rewrite IH by (intros; first [apply W; right; assumption | eapply Lr; [right|]; eassumption]).
    destruct (W c (or_introl eq_refl)) as (W1 & W2 & W3 & W4 & W5 & W6). assert (L := Lr c r (or_introl eq_refl) R1).
    unfold HierSpec.con_error. rewrite rows_error_length; [|rewrite W2; symmetry; apply W4|rewrite (W6 _ _ (W5 q) L); symmetry; apply W4].
    rewrite (proj1 W4). reflexivity.
Qed.
Lemma residual_error_spec (s : hs) adds thr q v : hreach s adds ->
  exists es, Forall2 (own_error thr q s) (in_order adds) es /\ length (concat es) = dimension s /\
  (dimension s <= length v -> residual_error zero add sub neg ltb s thr q v = Some (concat es ++ skipn (dimension s) v)) /\
  (length v < dimension s -> residual_error zero add sub neg ltb s thr q v = None).
Proof.
  intros R. assert (I := hreach_inv _ _ _ _ _ _ R). rewrite (dimension_spec s adds R).
  destruct (errors_of_own thr q s adds I) as (es & ess & E1 & E2 & E3 & E4). exists ess. split; [exact E2|]. split; [congruence|].
  unfold residual_error. rewrite E1, put_all_0, E4, <- E3.
  destruct (Nat.leb_spec (sum_nv (in_order adds)) (length v)) as [H|H]; split; intros L; try lia; reflexivity.
Qed.
End P.

(** stacked matrices *)
Section J.
Context {K : Type}.
Open Scope Z_scope.
Lemma zsum_nonneg (rs : list (mat K)) : (forall r, In r rs -> 0 <= nr r) -> 0 <= zsum (map nr rs).
Proof. induction rs as [|r rs IH]; intros H; cbn; [lia|]. assert (0 <= nr r) by (apply H; left; reflexivity). assert (0 <= zsum (map nr rs)) by (apply IH; intros; apply H; right; assumption). unfold zsum in *. lia. Qed.
Lemma put_rows_spec (rs : list (mat K)) : forall J row, 0 <= row -> 0 <= nc J -> row <= nr J -> (forall r, In r rs -> 0 <= nr r) ->
  ((forall r, In r rs -> nc r = nc J) /\ row + zsum (map nr rs) <= nr J ->
    exists J', put_rows J row rs = Some (J', row + zsum (map nr rs)) /\ nr J' = nr J /\ nc J' = nc J /\
    (forall k r i j, nth_error rs k = Some r -> 0 <= i < nr r -> 0 <= j < nc J -> at_ J' (row + zsum (map nr (firstn k rs)) + i) j = at_ r i j) /\
    (forall i j, 0 <= i < row -> at_ J' i j = at_ J i j)) /\
  (~ ((forall r, In r rs -> nc r = nc J) /\ row + zsum (map nr rs) <= nr J) -> put_rows J row rs = None).
Proof.
  induction rs as [|r rs IH]; intros J row Hrow Hc Hr Hn.
  - split.
    + intros _. exists J. cbn. split; [rewrite Z.add_0_r; reflexivity|]. repeat split. intros [|k] ? ? ? X; discriminate.
    + intros H. exfalso. apply H. split; [intros ? []|]. cbn. lia.
  - assert (Hr0 : 0 <= nr r) by (apply Hn; left; reflexivity).
    assert (Hrs : forall x, In x rs -> 0 <= nr x) by (intros; apply Hn; right; assumption).
    assert (Hz := zsum_nonneg rs Hrs). cbn [put_rows map]. change (zsum (nr r :: map nr rs)) with (nr r + zsum (map nr rs)).
    unfold put, in_range.
    destruct (Z.eqb_spec (nc r) (nc J)) as [Ec|Ec].
    + destruct (Z.leb_spec (row + nr r) (nr J)) as [L|L].
      * replace (_ && _) with true by (symmetry; rewrite !andb_true_iff; repeat split; apply Z.leb_le; lia).
        set (J1 := mkmat _ _ _). destruct (IH J1 (row + nr r)) as [I1 I2]; [lia|exact Hc|exact L|exact Hrs|].
        split.
        -- intros [H1 H2]. destruct I1 as (J' & P1 & P2 & P3 & P4 & P5).
           { split; [intros x Hx; apply H1; right; exact Hx|cbn; lia]. }
           exists J'. split; [rewrite P1; do 2 f_equal; lia|]. split; [exact P2|]. split; [exact P3|]. split.
           ++ intros [|k] x i j Hk Hi Hj.
              ** injection Hk as <-. cbn [firstn map]. change (zsum []) with 0. rewrite P5 by lia. cbn.
                 replace (row + 0 + i - row) with i by lia. replace (j - 0) with j by lia.
                 replace (_ && _) with true; [reflexivity|]. symmetry. rewrite !andb_true_iff. repeat split; first [apply Z.leb_le|apply Z.ltb_lt]; lia.
              ** cbn [firstn map nth_error] in *. change (zsum (nr r :: ?a)) with (nr r + zsum a).
                 rewrite <- (P4 k x i j Hk Hi Hj). f_equal. lia.
           ++ intros i j Hi. rewrite P5 by lia. cbn. replace (row <=? i) with false by (symmetry; apply Z.leb_gt; lia). reflexivity.
        -- intros H. apply I2. intros [G1 G2]. apply H. split; [intros x [<-|Hx]; [exact Ec|apply G1, Hx]|cbn in G2; lia].
      * replace (_ && _) with false by (symmetry; rewrite !andb_false_r, ?andb_false_l; cbn; rewrite ?andb_false_r; reflexivity).
        split; [intros [_ H]; lia|reflexivity].
    + cbn. split; [intros [H _]; exfalso; apply Ec, H; left; reflexivity|reflexivity].
Qed.
Lemma reduced_jacobian_spec {F V} (act : ic F V -> bool) (s : hs F V) (J : mat K) (rs : list (mat K)) : 0 <= nc J -> 0 <= nr J ->
  Forall2 (fun l r => nr r = cardinal (active_rows_of_J act l)) (lvls s) rs -> (forall r, In r rs -> 0 <= nr r) ->
  ((forall r, In r rs -> nc r = nc J) /\ nr J = reduced_dim act s ->
    exists J', get_reduced_jacobian J rs = Some J' /\ nr J' = nr J /\ nc J' = nc J /\
    forall k r i j, nth_error rs k = Some r -> 0 <= i < nr r -> 0 <= j < nc J -> at_ J' (zsum (map nr (firstn k rs)) + i) j = at_ r i j) /\
  (~ ((forall r, In r rs -> nc r = nc J) /\ nr J = reduced_dim act s) -> get_reduced_jacobian J rs = None).
Proof.
  intros Hc Hr F2 Hn. assert (Ed : reduced_dim act s = zsum (map nr rs)).
  { unfold reduced_dim. clear - F2. induction F2 as [|l r ls rs H F2 IH]; [reflexivity|]. cbn in *. rewrite IH, H. reflexivity. }
  rewrite Ed. unfold get_reduced_jacobian. destruct (put_rows_spec rs J 0 (Z.le_refl 0) Hc Hr Hn) as [A B]. cbn [Z.add] in A, B. split.
  - intros [H1 H2]. destruct A as (J' & P1 & P2 & P3 & P4 & _); [split; [exact H1|lia]|]. exists J'. rewrite P1. split; [rewrite P2, H2, Z.eqb_refl; reflexivity|]. auto.
  - intros H. destruct (put_rows J 0 rs) as [[J' row]|] eqn:Ep; [|reflexivity].
    destruct (Z.eqb_spec (nr J') row) as [Er|Er]; [|reflexivity]. exfalso. apply H.
    assert (D : (forall r, In r rs -> nc r = nc J) /\ zsum (map nr rs) <= nr J \/ ~ ((forall r, In r rs -> nc r = nc J) /\ zsum (map nr rs) <= nr J)).
    { destruct (Z_le_dec (zsum (map nr rs)) (nr J)) as [L|L]; [|right; intros [_ X]; contradiction].
      destruct (forallb (fun r => nc r =? nc J) rs) eqn:Ef.
      - left. split; [|exact L]. intros r X. rewrite forallb_forall in Ef. apply Z.eqb_eq, Ef, X.
      - right. intros [X _]. rewrite (proj2 (forallb_forall _ _)) in Ef; [discriminate|]. intros r Hx. apply Z.eqb_eq, X, Hx. }
    destruct D as [D|D]; [|specialize (B D); discriminate].
    destruct (A D) as (J'' & P1 & P2 & _). injection P1 as -> ->. split; [apply D|]. congruence.
Qed.
End J.

(** active parameters *)
Lemma orb_all_spec a : forall b, length a = length b -> exists r, orb_all a b = Some r /\ length r = length a /\
  forall i, nth i r false = nth i a false || nth i b false.
Proof.
  induction a as [|x a IH]; intros [|y b] L; try discriminate.
  - exists []. split; [reflexivity|]. split; [reflexivity|]. intros [|i]; reflexivity.
  - destruct (IH b) as (r & R1 & R2 & R3); [cbn in L; lia|]. exists ((x || y) :: r). cbn. rewrite R1. split; [reflexivity|]. split; [cbn; lia|].
    intros [|i]; [reflexivity|]. apply R3.
Qed.
Lemma orb_all_len a : forall b r, orb_all a b = Some r -> length a = length b.
Proof. induction a as [|x a IH]; intros [|y b] r H; try discriminate; [reflexivity|]. cbn in *. destruct (orb_all a b) eqn:X; [|discriminate]. f_equal. eapply IH, X. Qed.
Lemma set_par_spec n fs : forall a, length a = n -> (forall f, In f fs -> length f = n) -> exists r, set_par a fs = Some r /\ length r = n /\
  forall i, nth i r false = nth i a false || existsb (fun f => nth i f false) fs.
Proof.
  induction fs as [|f fs IH]; intros a La H.
  - exists a. split; [reflexivity|]. split; [exact La|]. intros i. cbn. rewrite orb_false_r. reflexivity.
  - destruct (orb_all_spec a f) as (b & B1 & B2 & B3); [rewrite (H f (or_introl eq_refl)); exact La|].
    destruct (IH b) as (r & R1 & R2 & R3); [lia|intros; apply H; right; assumption|]. exists r. cbn. rewrite B1. split; [exact R1|]. split; [exact R2|].
    intros i. rewrite R3, B3, orb_assoc. reflexivity.
Qed.
Lemma par_loop_spec n ls : forall a, length a = n -> (forall l, In l ls -> l <> []) -> (forall l f, In l ls -> In f l -> length f = n) ->
  exists r, par_loop a ls = Some r /\ length r = n /\ forall i, nth i r false = nth i a false || existsb (fun f => nth i f false) (concat ls).
Proof.
  induction ls as [|l ls IH]; intros a La NE H.
  - exists a. split; [reflexivity|]. split; [exact La|]. intros i. cbn. rewrite orb_false_r. reflexivity.
  - destruct l as [|f l]; [exfalso; apply (NE []); [left|]; reflexivity|].
    destruct (set_par_spec n l f) as (b & B1 & B2 & B3); [apply (H (f :: l) f); left; reflexivity|intros g Hg; apply (H (f :: l) g); [left; reflexivity|right; exact Hg]|].
    destruct (orb_all_spec a b) as (c & C1 & C2 & C3); [congruence|].
    destruct (IH c) as (r & R1 & R2 & R3); [congruence|intros; apply NE; right; assumption|intros; eapply H; [right|]; eassumption|].
    exists r. cbn [par_loop level_par]. rewrite B1, C1. split; [exact R1|]. split; [exact R2|]. intros i. rewrite R3, C3, B3. cbn [concat]. rewrite existsb_app. cbn [existsb]. rewrite !orb_assoc. reflexivity.
Qed.
Lemma par_loop_gap n ls : forall a, length a = n -> n <> 0 -> In [] ls -> (forall l f, In l ls -> In f l -> length f = n) -> par_loop a ls = None.
Proof.
  induction ls as [|l ls IH]; intros a La Hn Hi H; [destruct Hi|].
  cbn [par_loop]. destruct l as [|f l].
  - cbn [level_par]. destruct a as [|x a]; [cbn in La; lia|reflexivity].
  - destruct (set_par_spec n l f) as (b & B1 & B2 & _); [apply (H (f :: l) f); left; reflexivity|intros g Hg; apply (H (f :: l) g); [left; reflexivity|right; exact Hg]|].
    destruct (orb_all_spec a b) as (c & C1 & C2 & _); [congruence|]. cbn [level_par]. rewrite B1, C1.
    apply IH; [congruence|exact Hn| |intros; eapply H; [right|]; eassumption]. destruct Hi as [Hi|Hi]; [discriminate|exact Hi].
Qed.
Lemma active_parameters_spec n ls : (forall l f, In l ls -> In f l -> length f = n) ->
  ((forall l, In l ls -> l <> []) -> exists r, active_parameters n ls = Some r /\ length r = n /\
     forall i, nth i r false = true <-> exists l f, In l ls /\ In f l /\ nth i f false = true) /\
  (n <> 0 -> In [] ls -> active_parameters n ls = None).
Proof.
  intros H. split.
  - intros NE. destruct (par_loop_spec n ls (repeat false n) (repeat_length _ _) NE H) as (r & R1 & R2 & R3). exists r. split; [exact R1|]. split; [exact R2|].
    intros i. rewrite R3. replace (nth i (repeat false n) false) with false by (clear; revert i; induction n; intros [|i]; cbn; auto).
    cbn. rewrite existsb_exists. split.
    + intros (f & Hf & Hi). apply in_concat in Hf as (l & L1 & L2). eauto.
    + intros (l & f & L1 & L2 & Hi). exists f. split; [apply in_concat; eauto|exact Hi].
  - intros Hn Hi. apply (par_loop_gap n); auto. apply repeat_length.
Qed.

(** solver by substitution *)
Section B.
Context {F V : Type}.
Variable feq : F -> F -> bool.
Variable zero : V.
Variable iadd : Z -> Z -> Z.
Variable mem : imp V -> list V -> Prop.
Variable okq : (Z -> V) -> Prop.
Hypothesis E : equivalence feq.
Variable P : con V (list V) -> Prop.
Variables n m : Z.
Hypothesis HF : family n m P.
Notation bc := (bc F V).
Notation bs := (bs F V).
Notation breach := (breach feq zero iadd mem okq P n m).
Lemma out_ders_card (s : bs) l : breach s l ->
  cardinal (outDers (bs_e s)) = zsum (map (fun c => cardinal (c_outv c)) (excons l)).
Proof.
  intros R. pose proof (breach_inv _ _ _ _ _ _ _ _ HF _ _ R) as I. destruct (bi_e _ _ _ _ _ _ _ _ _ _ I) as (st & Rst & Es).
  destruct (@index_sets _ _ iadd P n m HF st Rst) as (_ & _ & _ & A & _ & _ & S).
  assert (Ed : data st = excons l) by (rewrite <- (bi_data _ _ _ _ _ _ _ _ _ _ I), Es; reflexivity).
  replace (outDers (bs_e s)) with (outDers st) by (rewrite Es; reflexivity).
  destruct (@no_double_no_cycle _ _ iadd P n m HF st Rst) as (_ & D & _). rewrite Ed in *.
  assert (Wd : forall c, In c (excons l) -> wf_con n m c).
  { intros c Hc. rewrite <- Ed in Hc. apply HF. eapply i_P; [eapply reach_inv; eassumption|exact Hc]. }
  rewrite (cardinal_distinct (outDers st) (flat_map (fun c => indices (c_outv c)) (excons l))).
  - clear - Wd. induction (excons l) as [|c cs IH]; [reflexivity|]. cbn [flat_map map]. change (zsum (?a :: ?t)) with (a + zsum t)%Z. rewrite app_length, Nat2Z.inj_add, IH by (intros; apply Wd; right; assumption).
    f_equal. symmetry. apply cardinal_indices. destruct (Wd c (or_introl eq_refl)) as (_ & _ & _ & _ & _ & W & _). intros x Hx. apply W in Hx. lia.
  - eapply i_outvn, reach_inv; eassumption.
  - apply sorted_separated_disjoint. rewrite Forall_forall in S. apply S. cbn. tauto.
  - clear - Wd D. revert Wd D. generalize (excons l) as cs. induction cs as [|c cs IH]; intros Wd D; [constructor|]. cbn [flat_map].
    apply NoDup_app_intro.
    + destruct (Wd c (or_introl eq_refl)) as (_ & (o & Eo) & _). rewrite Eo. cbn [indices flat_map]. unfold indices. cbn. rewrite app_nil_r. apply NoDup_zseq.
    + apply IH; [intros; apply Wd; right; assumption|]. intros k1 k2 c1 c2 i H1 H2 H3 H4. assert (X : S k1 = S k2) by (apply (D (S k1) (S k2) c1 c2 i); assumption). lia.
    + intros x H1 H2. apply in_flat_map in H2 as (d & Hd & H2). apply In_nth_error in Hd as [k Hk].
      assert (X : 0 = S k). { apply (D 0 (S k) c d x); [reflexivity|exact Hk|apply In_indices, H1|apply In_indices, H2]. } lia.
  - intros i. rewrite A. rewrite in_flat_map. split.
    + intros (c & Hc & Hi). exists c. split; [exact Hc|]. apply In_indices, Hi.
    + intros (c & Hc & Hi). exists c. split; [exact Hc|]. apply In_indices, Hi.
Qed.
Lemma error_size_spec (s : bs) l : breach s l ->
  error_size s = (Z.of_nat (dimension (bs_h s)) + zsum (map (fun c => cardinal (c_outv c)) (excons l)))%Z.
Proof. intros R. unfold error_size. rewrite (out_ders_card s l R). reflexivity. Qed.
Variables (add sub : V -> V -> V) (neg : V -> V) (ltb : V -> V -> bool).
Variable sqn : list V -> spec_float.
Notation con_error := (con_error zero add sub neg ltb).

Lemma both_spec (s : bs) l ineq d t u q : breach s l -> (last_optional (bs_h s) = true -> numeric_ones l <> []) ->
  exists b, both zero add sub neg ltb sqn d ineq s t u q = Some b /\
  (b = true <->
    flt fzero t = true /\ flt fzero (fmul (eff_thr d u) (eff_thr d u)) = true /\
    (forall c p r, In (c, p) (numeric_ones l) -> p < counted (bs_h s) (numeric_ones l) ->
       get_rhs_of feq (bs_h s) (ic_f c) (s_nq (ic_s c)) = Some (Some r) -> below (sqn (con_error ineq c q r)) t) /\
    (forall i c r, nth_error (explicit_ones l) i = Some c -> nth_error (rhsl (bs_e s)) i = Some r ->
       below (sqn (s_minus (ic_s (bc_c c)) (s_fun (ic_s (bc_c c)) q) r)) (fmul (eff_thr d u) (eff_thr d u)))).
Proof.
  intros R NE. pose proof (breach_inv _ _ _ _ _ _ _ _ HF _ _ R) as I.
  destruct (hsat_spec feq zero mem okq add sub neg ltb sqn E (bs_h s) (numeric_ones l) ineq t q (bi_h _ _ _ _ _ _ _ _ _ _ I) NE) as (b & B1 & B2).
  unfold both. rewrite B1. set (x := is_satisfied _ _ _ _ _ _).
  assert (X : fst x = true <-> flt fzero (fmul (eff_thr d u) (eff_thr d u)) = true /\
    (forall i c r, nth_error (explicit_ones l) i = Some c -> nth_error (rhsl (bs_e s)) i = Some r ->
       below (sqn (s_minus (ic_s (bc_c c)) (s_fun (ic_s (bc_c c)) q) r)) (fmul (eff_thr d u) (eff_thr d u)))).
  { unfold x. destruct (is_satisfied_spec sqn (bs_imps s) (rhsl (bs_e s)) q d u) as [S1 _].
    { rewrite (imps_ex _ _ _ _ _ _ _ _ _ _ I). unfold imps. rewrite map_length. apply I. }
    rewrite S1. rewrite (imps_ex _ _ _ _ _ _ _ _ _ _ I). unfold imps. split; intros [A B]; (split; [exact A|]).
    - intros i c r Hc Hr. apply (B i (ic_s (bc_c c)) r); [rewrite nth_error_map, Hc; reflexivity|exact Hr].
    - intros i c r Hc Hr. rewrite nth_error_map in Hc. destruct (nth_error (explicit_ones l) i) as [c'|] eqn:Ec; [|discriminate]. injection Hc as <-. apply (B i c' r Ec Hr). }
  destruct b.
  - eexists. split; [reflexivity|]. rewrite X. destruct (proj1 B2 eq_refl) as [G1 G2]. unfold below in *. tauto.
  - exists false. split; [reflexivity|]. split; [discriminate|]. intros (G1 & _ & G3 & _). apply B2. split; [exact G1|exact G3].
Qed.
Lemma verdicts (s : bs) l ineq d : breach s l -> (last_optional (bs_h s) = true -> numeric_ones l <> []) ->
  let verdict (r : option bool) (q : Z -> V) (t te : spec_float) := exists b, r = Some b /\
    (b = true <->
    flt fzero t = true /\ flt fzero te = true /\
    (forall c p r, In (c, p) (numeric_ones l) -> p < counted (bs_h s) (numeric_ones l) ->
       get_rhs_of feq (bs_h s) (ic_f c) (s_nq (ic_s c)) = Some (Some r) -> below (sqn (con_error ineq c q r)) t) /\
    (forall i c r, nth_error (explicit_ones l) i = Some c -> nth_error (rhsl (bs_e s)) i = Some r ->
       below (sqn (s_minus (ic_s (bc_c c)) (s_fun (ic_s (bc_c c)) q) r)) te)) in
  (forall sqthr q, verdict (bsat zero add sub neg ltb sqn sqthr d ineq s q) q sqthr (fmul d d)) /\
  (forall thr q, SFeqb thr minus_one = false -> verdict (bsat_thr zero add sub neg ltb sqn d ineq s q thr) q (fmul thr thr) (fmul thr thr)) /\
  (forall thr q, SFeqb thr minus_one = true -> verdict (bsat_thr zero add sub neg ltb sqn d ineq s q thr) q (fmul thr thr) (fmul d d)).
Proof.
  intros R NE verdict. subst verdict. cbv beta. split; [|split].
  - intros sqthr q. exact (both_spec s l ineq d sqthr minus_one q R NE).
  - intros thr q H. pose proof (both_spec s l ineq d (fmul thr thr) thr q R NE) as X. unfold eff_thr in X. rewrite H in X. exact X.
  - intros thr q H. pose proof (both_spec s l ineq d (fmul thr thr) thr q R NE) as X. unfold eff_thr in X. rewrite H in X. exact X.
Qed.
Lemma ex_sizes (s : bs) l q : breach s l -> let es := errors (bs_imps s) (rhsl (bs_e s)) q in
  Forall2 (explicit_error q s (explicit_ones l))
    (explicit_ones l) es /\
  length (concat es) = ex_error_size s /\ ex_error_size s = error_rows (explicit_ones l).
Proof.
  intros R es. pose proof (breach_inv _ _ _ _ _ _ _ _ HF _ _ R) as I.
  assert (Ez : ex_error_size s = error_rows (explicit_ones l)).
  { unfold ex_error_size. rewrite (fold_left_map s_nv), fold_sum. rewrite (imps_ex _ _ _ _ _ _ _ _ _ _ I). unfold imps. rewrite map_map. reflexivity. }
  assert (G : Forall2 (explicit_error q s (explicit_ones l))
    (explicit_ones l) es).
  { unfold es. rewrite (imps_ex _ _ _ _ _ _ _ _ _ _ I). unfold imps. pose proof (bi_len _ _ _ _ _ _ _ _ _ _ I) as L.
    assert (H : forall cs rl k, length rl = length cs -> (forall i c, nth_error cs i = Some c -> nth_error (explicit_ones l) (k + i) = Some c) ->
       (forall i c, nth_error rl i = Some c -> nth_error (rhsl (bs_e s)) (k + i) = Some c) ->
       Forall2 (explicit_error q s (explicit_ones l))
         cs (errors (map (fun c : bc => ic_s (bc_c c)) cs) rl q)).
    { induction cs as [|c cs IH]; intros [|r rl] k Lk H1 H2; try discriminate; cbn; constructor.
      - exists k, r. rewrite <- (Nat.add_0_r k). split; [apply H1; reflexivity|]. split; [apply H2; reflexivity|reflexivity].
      - apply (IH rl (S k)); [cbn in Lk; lia| |]; intros i c' Hi; rewrite Nat.add_succ_comm; [apply H1|apply H2]; exact Hi. }
    apply (H _ _ 0); [exact L|auto|auto]. }
  split; [exact G|]. split; [|exact Ez]. rewrite Ez.
  assert (W : forall c, In c (explicit_ones l) -> In c (map fst l)).
  { intros c Hc. apply explicit_In in Hc. apply (in_map fst) in Hc. exact Hc. }
  assert (Hl : forall (c : bc) i r, nth_error (explicit_ones l) i = Some c -> nth_error (rhsl (bs_e s)) i = Some r ->
    length (s_minus (ic_s (bc_c c)) (s_fun (ic_s (bc_c c)) q) r) = s_nv (ic_s (bc_c c))).
  { intros c i r Hc Hr. assert (Hin := nth_error_In _ _ Hc). apply explicit_In in Hin. destruct (bi_wf _ _ _ _ _ _ _ _ _ _ I _ _ Hin) as ((_ & _ & _ & W4 & W5 & W6) & _ & _).
    apply W6; [apply W5|]. destruct (bi_rhs _ _ _ _ _ _ _ _ _ _ I i (ic_s (bc_c c)) r) as [M _]; [unfold imps; rewrite nth_error_map, Hc; reflexivity|exact Hr|].
    destruct W4 as (_ & W4 & _). apply W4, M. }
  clear - G Hl. induction G as [|c e cs es (i & r & X1 & X2 & ->) G IH]; [reflexivity|]. cbn [concat map]. rewrite app_length, IH, (Hl c i r X1 X2). reflexivity.
Qed.
Lemma bsat_err_spec (s : bs) l ineq sqthr d q error : breach s l -> (last_optional (bs_h s) = true -> numeric_ones l <> []) ->
  (length error = dimension (bs_h s) + error_rows (explicit_ones l) ->
   exists b ies ees, bsat_err zero add sub neg ltb sqn sqthr d ineq s q error = Some (b, concat ies ++ concat ees) /\
     bsat zero add sub neg ltb sqn sqthr d ineq s q = Some b /\ length (concat ies) = dimension (bs_h s) /\
     Forall2 (own_error feq zero add sub neg ltb ineq q (bs_h s)) (in_order (numeric_ones l)) ies /\
     Forall2 (explicit_error q s (explicit_ones l))
       (explicit_ones l) ees) /\
  (length error <> dimension (bs_h s) + error_rows (explicit_ones l) ->
   bsat_err zero add sub neg ltb sqn sqthr d ineq s q error = None).
Proof.
  intros R NE. pose proof (breach_inv _ _ _ _ _ _ _ _ HF _ _ R) as I. destruct (ex_sizes s l q R) as (X1 & X2 & X3).
  unfold bsat_err. rewrite <- X3. split.
  - intros L. rewrite L, Nat.eqb_refl.
    destruct (hsat_spec feq zero mem okq add sub neg ltb sqn E (bs_h s) (numeric_ones l) ineq sqthr q (bi_h _ _ _ _ _ _ _ _ _ _ I) NE) as (b & B1 & _).
    destruct (residual_error_spec feq zero mem okq E add sub neg ltb (bs_h s) (numeric_ones l) ineq q (firstn (dimension (bs_h s)) error) (bi_h _ _ _ _ _ _ _ _ _ _ I)) as (ies & Y1 & Y2 & Y3 & _).
    unfold bsat, both. rewrite B1, Y3 by (rewrite firstn_length; lia).
    unfold is_satisfied. set (es := errors _ _ _) in *. unfold set_segment. rewrite skipn_length, L, X2.
    destruct (Nat.leb_spec (0 + ex_error_size s) (dimension (bs_h s) + ex_error_size s - dimension (bs_h s))) as [_|G]; [|lia].
    rewrite Nat.eqb_refl. cbn [firstn app Nat.add]. rewrite (skipn_all2 (skipn _ error)) by (rewrite skipn_length; lia). rewrite app_nil_r.
    rewrite (skipn_all2 (firstn _ error)) by (rewrite firstn_length; lia). rewrite app_nil_r.
    exists (b && flt (fold_left (fun s0 e => fmax s0 (sqn e)) es fzero) (fmul (eff_thr d minus_one) (eff_thr d minus_one))), ies, es.
    split; [reflexivity|]. split; [destruct b; reflexivity|]. split; [exact Y2|]. split; [exact Y1|exact X1].
  - intros L. rewrite (proj2 (Nat.eqb_neq _ _) L). reflexivity.
Qed.

End B.
