From Coq Require Import Reals List Bool Arith Lia Lra.
From Verif Require Import Geo GeoLemmas ConfModel ConfSpec.
Import ListNotations.
Local Open Scope R_scope.

Lemma rsum_ext n f g : (forall i, (i < n)%nat -> f i = g i) -> rsum n f = rsum n g.
Proof. induction n as [|n IH]; intros H; cbn; [reflexivity|]. rewrite IH by (intros; apply H; lia). rewrite H by lia. reflexivity. Qed.
Lemma rsum_scale n f c : rsum n (fun i => c * f i) = c * rsum n f.
Proof. induction n as [|n IH]; cbn; [ring|]. rewrite IH. ring. Qed.
Lemma rsum_scale_r n f c : rsum n f * c = rsum n (fun i => f i * c).
Proof. induction n as [|n IH]; cbn; [ring|]. rewrite <- IH. ring. Qed.
Lemma rsum_add n f g : rsum n (fun i => f i + g i) = rsum n f + rsum n g.
Proof. induction n as [|n IH]; cbn; [ring|]. rewrite IH. ring. Qed.
Lemma rsum_0 n f : (forall i, (i < n)%nat -> f i = 0) -> rsum n f = 0.
Proof. induction n as [|n IH]; intros H; cbn; [reflexivity|]. rewrite IH by (intros; apply H; lia). rewrite H by lia. ring. Qed.
Lemma rsum_swap n m f : rsum n (fun i => rsum m (f i)) = rsum m (fun j => rsum n (fun i => f i j)).
Proof.
  induction n as [|n IH]; cbn.
  - symmetry. apply rsum_0. reflexivity.
  - rewrite IH, <- rsum_add. reflexivity.
Qed.
Lemma rsum_nonneg n f : (forall i, (i < n)%nat -> 0 <= f i) -> 0 <= rsum n f /\ (rsum n f = 0 -> forall i, (i < n)%nat -> f i = 0).
Proof.
  induction n as [|n IH]; intros H; cbn.
  - split; [lra|intros _ i; lia].
  - destruct IH as [P Z]; [intros; apply H; lia|]. assert (P' := H n (Nat.lt_succ_diag_r n)). split; [lra|].
    intros E i Hi. destruct (Nat.eq_dec i n) as [->|]; [lra|]. apply Z; [lra|lia].
Qed.
Lemma rsum_deriv n f t d : (forall i, (i < n)%nat -> deriv (fun s => f s i) t (d i)) -> deriv (fun s => rsum n (f s)) t (rsum n d).
Proof. induction n as [|n IH]; intros H; cbn; [apply deriv_const|]. apply deriv_add; [apply IH; intros; apply H; lia|apply H; lia]. Qed.

Section V.
Context {Q : Type}.
Variables (n : nat) (diff : Q -> nat -> R) (dd : Q -> nat -> nat -> R) (ws : list R).
Lemma cc_value_zero q : (forall i, (i < n)%nat -> 0 <= nth i ws 0) ->
  0 <= cc_value n diff ws q /\ (cc_value n diff ws q = 0 <-> forall i, (i < n)%nat -> nth i ws 0 <> 0 -> diff q i = 0).
Proof.
  clear dd. intros W. unfold cc_value. destruct (rsum_nonneg n (fun i => w ws i * (diff q i * diff q i))) as [P Z].
  { intros i Hi. apply Rmult_le_pos; [apply W, Hi|nra]. }
  split; [lra|]. split.
  - intros E i Hi N. assert (E' : rsum n (fun i => w ws i * (diff q i * diff q i)) = 0) by lra. specialize (Z E' i Hi). cbn in Z.
    apply Rmult_integral in Z. destruct Z as [Z|Z]; [elim N; exact Z|]. apply Rmult_integral in Z. tauto.
  - intros H. rewrite rsum_0; [lra|]. intros i Hi. destruct (Req_dec (nth i ws 0) 0) as [E|E]; unfold w; [rewrite E; ring|rewrite (H i Hi E); ring].
Qed.
(** derivative of the value *)
Lemma cc_true A t v : diff_moves n diff dd A t v ->
  deriv (fun s => cc_value n diff ws (A s)) t (rsum n (fun i => nth i ws 0 * (diff (A t) i * apply n (dd (A t) i) v))).
Proof.
  intros M. unfold cc_value.
  eapply deriv_eq; [|apply deriv_scale, rsum_deriv; intros i Hi; apply deriv_scale, deriv_mul; apply (M i Hi)].
  rewrite <- rsum_scale. apply rsum_ext. intros i Hi. unfold w. lra.
Qed.
Lemma cc_jac A t v : diff_moves n diff dd A t v -> same_weights n dd ws (A t) ->
  deriv (fun s => cc_value n diff ws (A s)) t (apply n (cc_jacobian n diff dd ws (A t)) v).
Proof.
  intros M S. eapply deriv_eq; [|apply cc_true, M].
  transitivity (rsum n (fun i => rsum n (fun j => diff (A t) i * dd (A t) i j * nth j ws 0 * v j))).
  - apply rsum_ext. intros i Hi. unfold apply. rewrite <- !rsum_scale. apply rsum_ext. intros j Hj.
    destruct (Req_dec (dd (A t) i j) 0) as [E|E]; [rewrite E; ring|]. rewrite (S i j Hi Hj E). ring.
  - rewrite rsum_swap. unfold apply. apply rsum_ext. intros j Hj. unfold cc_jacobian, w. rewrite !rsum_scale_r. reflexivity.
Qed.
Lemma cc_column q j : nth j ws 0 = 0 -> cc_jacobian n diff dd ws q j = 0.
Proof. unfold cc_jacobian, w. intros ->. ring. Qed.
End V.

(** * active parameters *)
Lemma clear_len i n l : length (clear i n l) = length l.
Proof. unfold clear. rewrite map_length, combine_length, seq_length. lia. Qed.
Lemma nth_map' {A B} (f : A -> B) l k d d' : (k < length l)%nat -> nth k (map f l) d' = f (nth k l d).
Proof. intros H. rewrite (nth_indep _ d' (f d)) by (rewrite map_length; exact H). apply map_nth. Qed.
Lemma clear_nth i n l k : (k < length l)%nat -> nth k (clear i n l) false = if ((i <=? k) && (k <? i + n))%nat then false else nth k l false.
Proof.
  intros H. unfold clear. rewrite (nth_map' _ _ _ (0%nat, false)) by (rewrite combine_length, seq_length; lia).
  rewrite combine_nth by apply seq_length. cbn [fst snd]. rewrite seq_nth by lia. reflexivity.
Qed.
Lemma clear_false i n l k : (k < length l)%nat -> nth k (clear i n l) false = false <-> (i <= k < i + n)%nat \/ nth k l false = false.
Proof.
  intros H. rewrite clear_nth by exact H. destruct (Nat.leb_spec i k), (Nat.ltb_spec k (i + n)); cbn; split; intros X; try (left; lia); try (right; exact X); try reflexivity; destruct X as [X|X]; try exact X; lia.
Qed.
Definition actf (ws : list R) := fun (s : list bool * list bool) (j : jnt) => if all_zero ws j then (clear (jiq j) (jnq j) (fst s), clear (jiv j) (jnv j) (snd s)) else s.
Lemma fold_act ws js : forall s, let r := fold_left (actf ws) js s in
  length (fst r) = length (fst s) /\ length (snd r) = length (snd s) /\
  (forall k, (k < length (fst s))%nat -> nth k (fst r) false = false <-> nth k (fst s) false = false \/ exists j, In j js /\ inq j k /\ all_zero ws j = true) /\
  (forall k, (k < length (snd s))%nat -> nth k (snd r) false = false <-> nth k (snd s) false = false \/ exists j, In j js /\ inv j k /\ all_zero ws j = true).
Proof.
  induction js as [|j js IH]; intros s; cbn [fold_left].
  - cbv zeta. split; [reflexivity|]. split; [reflexivity|]. split; intros k _; (split; [now left|]); intros [E|(j & [] & _)]; exact E.
  - cbv zeta. specialize (IH (actf ws s j)). cbv zeta in IH. destruct IH as (L1 & L2 & A & B).
    assert (LA : length (fst (actf ws s j)) = length (fst s)) by (unfold actf; destruct (all_zero ws j); cbn [fst]; rewrite ?clear_len; reflexivity).
    assert (LB : length (snd (actf ws s j)) = length (snd s)) by (unfold actf; destruct (all_zero ws j); cbn [snd]; rewrite ?clear_len; reflexivity).
    assert (SA : forall k, (k < length (fst s))%nat -> nth k (fst (actf ws s j)) false = false <-> nth k (fst s) false = false \/ inq j k /\ all_zero ws j = true).
    { intros k H. unfold actf. destruct (all_zero ws j); cbn [fst]; [rewrite clear_false by exact H; unfold inq; tauto|]. split; [tauto|]. intros [E|[_ ?]]; [exact E|discriminate]. }
    assert (SB : forall k, (k < length (snd s))%nat -> nth k (snd (actf ws s j)) false = false <-> nth k (snd s) false = false \/ inv j k /\ all_zero ws j = true).
    { intros k H. unfold actf. destruct (all_zero ws j); cbn [snd]; [rewrite clear_false by exact H; unfold inv; tauto|]. split; [tauto|]. intros [E|[_ ?]]; [exact E|discriminate]. }
    rewrite L1, L2, LA, LB. split; [reflexivity|]. split; [reflexivity|]. rewrite LA in A. rewrite LB in B. split; intros k H.
    + rewrite A, SA by exact H. split.
      * intros [[E|[I Z]]|(j' & I & R)]; [now left|right; exists j; split; [now left|split; assumption]|right; exists j'; split; [now right|exact R]].
      * intros [E|(j' & [<-|I] & R)]; [left; now left|left; right; exact R|right; exists j'; split; assumption].
    + rewrite B, SB by exact H. split.
      * intros [[E|[I Z]]|(j' & I & R)]; [now left|right; exists j; split; [now left|split; assumption]|right; exists j'; split; [now right|exact R]].
      * intros [E|(j' & [<-|I] & R)]; [left; now left|left; right; exact R|right; exists j'; split; assumption].
Qed.
Lemma all_zero_iff ws j : (jiv j + jnv j <= length ws)%nat -> all_zero ws j = true <-> forall i, inv j i -> nth i ws 0 = 0.
Proof.
  intros L. unfold all_zero. rewrite forallb_forall. split.
  - intros H i [A B]. specialize (H (nth i ws 0)). unfold is0 in H. destruct (Req_EM_T (nth i ws 0) 0) as [E|E]; [exact E|]. 
    enough (false = true) by discriminate. apply H. replace i with (jiv j + (i - jiv j))%nat by lia. 
    assert (N : nth (jiv j + (i - jiv j)) ws 0 = nth (i - jiv j) (firstn (jnv j) (skipn (jiv j) ws)) 0).
    { rewrite <- (firstn_skipn (jiv j) ws) at 1. rewrite app_nth2; rewrite firstn_length_le by lia; [|lia]. rewrite <- (firstn_skipn (jnv j) (skipn (jiv j) ws)) at 1.
      rewrite app_nth1; [f_equal; lia|]. rewrite firstn_length_le; [lia|rewrite skipn_length; lia]. }
    rewrite N. apply nth_In. rewrite firstn_length_le; [lia|rewrite skipn_length; lia].
  - intros H x I. apply (In_nth _ _ 0) in I. destruct I as (k & Lk & <-). rewrite firstn_length_le in Lk by (rewrite skipn_length; lia).
    assert (N : nth k (firstn (jnv j) (skipn (jiv j) ws)) 0 = nth (jiv j + k) ws 0).
    { symmetry. rewrite <- (firstn_skipn (jiv j) ws) at 1. rewrite app_nth2; rewrite firstn_length_le by lia; [|lia]. rewrite <- (firstn_skipn (jnv j) (skipn (jiv j) ws)) at 1.
      rewrite app_nth1; [f_equal; lia|]. rewrite firstn_length_le; [lia|rewrite skipn_length; lia]. }
    rewrite N, H by (unfold inv; lia). unfold is0. destruct (Req_EM_T 0 0); [reflexivity|lra].
Qed.
Lemma set_weights_spec d ws : good_dev d ->
  (length ws <> d_nv d -> set_weights d ws = None) /\
  (length ws = d_nv d -> exists c, set_weights d ws = Some c /\ c_w c = ws /\ length (c_act c) = d_nq d /\ length (c_actd c) = d_nv d /\
    (forall k, (k < d_nq d)%nat -> nth k (c_act c) false = false <-> exists j, In j (d_joints d) /\ inq j k /\ forall i, inv j i -> nth i ws 0 = 0) /\
    (forall k, (k < d_nv d)%nat -> nth k (c_actd c) false = false <-> exists j, In j (d_joints d) /\ inv j k /\ forall i, inv j i -> nth i ws 0 = 0)).
Proof.
  intros G. unfold set_weights. split.
  - intros N. apply Nat.eqb_neq in N. now rewrite N.
  - intros L. rewrite (proj2 (Nat.eqb_eq _ _) L).
    pose proof (fold_act ws (d_joints d) (repeat true (d_nq d), repeat true (length ws))) as F. cbv zeta in F.
    change (fun (s : list bool * list bool) (j : jnt) => if all_zero ws j then (clear (jiq j) (jnq j) (fst s), clear (jiv j) (jnv j) (snd s)) else s) with (actf ws).
    destruct (fold_left (actf ws) (d_joints d) (repeat true (d_nq d), repeat true (length ws))) as [a ad]. cbn [fst snd] in F. rewrite !repeat_length in F.
    destruct F as (L1 & L2 & A & B). eexists. split; [reflexivity|]. cbn [c_w c_act c_actd]. split; [reflexivity|]. split; [exact L1|]. split; [lia|].
    assert (NR : forall m k, (k < m)%nat -> nth k (repeat true m) false = true).
    { intros m. induction m as [|m IH]; intros [|k] H; cbn; auto; try lia. apply IH. lia. }
    assert (AZ : forall j, In j (d_joints d) -> all_zero ws j = true <-> forall i, inv j i -> nth i ws 0 = 0).
    { intros j I. apply all_zero_iff. rewrite L. now apply (proj1 G). }
    split; intros k Hk.
    + rewrite A, NR by lia. split; [intros [?|(j & I & J & Z)]; [discriminate|exists j; split; [exact I|split; [exact J|now apply AZ]]]|].
      intros (j & I & J & Z). right. exists j. split; [exact I|split; [exact J|now apply AZ]].
    + rewrite B, NR by lia. split; [intros [?|(j & I & J & Z)]; [discriminate|exists j; split; [exact I|split; [exact J|now apply AZ]]]|].
      intros (j & I & J & Z). right. exists j. split; [exact I|split; [exact J|now apply AZ]].
Qed.
Lemma mask_weights_spec mask : forall n c, match mask_weights (repeat c n) mask with
  | Some ws => length ws = n /\ forall i, (i < n)%nat -> nth i ws 0 = if nth i mask true then c else 0
  | None => exists i, (n <= i < length mask)%nat /\ nth i mask true = false end.
Proof.
  induction mask as [|b m IH]; intros n c; cbn [mask_weights].
  - destruct n; (split; [apply repeat_length|]); intros i H; [lia|]. destruct i; cbn [nth repeat]; [reflexivity|].
    assert (NR : forall k i, (i < k)%nat -> nth i (repeat c k) 0 = c) by (induction k as [|k IHk]; intros [|i'] H'; cbn; auto; try lia; apply IHk; lia). apply NR. lia.
  - destruct n as [|n]; cbn [repeat].
    + destruct b; [|exists 0%nat; cbn; split; [lia|reflexivity]]. specialize (IH 0%nat c). cbn [repeat] in IH. destruct (mask_weights [] m) as [ws|].
      * destruct IH as [L _]. split; [exact L|]. intros i; lia.
      * destruct IH as (i & H & E). exists (S i). cbn. split; [lia|exact E].
    + specialize (IH n c). destruct b; destruct (mask_weights (repeat c n) m) as [ws|]; cbn [option_map].
      * destruct IH as [L E]. split; [cbn; lia|]. intros [|i] H; cbn; [reflexivity|apply E; lia].
      * destruct IH as (i & H & E). exists (S i). cbn. split; [lia|exact E].
      * destruct IH as [L E]. split; [cbn; lia|]. intros [|i] H; cbn; [reflexivity|apply E; lia].
      * destruct IH as (i & H & E). exists (S i). cbn. split; [lia|exact E].
Qed.
(** the value does not depend on inactive parameters *)
Lemma cc_active d ws c diff q q' : good_dev d -> local_diff d diff -> set_weights d ws = Some c ->
  (forall k, (k < d_nq d)%nat -> nth k (c_act c) false = true -> q k = q' k) ->
  cc_value (d_nv d) diff ws q = cc_value (d_nv d) diff ws q'.
Proof.
  intros G LD E H. destruct (set_weights_spec d ws G) as [N S].
  destruct (Nat.eq_dec (length ws) (d_nv d)) as [L|L]; [|rewrite (N L) in E; discriminate].
  destruct (S L) as (c' & E' & _ & L1 & L2 & A & B). rewrite E in E'. injection E' as <-.
  unfold cc_value. f_equal. apply rsum_ext. intros i Hi. unfold w. destruct (Req_dec (nth i ws 0) 0) as [Z|Z]; [rewrite Z; ring|].
  replace (diff q' i) with (diff q i); [reflexivity|]. apply LD; [exact Hi| |].
  - intros j I V k J. apply H; [destruct (proj1 G j I); unfold inq in J; lia|]. apply not_false_is_true. intros C.
    apply A in C; [|destruct (proj1 G j I); unfold inq in J; lia]. destruct C as (j' & I' & J' & Z'). rewrite (proj2 (proj2 G) j j' k I I' J J') in V. elim Z. now apply Z'.
  - intros NJ k Hk K. apply H; [exact Hk|]. apply not_false_is_true. intros C. apply A in C; [|exact Hk]. destruct C as (j' & I' & J' & _). now apply (K j' I').
Qed.
Lemma cc_inactive_column d ws c {Q} (diff : Q -> nat -> R) dd q k : good_dev d -> set_weights d ws = Some c -> (k < d_nv d)%nat -> nth k (c_actd c) false = false ->
  cc_jacobian (d_nv d) diff dd ws q k = 0.
Proof.
  intros G E Hk C. destruct (set_weights_spec d ws G) as [N S].
  destruct (Nat.eq_dec (length ws) (d_nv d)) as [L|L]; [|rewrite (N L) in E; discriminate].
  destruct (S L) as (c' & E' & _ & L1 & L2 & A & B). rewrite E in E'. injection E' as <-.
  apply B in C; [|exact Hk]. destruct C as (j & I & J & Z). apply cc_column. now apply Z.
Qed.

Lemma rsum_list n f : rsum n f = fold_right Rplus 0 (map f (seq 0 n)).
Proof.
  assert (A : forall l x, fold_right Rplus x l = fold_right Rplus 0 l + x) by (induction l as [|y l IH]; intros x; cbn; [lra|rewrite IH; lra]).
  induction n as [|n IH]; [reflexivity|]. rewrite seq_S, map_app, fold_right_app. cbn. rewrite A, IH. lra.
Qed.
Lemma cc_value_half {Q : Type} n (diff : Q -> nat -> R) ws q :
  2 * cc_value n diff ws q = fold_right Rplus 0 (map (fun i => nth i ws 0 * Rsqr (diff q i)) (seq 0 n)).
Proof. unfold cc_value. rewrite <- rsum_list. unfold w, Rsqr. lra. Qed.
