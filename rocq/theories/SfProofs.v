From Coq Require Import Reals List Bool ZArith Lia Lra.
From Verif Require Import Geo GeoLemmas Rigid ViewModel LogModel LogProofs LogMain LogDeriv GTModel VisModel VisSpec VisProofs SfModel SfSpec.
Import ListNotations.
Local Open Scope R_scope.

Lemma selected_cons b m : selected (b :: m) = (if b then [O] else []) ++ map S (selected m).
Proof.
  unfold selected. cbn [length seq filter].
  assert (E : filter (fun i => nth i (b :: m) false) (seq 1 (length m)) = map S (filter (fun i => nth i m false) (seq 0 (length m)))).
  { rewrite <- seq_shift. generalize (seq 0 (length m)). induction l as [|x l IH]; [reflexivity|]. cbn [map filter].
    change (nth (S x) (b :: m) false) with (nth x m false). destruct (nth x m false); cbn [map]; now rewrite IH. }
  rewrite E. destruct b; reflexivity.
Qed.
Lemma selected_lt m k i : nth_error (selected m) k = Some i -> (i < length m)%nat.
Proof. intros H. apply nth_error_In in H. apply filter_In in H as [H _]. apply in_seq in H. lia. Qed.

Lemma lset_length l i x : (i < length l)%nat -> length (lset l i x) = length l.
Proof. intros H. unfold lset. rewrite app_length, firstn_length. cbn [length]. rewrite skipn_length. lia. Qed.
Lemma lset_same l i x : (i < length l)%nat -> nth_error (lset l i x) i = Some x.
Proof. intros H. unfold lset. rewrite nth_error_app2; rewrite firstn_length; [|lia]. now replace (i - Nat.min i (length l))%nat with O by lia. Qed.
Lemma nth_error_skipn' (l : list R) n k : nth_error (skipn n l) k = nth_error l (n + k)%nat.
Proof. revert l. induction n as [|n IH]; intros l; [reflexivity|]. destruct l; [now destruct k|]. apply IH. Qed.
Lemma nth_error_firstn' (l : list R) n k : (k < n)%nat -> nth_error (firstn n l) k = nth_error l k.
Proof. revert l k. induction n as [|n IH]; intros l k H; [lia|]. destruct l; [now destruct k|]. destruct k; [reflexivity|]. cbn [firstn nth_error]. apply IH. lia. Qed.
Lemma lset_other l i x k : (i < length l)%nat -> k <> i -> nth_error (lset l i x) k = nth_error l k.
Proof.
  intros H D. unfold lset. destruct (Nat.lt_ge_cases k i) as [A|A].
  - rewrite nth_error_app1 by (rewrite firstn_length; lia). now apply nth_error_firstn'.
  - rewrite nth_error_app2; rewrite firstn_length; [|lia]. replace (k - Nat.min i (length l))%nat with (S (k - i - 1)) by lia.
    cbn [nth_error]. rewrite nth_error_skipn'. f_equal. lia.
Qed.

Lemma write_value_spec v : forall m i idx l, (i + length m <= length v)%nat -> (idx + length (selected m) <= length l)%nat ->
  exists l', write_value m v i idx l = Some l' /\ length l' = length l /\
  (forall k j, nth_error (selected m) k = Some j -> nth_error l' (idx + k) = nth_error v (i + j)) /\
  (forall k, (k < idx \/ idx + length (selected m) <= k)%nat -> nth_error l' k = nth_error l k).
Proof.
  induction m as [|b m IH]; intros i idx l Hv Hl.
  - exists l. split; [reflexivity|]. split; [reflexivity|]. split; [intros [|k] j E; discriminate E|reflexivity].
  - rewrite selected_cons in Hl |- *. rewrite app_length, map_length in Hl |- *. cbn [length] in Hv. destruct b; cbn [write_value app length] in *.
    + destruct (nth_error v i) as [x|] eqn:Ex; [|apply nth_error_None in Ex; lia].
      destruct (Nat.ltb_spec idx (length l)) as [A|A]; [|lia].
      destruct (IH (S i) (S idx) (lset l idx x)) as (l' & E & L & P & Q); [lia|rewrite lset_length; lia|].
      rewrite lset_length in L by lia. exists l'. split; [exact E|]. split; [exact L|]. split.
      * intros [|k] j H; cbn [nth_error] in H.
        -- injection H as <-. rewrite !Nat.add_0_r, Q by lia. rewrite lset_same by lia. now rewrite Ex.
        -- rewrite nth_error_map in H. destruct (nth_error (selected m) k) as [j'|] eqn:Ek; [|discriminate H]. injection H as <-.
           specialize (P k j' Ek). replace (idx + S k)%nat with (S idx + k)%nat by lia. rewrite P. f_equal. lia.
      * intros k Hk. rewrite Q by lia. apply lset_other; lia.
    + destruct (IH (S i) idx l) as (l' & E & L & P & Q); [lia|lia|].
      exists l'. split; [exact E|]. split; [exact L|]. split.
      * intros k j H. rewrite nth_error_map in H. destruct (nth_error (selected m) k) as [j'|] eqn:Ek; [|discriminate H]. injection H as <-.
        rewrite (P k j' Ek). f_equal. lia.
      * intros k Hk. apply Q. lia.
Qed.

Lemma write_rows_spec Je nv : nc Je = nv -> forall m i idx J, (0 <= i)%Z -> (0 <= idx)%Z -> (i + Z.of_nat (length m) <= nr Je)%Z ->
  (idx + Z.of_nat (length (selected m)) <= nr J)%Z -> (nv <= nc J)%Z ->
  exists J', write_rows m Je nv i idx J = Some J' /\ nr J' = nr J /\ nc J' = nc J /\
  (forall k j c, nth_error (selected m) k = Some j -> (0 <= c < nv)%Z -> at_ J' (idx + Z.of_nat k) c = at_ Je (i + Z.of_nat j) c) /\
  (forall r c, (r < idx \/ idx + Z.of_nat (length (selected m)) <= r \/ c < 0 \/ nv <= c)%Z -> at_ J' r c = at_ J r c).
Proof.
  intros NV. induction m as [|b m IH]; intros i idx J Hi Hx Hv Hl Hc.
  - exists J. split; [reflexivity|]. split; [reflexivity|]. split; [reflexivity|]. split; [intros [|k] j c E; discriminate E|reflexivity].
  - rewrite selected_cons in Hl |- *. rewrite app_length, map_length in Hl |- *. cbn [length] in Hv. destruct b; cbn [write_rows app length] in *.
    + destruct (Z.ltb_spec i (nr Je)) as [A|A]; [|lia]. destruct (Z.ltb_spec idx (nr J)) as [B|B]; [|lia].
      destruct (Z.leb_spec nv (nc J)) as [C|C]; [|lia]. destruct (Z.eqb_spec (nc Je) nv) as [D|D]; [|congruence]. cbn [andb].
      match goal with |- context [write_rows m Je nv _ _ ?X] => set (J1 := X) end.
      destruct (IH (i + 1)%Z (idx + 1)%Z J1) as (J' & E & L & L2 & P & Q); [lia|lia|lia|cbn [nr J1]; lia|exact Hc|].
      exists J'. split; [exact E|]. split; [exact L|]. split; [exact L2|]. split.
      * intros [|k] j c H Hcc; cbn [nth_error] in H.
        -- injection H as <-. rewrite !Z.add_0_r, Q by lia. cbn [at_ J1]. rewrite Z.eqb_refl.
           destruct (Z.leb_spec 0 c); [|lia]. destruct (Z.ltb_spec c nv); [|lia]. reflexivity.
        -- rewrite nth_error_map in H. destruct (nth_error (selected m) k) as [j'|] eqn:Ek; [|discriminate H]. injection H as <-.
           specialize (P k j' c Ek Hcc). replace (idx + Z.of_nat (S k))%Z with (idx + 1 + Z.of_nat k)%Z by lia. rewrite P. f_equal. lia.
      * intros r c Hk. rewrite Q by lia. cbn [at_ J1].
        destruct (Z.eqb_spec r idx), (Z.leb_spec 0 c), (Z.ltb_spec c nv); cbn [andb]; try reflexivity. lia.
    + destruct (IH (i + 1)%Z idx J) as (J' & E & L & L2 & P & Q); [lia|lia|lia|lia|exact Hc|].
      exists J'. split; [exact E|]. split; [exact L|]. split; [exact L2|]. split.
      * intros k j c H Hcc. rewrite nth_error_map in H. destruct (nth_error (selected m) k) as [j'|] eqn:Ek; [|discriminate H]. injection H as <-.
        rewrite (P k j' c Ek Hcc). f_equal. lia.
      * intros r c Hk. apply Q. lia.
Qed.

Lemma fresh_value e st o : o_val (compute_value e st (invalidate o)) = expr_value e st.
Proof. unfold compute_value, invalidate, impl_value, expr_value. destruct e; cbn; [destruct (logSO3 (rot (s_M st))) as [a []]|]; reflexivity. Qed.
Lemma sf_value_spec f st o l : (length (sf_mask f) <= length (expr_value (sf_expr f) st))%nat -> (length (selected (sf_mask f)) <= length l)%nat ->
  exists l', fst (sf_compute f st o l) = Some l' /\ selects (sf_mask f) (expr_value (sf_expr f) st) l l'.
Proof.
  intros A B. unfold sf_compute. cbn [fst]. rewrite fresh_value.
  destruct (write_value_spec (expr_value (sf_expr f) st) (sf_mask f) 0 0 l) as (l' & E & L & P & Q); [exact A|exact B|].
  exists l'. split; [exact E|]. split; [exact L|]. split; [exact P|]. intros k Hk. apply Q. now right.
Qed.

(** the Jacobian of the expression, independent of what the object held *)
Definition expr_jac (e : expression) (st : state) : mat R :=
  match e with
  | JointFrame => let M := s_M st in let '(th, r) := logSO3 (rot M) in
      mkmat 6 (nc (s_J st)) (fun i j => tw_at (Tw (mulv (rot M) (lin (tw_col (s_J st) j))) (mulv (JlogSO3 th r) (ang (tw_col (s_J st) j)))) i)
  | FunctionExp _ fJ => fJ (s_arg st)
  end.
Lemma fresh_jac e st o : o_jac (compute_jacobian e st (invalidate o)) = expr_jac e st.
Proof.
  unfold compute_jacobian, invalidate, impl_jacobian, expr_jac; destruct e; cbn; [|reflexivity].
  unfold compute_value, impl_value; cbn. destruct (logSO3 (rot (s_M st))) as [a [x y z]]; reflexivity.
Qed.
Lemma sf_jac_spec f st o J d : let Je := expr_jac (sf_expr f) st in
  sf_extra f = Some d \/ sf_extra f = None /\ d = 0%Z ->
  nc J = (nc Je + d)%Z -> (0 <= d)%Z -> (Z.of_nat (length (sf_mask f)) <= nr Je)%Z -> (Z.of_nat (length (selected (sf_mask f))) <= nr J)%Z ->
  exists J', fst (sf_jacobian f st o J) = Some J' /\ nr J' = nr J /\ nc J' = nc J /\
  (forall k j c, nth_error (selected (sf_mask f)) k = Some j -> (0 <= c < nc Je)%Z -> at_ J' (Z.of_nat k) c = at_ Je (Z.of_nat j) c) /\
  (forall r c, (nc Je <= c < nc J)%Z -> at_ J' r c = 0) /\
  (forall r c, (Z.of_nat (length (selected (sf_mask f))) <= r)%Z -> (0 <= c < nc Je)%Z -> at_ J' r c = at_ J r c).
Proof.
  intros Je HX HC Hd Hm HJ. unfold sf_jacobian. cbn [fst]. rewrite fresh_jac. fold Je.
  destruct HX as [HX|[HX Hz]]; rewrite HX.
  - destruct (Z.eqb_spec (nc J) (nc Je + d)) as [_|n]; [|contradiction].
    match goal with |- context [write_rows _ Je _ _ _ ?X] => set (J1 := X) end.
    destruct (write_rows_spec Je (nc Je) eq_refl (sf_mask f) 0 0 J1) as (J' & E & L & L2 & P & Q); [lia|lia|lia|cbn [nr J1]; lia|cbn [nc J1]; lia|].
    exists J'. split; [exact E|]. split; [exact L|]. split; [exact L2|]. split; [exact P|]. split.
    + intros r c Hc. rewrite Q by lia. cbn [at_ J1]. destruct (Z.leb_spec (nc J - d) c); [reflexivity|lia].
    + intros r c Hr Hc. rewrite Q by lia. cbn [at_ J1]. destruct (Z.leb_spec (nc J - d) c); [lia|reflexivity].
  - subst d. destruct (write_rows_spec Je (nc J) ltac:(lia) (sf_mask f) 0 0 J) as (J' & E & L & L2 & P & Q); try lia.
    exists J'. split; [exact E|]. split; [exact L|]. split; [exact L2|]. split; [intros k j c Hk Hc; apply P; [exact Hk|lia]|]. split.
    + intros r c Hc. lia.
    + intros r c Hr Hc. apply Q. lia.
Qed.

Lemma dotf_zero c v : (forall k, (k < length v)%nat -> c k = 0) -> dotf c v = 0.
Proof. revert c. induction v as [|x v IH]; intros c H; cbn [dotf]; [reflexivity|]. rewrite (H O) by (cbn; lia). rewrite IH; [lra|]. intros k Hk. apply H. cbn; lia. Qed.
Lemma dotf_firstn a b n v : (forall k, (k < n)%nat -> a k = b k) -> (forall k, (n <= k < length v)%nat -> a k = 0) -> dotf a v = dotf b (firstn n v).
Proof.
  revert a b n. induction v as [|x v IH]; intros a b n H Z; [now destruct n|]. destruct n as [|n]; cbn [firstn dotf].
  - change 0 with (dotf a []). rewrite (dotf_zero (fun k => a (S k)) v); [|intros k Hk; apply Z; cbn; lia]. rewrite (Z O) by (cbn; lia). cbn. ring.
  - rewrite (H O) by lia. f_equal. apply IH; intros k Hk; [apply H|apply Z; cbn]; lia.
Qed.

(** derivative for any expression whose Jacobian is the derivative *)
Lemma sf_derivative f (st : R -> state) (o : R -> obj) (res l : R -> list R) J d dq :
  let e := sf_expr f in let Je := expr_jac e (st 0) in
  (forall i, (i < length (sf_mask f))%nat -> deriv (fun s => nth i (expr_value e (st s)) 0) 0 (rate Je (velocity Je dq) i)) ->
  (forall s, (length (sf_mask f) <= length (expr_value e (st s)))%nat) -> (forall s, (length (selected (sf_mask f)) <= length (res s))%nat) ->
  sf_extra f = Some d \/ sf_extra f = None /\ d = 0%Z -> (0 <= d)%Z -> (0 <= nc Je)%Z ->
  nc J = (nc Je + d)%Z -> length dq = Z.to_nat (nc J) -> (Z.of_nat (length (sf_mask f)) <= nr Je)%Z -> (Z.of_nat (length (selected (sf_mask f))) <= nr J)%Z ->
  (forall s, fst (sf_compute f (st s) (o s) (res s)) = Some (l s)) ->
  exists J', fst (sf_jacobian f (st 0) (o 0) J) = Some J' /\
  forall k, (k < length (selected (sf_mask f)))%nat -> deriv (fun s => nth k (l s) 0) 0 (rate J' dq k).
Proof.
  intros e Je HD HV HR HX Hd Hn HC Lq Hm HJ HL.
  destruct (sf_jac_spec f (st 0) (o 0) J d HX HC Hd Hm HJ) as (J' & E & _ & _ & P & Z & _). exists J'. split; [exact E|].
  intros k Hk. destruct (nth_error (selected (sf_mask f)) k) as [j|] eqn:Ek; [|apply nth_error_None in Ek; lia].
  assert (Hj := selected_lt _ _ _ Ek).
  assert (R1 : rate J' dq k = rate Je (velocity Je dq) j).
  { unfold rate, velocity. apply dotf_firstn.
    - intros c Hc. apply (P k j); [exact Ek|]. unfold e in Je. fold Je. lia.
    - intros c Hc. apply Z. unfold e in Je. fold Je. lia. }
  rewrite R1. apply (deriv_ext (fun s => nth j (expr_value e (st s)) 0)); [|apply HD; exact Hj].
  intros s. destruct (sf_value_spec f (st s) (o s) (res s) (HV s) (HR s)) as (l' & E1 & _ & S1 & _).
  rewrite HL in E1. injection E1 as <-. specialize (S1 k j Ek). fold e in S1.
  symmetry. rewrite <- !nth_default_eq. unfold nth_default. now rewrite S1.
Qed.

Lemma joint_frame_deriv (st : R -> state) dq : (forall s, rotation (rot (s_M (st s)))) ->
  let Je := expr_jac JointFrame (st 0) in
  moves (fun s => s_M (st s)) 0 (vec6 (rate (s_J (st 0)) (velocity (s_J (st 0)) dq))) ->
  let th := fst (logSO3 (rot (s_M (st 0)))) in / 1000000 < th < PI \/ th = 0 ->
  forall i, (i < 6)%nat -> deriv (fun s => nth i (expr_value JointFrame (st s)) 0) 0 (rate Je (velocity Je dq) i).
Proof.
  intros HR Je [HM HT] th Hth i Hi.
  assert (D := log_deriv_body _ 0 _ HR HM Hth).
  apply (deriv_ext (fun s => nth i (twl (Tw (tra (s_M (st s))) (snd (logSO3 (rot (s_M (st s))))))) 0)); [intros s; reflexivity|].
  set (L := fun c : twist => Tw (mulv (rot (s_M (st 0))) (lin c)) (mulv (JlogSO3 th (snd (logSO3 (rot (s_M (st 0)))))) (ang c))).
  assert (E : rate Je (velocity Je dq) i = tw_at (L (vec6 (rate (s_J (st 0)) (velocity (s_J (st 0)) dq)))) (Z.of_nat i)).
  { rewrite rate_vec6. rewrite <- (dotf_lin L (Z.of_nat i) (fun k => tw_col (s_J (st 0)) (Z.of_nat k))).
    - unfold rate, velocity, Je, expr_jac, L, th. destruct (logSO3 (rot (s_M (st 0)))) as [a r]; reflexivity.
    - intros a b. unfold L, tadd; cbn [lin ang]. now rewrite !mulv_add.
    - intros s a. unfold L, tscale; cbn [lin ang]. now rewrite !mulv_scale.
    - unfold L, t0; cbn [lin ang]. now rewrite !mulv_0. }
  rewrite E. refine (twl_deriv _ _ _ _ i Hi); cbn [lin ang L]; [exact HT|exact D].
Qed.
Lemma joint_frame_body mask d (st : R -> state) (o : R -> obj) (res l : R -> list R) J dq :
  let f := mksf JointFrame mask (Some d) in
  length mask = 6%nat -> (forall s, (length (selected mask) <= length (res s))%nat) -> (0 <= d)%Z -> (0 <= nc (s_J (st 0%R)))%Z ->
  nc J = (nc (s_J (st 0%R)) + d)%Z -> length dq = Z.to_nat (nc J) -> (Z.of_nat (length (selected mask)) <= nr J)%Z ->
  (forall s, rotation (rot (s_M (st s)))) -> moves (fun s => s_M (st s)) 0 (vec6 (rate (s_J (st 0)) (velocity (s_J (st 0)) dq))) ->
  (let th := fst (logSO3 (rot (s_M (st 0)))) in / 1000000 < th < PI \/ th = 0) ->
  (forall s, fst (sf_compute f (st s) (o s) (res s)) = Some (l s)) ->
  exists J', fst (sf_jacobian f (st 0) (o 0) J) = Some J' /\
  forall k, (k < length (selected mask))%nat -> deriv (fun s => nth k (l s) 0) 0 (rate J' dq k).
Proof.
  intros f Lm HR Hd Hn HC Lq HJ Ro Mo Th HL.
  assert (N : nc (expr_jac JointFrame (st 0)) = nc (s_J (st 0)) /\ nr (expr_jac JointFrame (st 0)) = 6%Z).
  { unfold expr_jac. destruct (logSO3 (rot (s_M (st 0)))). split; reflexivity. }
  apply (sf_derivative f st o res l J d dq); cbn [sf_expr sf_mask sf_extra f]; rewrite ?(proj1 N), ?(proj2 N), ?Lm; auto; try lia.
  intros i Hi. exact (joint_frame_deriv st dq Ro Mo Th i Hi).
Qed.
Lemma function_body g gJ n mask x (st : R -> state) (o : R -> obj) (res l : R -> list R) J d dq :
  let f := mksf (FunctionExp g gJ) mask x in let Jg := gJ (s_arg (st 0)) in
  length mask = n -> (forall s, length (g (s_arg (st s))) = n) -> nr Jg = Z.of_nat n -> (0 <= nc Jg)%Z ->
  (forall s, (length (selected mask) <= length (res s))%nat) -> x = Some d \/ x = None /\ d = 0%Z -> (0 <= d)%Z ->
  nc J = (nc Jg + d)%Z -> length dq = Z.to_nat (nc J) -> (Z.of_nat (length (selected mask)) <= nr J)%Z ->
  (forall i, (i < n)%nat -> deriv (fun s => nth i (g (s_arg (st s))) 0) 0 (rate Jg (velocity Jg dq) i)) ->
  (forall s, fst (sf_compute f (st s) (o s) (res s)) = Some (l s)) ->
  exists J', fst (sf_jacobian f (st 0) (o 0) J) = Some J' /\
  forall k, (k < length (selected mask))%nat -> deriv (fun s => nth k (l s) 0) 0 (rate J' dq k).
Proof.
  intros f Jg Lm Lg Nr Nc HR HX Hd HC Lq HJ D HL.
  apply (sf_derivative f st o res l J d dq); cbn [sf_expr sf_mask sf_extra f expr_jac expr_value]; fold Jg; rewrite ?Lm; auto; try lia.
  intros s. rewrite Lg. lia.
Qed.
Lemma jac_rows_body f st o J d : let Je := o_jac (snd (sf_jacobian f st o J)) in
  sf_extra f = Some d \/ sf_extra f = None /\ d = 0%Z ->
  nc J = (nc Je + d)%Z -> (0 <= d)%Z -> (Z.of_nat (length (sf_mask f)) <= nr Je)%Z -> (Z.of_nat (length (selected (sf_mask f))) <= nr J)%Z ->
  exists J', fst (sf_jacobian f st o J) = Some J' /\ nr J' = nr J /\ nc J' = nc J /\
  (forall k j c, nth_error (selected (sf_mask f)) k = Some j -> (0 <= c < nc Je)%Z -> at_ J' (Z.of_nat k) c = at_ Je (Z.of_nat j) c) /\
  (forall r c, (nc Je <= c < nc J)%Z -> at_ J' r c = 0) /\
  (forall r c, (Z.of_nat (length (selected (sf_mask f))) <= r)%Z -> (0 <= c < nc Je)%Z -> at_ J' r c = at_ J r c).
Proof. intros Je. assert (E : Je = expr_jac (sf_expr f) st) by apply fresh_jac. rewrite E. apply sf_jac_spec. Qed.

Lemma write_rows_out Je nv n : forall i idx J, (0 <= i)%Z -> (i <= nr Je)%Z -> (nr Je < i + Z.of_nat n)%Z -> write_rows (repeat true n) Je nv i idx J = None.
Proof.
  induction n as [|n IH]; intros i idx J A B C; [lia|]. cbn [repeat write_rows].
  destruct (Z.ltb_spec i (nr Je)); [|reflexivity]. cbn [andb]. destruct (_ && _); [|reflexivity]. apply IH; lia.
Qed.
Lemma function_out g gJ x st o J n : (0 <= nr (gJ (s_arg st)) < Z.of_nat n)%Z ->
  fst (sf_jacobian (mksf (FunctionExp g gJ) (repeat true n) x) st o J) = None.
Proof.
  intros H. unfold sf_jacobian. cbn [fst sf_expr]. rewrite fresh_jac. cbn [expr_jac sf_extra sf_mask].
  destruct x as [d|]; [destruct (_ =? _)%Z; [|reflexivity]|]; apply write_rows_out; lia.
Qed.

(** direct use of the expressions: the caches *)
Definition ask (e : expression) (st : state) (o : obj) (b : bool) : obj := if b then compute_value e st o else compute_jacobian e st o.
Definition fresh_state (e : expression) (st : state) (o : obj) : Prop :=
  (o_vv o = true -> o_val o = expr_value e st /\ match e with JointFrame => o_theta o = fst (logSO3 (rot (s_M st))) | _ => True end) /\
  (o_jv o = true -> o_jac o = expr_jac e st).
Lemma ask_value_fresh e st o : fresh_state e st o -> fresh_state e st (compute_value e st o) /\ o_vv (compute_value e st o) = true.
Proof.
  intros [H1 H2]. unfold compute_value. destruct (o_vv o) eqn:E; [repeat split; auto; apply H1; reflexivity|].
  unfold impl_value. destruct e; cbn; [|unfold fresh_state; cbn; repeat split; auto].
  destruct (logSO3 (rot (s_M st))) as [th [x y z]] eqn:El. unfold fresh_state; cbn [o_vv o_jv o_val o_theta o_jac].
  split; [split; [intros _; rewrite El; cbn; rewrite El; split; reflexivity|exact H2]|reflexivity].
Qed.
Lemma ask_jac_fresh e st o : fresh_state e st o -> fresh_state e st (compute_jacobian e st o) /\ o_jv (compute_jacobian e st o) = true.
Proof.
  intros H. unfold compute_jacobian. destruct (o_jv o) eqn:E; [auto|].
  destruct e; cbn [impl_jacobian].
  - destruct (ask_value_fresh _ _ _ H) as [[H1 H2] Hv]. destruct (H1 Hv) as [Ha Hb]. unfold fresh_state; cbn. repeat split; auto.
    intros _. rewrite Ha, Hb. unfold expr_jac. cbn. destruct (logSO3 (rot (s_M st))) as [th [x y z]]; reflexivity.
  - destruct H as [H1 H2]. unfold fresh_state; cbn. repeat split; auto; apply H1; assumption.
Qed.
Lemma cache_body e st ops o :
  let o' := fold_left (ask e st) ops (invalidate o) in
  o_val (compute_value e st o') = expr_value e st /\
  (forall o2, o_jac (compute_jacobian e st o') = o_jac (compute_jacobian e st (invalidate o2))) /\
  forall st', compute_value e st' (compute_value e st o') = compute_value e st o' /\
    compute_jacobian e st' (compute_jacobian e st o') = compute_jacobian e st o'.
Proof.
  assert (G : forall l o1, fresh_state e st o1 -> fresh_state e st (fold_left (ask e st) l o1)).
  { intros l; induction l as [|b l IH]; intros o1 H; [exact H|]. change (fresh_state e st (fold_left (ask e st) l (ask e st o1 b))). apply IH. destruct b; [apply ask_value_fresh|apply ask_jac_fresh]; assumption. }
  assert (H : fresh_state e st (fold_left (ask e st) ops (invalidate o))) by (apply G; split; discriminate).
  cbn zeta. destruct (ask_value_fresh _ _ _ H) as [[Hv1 _] Hv2]. destruct (ask_jac_fresh _ _ _ H) as [[_ Hj1] Hj2].
  split; [apply Hv1; assumption|]. split; [intros o2; rewrite fresh_jac; apply Hj1; assumption|].
  intros st'. split; [unfold compute_value at 1|unfold compute_jacobian at 1]; [rewrite Hv2|rewrite Hj2]; reflexivity.
Qed.
