From Coq Require Import Reals List Bool Arith Lia Lra.
From Verif Require Import Geo GeoLemmas Rigid LogModel LogSpec DistModel DistProofs GTModel GTSpec GTProofs GTJac GTDeriv RelComModel RelComSpec.
Import ListNotations.
Local Open Scope R_scope.

Ltac v3r := apply v3_eq; gcbn; ring.
Lemma size_count mask : rc_size mask = count mask.
Proof. unfold count. induction mask as [|[] m IH]; cbn; lia. Qed.
Lemma three_inv mask : three_flags mask -> exists a b c r, mask = a :: b :: c :: r /\ count r = 0%nat.
Proof. intros [L Z]. destruct mask as [|a [|b [|c r]]]; cbn in L; try lia. exists a, b, c, r. split; [reflexivity|exact Z]. Qed.
Lemma count0_select {A} r (l : list A) : count r = 0%nat -> select r l = [].
Proof. revert l. induction r as [|[] r IH]; intros [|x l] H; cbn in *; try reflexivity; [discriminate|apply IH, H]. Qed.
Lemma create_ok j ref mask : three_flags mask -> exists f, rc_create j ref mask = Some f /\ rc_joint f = j /\ rc_ref f = ref /\ rc_mask f = mask /\ rc_nominal f = nth 0 mask false && nth 1 mask false && nth 2 mask false.
Proof.
  intros H. destruct (three_inv _ H) as (a & b & c & r & -> & _). unfold rc_create. cbn [nth_error].
  destruct a, b; (eexists; split; [reflexivity|]; cbn; repeat split; auto).
Qed.
Lemma put_ok f v old : three_flags (rc_mask f) -> rc_nominal f = nth 0 (rc_mask f) false && nth 1 (rc_mask f) false && nth 2 (rc_mask f) false ->
  length old = count (rc_mask f) -> rc_put f v old = Some (select (rc_mask f) (v3l v)).
Proof.
  intros H. unfold rc_put. destruct (three_inv _ H) as (a & b & c & r & -> & Z). intros ->. cbn [nth]. intros L.
  destruct v as [x y z]. unfold count in *. destruct a, b, c; cbn [filter length firstn] in *; cbn [andb]; rewrite Z in L;
    repeat (destruct old as [|? old]; cbn in L; try discriminate); cbn; rewrite ?(@count0_select R r) by exact Z; reflexivity.
Qed.
Lemma col_rate M k p cx cj : rotation (rot M) -> act M p = ccom k ->
  rc_col k M cx cj = vsub (mulv (mtr (rot M)) cx) (vadd (lin cj) (vcross (ang cj) p)).
Proof.
  intros HR E. unfold rc_col. rewrite <- E. unfold act.
  assert (C : mulv (mul (mtr (rot M)) (colcross (rot M) (vsub (tra M) (vadd (mulv (rot M) p) (tra M))))) (ang cj) = vcross p (ang cj)).
  { rewrite mulvA. assert (D : vsub (tra M) (vadd (mulv (rot M) p) (tra M)) = vopp (mulv (rot M) p)) by v3r. rewrite D.
    assert (F : forall m u w, mulv (colcross m u) w = vcross (mulv m w) u) by (intros; unfold colcross; cbn [rot lin ang]; v3r). rewrite F.
    assert (G : vcross (mulv (rot M) (ang cj)) (vopp (mulv (rot M) p)) = vcross (mulv (rot M) p) (mulv (rot M) (ang cj))) by v3r.
    rewrite G, <- (rotation_cross _ _ _ HR), (rotation_inv _ _ HR). reflexivity. }
  rewrite C. v3r.
Qed.
Definition rate (M : se3) (p : v3) (cx : v3) (cj : twist) : v3 := vsub (mulv (mtr (rot M)) cx) (vadd (lin cj) (vcross (ang cj) p)).
Lemma rate_add M p a b a' b' : rate M p (vadd a a') (tadd b b') = vadd (rate M p a b) (rate M p a' b').
Proof. unfold rate, tadd. cbn [lin ang]. rewrite mulv_add. v3r. Qed.
Lemma rate_scale M p s a b : rate M p (vscale s a) (tscale s b) = vscale s (rate M p a b).
Proof. unfold rate, tscale. cbn [lin ang]. rewrite mulv_scale. v3r. Qed.
Lemma rate_0 M p : rate M p v0 t0 = v0.
Proof. unfold rate, t0. cbn [lin ang]. rewrite mulv_0. v3r. Qed.
Lemma rate_app M p A B d : length A = length B -> rate M p (vapp A d) (japp B d) = vapp (map (fun c => rate M p (fst c) (snd c)) (combine A B)) d.
Proof.
  revert B d. induction A as [|a A IH]; intros [|b B] d H; cbn in H; try lia.
  - destruct d; apply rate_0.
  - destruct d as [|x d]; [apply rate_0|]. cbn [vapp japp map combine fst snd]. rewrite rate_add, rate_scale, IH by lia. reflexivity.
Qed.

Lemma rc_cols_E f k M cs old : three_flags (rc_mask f) -> rc_nominal f = nth 0 (rc_mask f) false && nth 1 (rc_mask f) false && nth 2 (rc_mask f) false ->
  Forall (fun c => length c = count (rc_mask f)) old -> (length cs <= length old)%nat ->
  rc_columns f k M cs old = Some (map (fun c => select (rc_mask f) (v3l (rc_col k M (fst c) (snd c)))) cs ++ map (map (fun _ => 0)) (skipn (length cs) old)).
Proof.
  intros H N. revert old. induction cs as [|c cs IH]; intros old F L; [reflexivity|]. destruct old as [|x old]; [cbn in L; lia|].
  cbn [rc_columns]. inversion F; subst. rewrite put_ok by assumption. cbn [bind]. rewrite IH by (assumption || cbn in L; lia). reflexivity.
Qed.
Lemma select_map {A B} (g : A -> B) m l : select m (map g l) = map g (select m l).
Proof. revert l. induction m as [|[] m IH]; intros [|x l]; cbn; try reflexivity; f_equal; apply IH. Qed.
Lemma select_len3 m v : three_flags m -> length (select m (v3l v)) = count m.
Proof. intros H. destruct (three_inv _ H) as (a & b & c & r & -> & Z). destruct a, b, c; cbn; rewrite count0_select by exact Z; unfold count in *; cbn; rewrite Z; reflexivity. Qed.
(** row [i] of the result is one of the three coordinates *)
Lemma select_coord m i : three_flags m -> (i < count m)%nat -> exists n, (n < 3)%nat /\ forall v, nth i (select m (v3l v)) 0 = nth n (v3l v) 0.
Proof.
  intros H L. destruct (three_inv _ H) as (a & b & c & r & -> & Z). unfold count in *.
  destruct a, b, c; cbn [filter length] in L; rewrite Z in L; destruct i as [|[|[|i]]]; try lia;
    (exists 0%nat; split; [lia|]; reflexivity) || (exists 1%nat; split; [lia|]; reflexivity) || (exists 2%nat; split; [lia|]; reflexivity).
Qed.
Lemma vderiv_nth F t d n : (n < 3)%nat -> vderiv F t d -> deriv (fun s => nth n (v3l (F s)) 0) t (nth n (v3l d) 0).
Proof. intros L (A & B & C). destruct n as [|[|[|n]]]; try lia; assumption. Qed.
Lemma vapp_nth n L d : (n < 3)%nat -> nth n (v3l (vapp L d)) 0 = rapp (map (fun v => nth n (v3l v) 0) L) d.
Proof. intros H. rewrite vapp_coord. destruct n as [|[|[|n]]]; try lia; reflexivity. Qed.

(** derivative of the position in the joint frame *)
Lemma pos_deriv K j t d : com_moves K j t d -> let M s := place (ck (K s)) j in
  let P s := mulv (mtr (rot (M s))) (vsub (ccom (K s)) (tra (M s))) in
  vderiv P t (rate (M t) (P t) (vapp (ccomJ (K t)) d) (japp (jjac (ck (K t)) j) d)).
Proof.
  intros ((Rt & Mr & Mt) & Cx & L). cbv zeta. unfold rate. cbn [place] in *.
  set (T := japp (jjac (ck (K t)) j) d) in *.
  eapply vderiv_eq; [|apply vderiv_mulv; [apply mderiv_tr, Mr|apply vderiv_sub; [exact Cx|exact Mt]]].
  cbv beta. rewrite mtr_mul, mtr_cross, mulvA, mopp_v, cross_matrixE, (mulv_sub _ (vapp _ _) _), (rotation_inv _ _ (Rt t)). v3r.
Qed.

Lemma in_joint_uniq M p x : rotation (rot M) -> act M p = x -> p = mulv (mtr (rot M)) (vsub x (tra M)).
Proof. intros HR <-. unfold act. assert (E : vsub (vadd (mulv (rot M) p) (tra M)) (tra M) = mulv (rot M) p) by v3r. now rewrite E, rotation_inv. Qed.
Lemma in_joint_ex M x : rotation (rot M) -> act M (mulv (mtr (rot M)) (vsub x (tra M))) = x.
Proof. intros HR. unfold act. rewrite rotation_inv_r by exact HR. v3r. Qed.

Lemma rc_value_all : forall j ref mask, three_flags mask -> exists f, rc_create (Some j) ref mask = Some f /\
  forall k old, rotation (rot (place (ck k) j)) -> length old = rc_size mask ->
  exists p, com_in_joint k j p /\ rc_value f k old = Some (select mask (v3l (vsub p ref))).
Proof.
  intros j ref mask H. destruct (create_ok (Some j) ref mask H) as (f & E & Ej & Er & Em & En). exists f. split; [exact E|].
  intros k old HR L. eexists. split; [apply in_joint_ex, HR|]. unfold rc_value. rewrite Ej, put_ok; rewrite ?Em, ?En, ?Er; auto.
  now rewrite L, size_count.
Qed.
Lemma nth_skipn_in {A} (P : A -> Prop) l n : Forall P l -> Forall P (skipn n l).
Proof. intros H. rewrite <- (firstn_skipn n l) in H. now apply Forall_app in H. Qed.
Lemma row_times_app A B i d : row_times (A ++ B) i d = row_times A i d + row_times B i (skipn (length A) d).
Proof. unfold row_times. rewrite map_app, rapp_app, map_length. reflexivity. Qed.
Lemma rc_jac_all : forall j ref mask, three_flags mask -> exists f, rc_create (Some j) ref mask = Some f /\
  forall K t d old out, com_moves K j t d -> Forall (fun c => length c = rc_size mask) old -> (length (jjac (ck (K t)) j) <= length old)%nat -> length out = rc_size mask ->
  exists J, rc_jacobian f (K t) old = Some J /\ length J = length old /\ Forall (fun c => length c = rc_size mask) J /\
    (forall c, In c (skipn (length (jjac (ck (K t)) j)) J) -> Forall (fun x => x = 0) c) /\
    forall i, (i < rc_size mask)%nat -> deriv (fun s => match rc_value f (K s) out with Some v => nth i v 0 | None => 0 end) t (row_times J i d).
Proof.
  intros j ref mask H. rewrite size_count. destruct (create_ok (Some j) ref mask H) as (f & E & Ej & Er & Em & En). exists f. split; [exact E|].
  intros K t d old out CM F L Lo. pose proof CM as ((Rt & Mr & Mt) & Cx & LC). cbn [joint_moves] in *.
  assert (LC' : length (combine (ccomJ (K t)) (jjac (ck (K t)) j)) = length (jjac (ck (K t)) j)) by (rewrite combine_length; lia).
  eexists. split; [unfold rc_jacobian; rewrite Ej, rc_cols_E; rewrite ?Em, ?LC'; auto|].
  assert (LJ : length (map (fun c : v3 * twist => select mask (v3l (rc_col (K t) (place (ck (K t)) j) (fst c) (snd c)))) (combine (ccomJ (K t)) (jjac (ck (K t)) j))) = length (jjac (ck (K t)) j)) by (rewrite map_length; exact LC').
  assert (Z : forall c, In c (map (map (fun _ : R => 0)) (skipn (length (jjac (ck (K t)) j)) old)) -> Forall (fun x => x = 0) c).
  { intros c I. apply in_map_iff in I. destruct I as (x & <- & _). apply Forall_forall. intros y Iy. apply in_map_iff in Iy. destruct Iy as (? & <- & _). reflexivity. }
  split; [rewrite app_length, LJ, map_length, skipn_length; lia|]. split; [|split].
  - apply Forall_app. split.
    + apply Forall_forall. intros c I. apply in_map_iff in I. destruct I as (x & <- & _). now apply select_len3.
    + apply Forall_forall. intros c I. apply in_map_iff in I. destruct I as (x & <- & Ix). rewrite map_length. rewrite Forall_forall in F. apply F.
      rewrite <- (firstn_skipn (length (jjac (ck (K t)) j)) old). apply in_or_app. now right.
  - intros c. rewrite skipn_app, LJ, Nat.sub_diag, skipn_all2 by lia. cbn [app skipn]. apply Z.
  - intros i Hi. destruct (select_coord mask i H Hi) as (n & Hn & S).
    rewrite row_times_app. assert (Z0 : forall B d', (forall c, In c B -> Forall (fun x => x = 0) c) -> row_times B i d' = 0).
    { intros B d' HB. unfold row_times. apply rapp_zero. apply Forall_forall. intros x I. apply in_map_iff in I. destruct I as (c & <- & Ic).
      destruct (Nat.lt_ge_cases i (length c)) as [Lt|Ge]; [|now apply nth_overflow]. specialize (HB c Ic). rewrite Forall_forall in HB. now apply HB, nth_In. }
    rewrite (Z0 _ _ Z). rewrite Rplus_0_r. clear Z0 Z.
    pose proof (pos_deriv K j t d CM) as D. cbv zeta in D.
    set (P := fun s => mulv (mtr (rot (place (ck (K s)) j))) (vsub (ccom (K s)) (tra (place (ck (K s)) j)))) in *.
    assert (D' : vderiv (fun s => vsub (P s) ref) t (vsub (rate (place (ck (K t)) j) (P t) (vapp (ccomJ (K t)) d) (japp (jjac (ck (K t)) j) d)) v0)) by (apply vderiv_sub; [exact D|apply vderiv_const]).
    rewrite vsub_0 in D'.
    eapply deriv_eq; [|eapply deriv_ext; [|apply (vderiv_nth _ _ _ n Hn D')]].
    + rewrite (rate_app _ _ _ _ _ LC), vapp_nth by exact Hn. unfold row_times. rewrite !map_map. apply rapp_ext. intros c Ic. rewrite S.
      f_equal. f_equal. unfold rate. symmetry. apply col_rate; [apply Rt|apply in_joint_ex, Rt].
    + intros s. cbv beta. unfold rc_value. rewrite Ej, put_ok; rewrite ?Em, ?En; auto. rewrite S, Er. reflexivity.
Qed.

(** null joint *)
Lemma rc_null : forall ref mask f k old oldJ, rc_create None ref mask = Some f -> rc_value f k old = None /\ rc_jacobian f k oldJ = None.
Proof.
  intros ref mask f k old oldJ E. assert (J : rc_joint f = None).
  { unfold rc_create in E. repeat match goal with H : context [match nth_error ?m ?n with _ => _ end] |- _ => destruct (nth_error m n) as [[]|] end; inversion E; reflexivity. }
  unfold rc_value, rc_jacobian. now rewrite J.
Qed.
Lemma rc_short : forall j ref mask, (length mask < 3)%nat -> forall f, rc_create j ref mask = Some f -> forall k old, rc_value f k old = None.
Proof.
  intros j ref mask H f E k old. destruct mask as [|a [|b [|c r]]]; cbn in H; try lia; unfold rc_create in E; cbn in E; repeat match goal with b : bool |- _ => destruct b end; try discriminate; inversion E; subst f; unfold rc_value, rc_put; cbn; destruct j; reflexivity.
Qed.
Lemma rc_short_create : forall j ref mask, (length mask < 3)%nat -> Forall (fun b => b = true) mask -> rc_create j ref mask = None.
Proof. intros j ref mask H F. destruct mask as [|a [|b [|c r]]]; cbn in H; try lia; repeat match goal with H : Forall _ (_ :: _) |- _ => inversion H; clear H; subst end; reflexivity. Qed.
Lemma rc_long : forall j ref, exists f, rc_create (Some j) ref [true; false; false; true] = Some f /\ rc_size (rc_mask f) = 2%nat /\
  forall k a b, exists x, rc_value f k [a; b] = Some [x; b].
Proof. intros j ref. eexists. split; [reflexivity|]. split; [reflexivity|]. intros k a b. eexists. reflexivity. Qed.
Lemma rc_long_full : forall j ref, exists f, rc_create (Some j) ref [true; true; true; true] = Some f /\ rc_size (rc_mask f) = 4%nat /\
  forall k old, length old = 4%nat -> rc_value f k old = None.
Proof. intros j ref. eexists. split; [reflexivity|]. split; [reflexivity|]. intros k old L. unfold rc_value, rc_put. cbn [rc_joint rc_nominal]. now rewrite L. Qed.
