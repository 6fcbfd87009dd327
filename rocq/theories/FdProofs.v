From Coq Require Import Reals List Bool Arith Lra Lia.
From Verif Require Import FdModel.
Import ListNotations.
Local Open Scope R_scope.

Definition respects (f : vec -> vec) : Prop := forall x y, (forall k, x k = y k) -> forall i, f x i = f y i.
Definition shift (x : vec) (j : nat) (t : R) : vec := fun k => if Nat.eqb k j then x k + t else x k.
Definition unit_vec (j : nat) (t : R) : vec := fun k => if Nat.eqb k j then t else 0.

Lemma step_pos eps j x : 0 < eps -> 0 < step eps j x.
Proof.
  intros H. unfold step, is0. destruct (Req_EM_T (Rabs (x j)) 0) as [|N]; auto. pose proof (Rabs_pos (x j)). apply Rmult_lt_0_compat; lra.
Qed.
Lemma step_small eps j x : 0 < eps -> step eps j x <= eps * (1 + Rabs (x j)).
Proof. intros H. unfold step, is0. pose proof (Rabs_pos (x j)). destruct (Req_EM_T _ 0) as [E|N]; nra. Qed.

Section Loops.
Variables (op : fdop) (eps : R) (adp : nat -> bool) (f : vec -> vec) (x : vec).
Hypothesis RF : respects f.
(** moved point along velocity variable j *)
Variable move : nat -> R -> vec.
Hypothesis INT : forall fwd h j r, (forall k, k <> j -> h k = 0) -> (forall k, r k = x k) ->
  forall k, o_int op fwd x h j r k = move j (if fwd then h j else - h j) k.
Hypothesis RES : forall fwd h j r, (forall k, r k = x k) -> forall k, o_reset op x j (o_int op fwd x h j r) k = x k.

Lemma fold_cols {T : Type} (col : T -> nat -> T) (Inv : T -> Prop) (J : T -> nat -> nat -> R) (G : nat -> vec)
  (H1 : forall s j, Inv s -> Inv (col s j))
  (H2 : forall s j i k, Inv s -> J (col s j) i k = if Nat.eqb k j then G j i else J s i k) :
  forall n a s, Inv s -> Inv (fold_left col (seq a n) s) /\
    forall i k, J (fold_left col (seq a n) s) i k = if (Nat.leb a k && Nat.ltb k (a + n))%bool then G k i else J s i k.
Proof.
  induction n as [|n IH]; intros a s I; cbn [seq fold_left].
  - split; auto. intros i k. destruct (Nat.leb_spec a k), (Nat.ltb_spec k (a + 0)); cbn; auto; lia.
  - destruct (IH (S a) (col s a) (H1 s a I)) as [I' E]. split; auto. intros i k. rewrite E, (H2 _ _ _ _ I).
    destruct (Nat.leb_spec (S a) k), (Nat.ltb_spec k (S a + n)), (Nat.leb_spec a k), (Nat.ltb_spec k (a + S n)), (Nat.eqb_spec k a); cbn; subst; auto; lia.
Qed.

Definition fwd_entry (j : nat) : vec := fun i => if adp j then (f (move j (step eps j x)) i - f x i) / step eps j x else 0.
Definition cen_entry (j : nat) : vec := fun i =>
  if adp j then (f (move j (step eps j x)) i - f (move j (- step eps j x)) i) / step eps j x / 2 else 0.

Lemma forward_spec n J i k : forward op eps adp f x n J i k = if Nat.ltb k n then fwd_entry k i else J i k.
Proof.
  unfold forward. pose (Inv := fun s : fstate => (forall k, s_p s k = x k) /\ forall k, s_h s k = 0).
  destruct (fold_cols (forward_col op eps adp f x (f x)) Inv s_J fwd_entry) with (n := n) (a := 0%nat) (s := mkf x (fun _ => 0) J) as [_ E].
  - intros s j [P H]. unfold forward_col. destruct (adp j); cbn; split; auto.
    + intros. now apply RES.
    + intros k0. cbn. unfold upd. destruct (Nat.eqb k0 j); auto.
  - intros s j i0 k0 [P H]. unfold forward_col, fwd_entry. destruct (adp j); cbn; unfold set_col.
    + destruct (Nat.eqb_spec k0 j); auto. subst. assert (HJ : upd (s_h s) j (step eps j x) j = step eps j x) by (unfold upd; now rewrite Nat.eqb_refl).
      rewrite HJ. f_equal. f_equal. apply RF. intros k1.
      rewrite INT; auto; [now rewrite HJ|]. intros k2 N. unfold upd. destruct (Nat.eqb_spec k2 j); [contradiction|auto].
    + destruct (Nat.eqb k0 j); auto.
  - split; auto.
  - rewrite E. cbn. reflexivity.
Qed.

Lemma central_spec n J i k : central op eps adp f x n J i k = if Nat.ltb k n then cen_entry k i else J i k.
Proof.
  unfold central. pose (Inv := fun s : cstate => (forall k, c_p s k = x k) /\ (forall k, c_m s k = x k) /\ forall k, c_h s k = 0).
  destruct (fold_cols (central_col op eps adp f x) Inv c_J cen_entry) with (n := n) (a := 0%nat) (s := mkc x x (fun _ => 0) J) as [_ E].
  - intros s j (P & M & H). unfold central_col. destruct (adp j); cbn; repeat split; auto.
    + intros. now apply RES.
    + intros. now apply RES.
    + intros k0. cbn. unfold upd. destruct (Nat.eqb k0 j); auto.
  - intros s j i0 k0 (P & M & H). unfold central_col, cen_entry. destruct (adp j); cbn; unfold set_col.
    + destruct (Nat.eqb_spec k0 j); auto. subst. assert (HJ : upd (c_h s) j (step eps j x) j = step eps j x) by (unfold upd; now rewrite Nat.eqb_refl).
      rewrite HJ. assert (Z : forall k2, k2 <> j -> upd (c_h s) j (step eps j x) k2 = 0).
      { intros k2 N. unfold upd. destruct (Nat.eqb_spec k2 j); [contradiction|auto]. }
      do 3 f_equal.
      * apply RF. intros k1. rewrite INT; auto. now rewrite HJ.
      * apply RF. intros k1. rewrite INT; auto. now rewrite HJ.
    + destruct (Nat.eqb k0 j); auto.
  - repeat split; auto.
  - rewrite E. cbn. reflexivity.
Qed.
End Loops.

Lemma vector_INT x fwd h j r : (forall k, k <> j -> h k = 0) -> (forall k, r k = x k) ->
  forall k, o_int vector_op fwd x h j r k = shift x j (if fwd then h j else - h j) k.
Proof. intros _ R k. cbn. unfold upd, shift. destruct (Nat.eqb_spec k j); subst; auto. Qed.
Lemma vector_RES x fwd h j r : (forall k, r k = x k) -> forall k, o_reset vector_op x j (o_int vector_op fwd x h j r) k = x k.
Proof. intros R k. cbn. unfold upd. destruct (Nat.eqb_spec k j); subst; auto. Qed.

Lemma robot_INT integ x (RI : forall u v, (forall k, u k = v k) -> forall k, integ x u k = integ x v k) fwd h j r :
  (forall k, k <> j -> h k = 0) -> (forall k, r k = x k) ->
  forall k, o_int (robot_op integ) fwd x h j r k = integ x (unit_vec j (if fwd then h j else - h j)) k.
Proof.
  intros Z _ k. cbn. destruct fwd; apply RI; intros k0; unfold unit_vec; destruct (Nat.eqb_spec k0 j); subst; auto; rewrite Z; auto. ring.
Qed.
Lemma robot_RES integ x fwd h j r : (forall k, r k = x k) -> forall k, o_reset (robot_op integ) x j (o_int (robot_op integ) fwd x h j r) k = x k.
Proof. intros _ k. reflexivity. Qed.

Lemma vector_forward eps adp f x n J i k : respects f ->
  forward vector_op eps adp f x n J i k =
  if Nat.ltb k n then (if adp k then (f (shift x k (step eps k x)) i - f x i) / step eps k x else 0) else J i k.
Proof. intros RF. apply (forward_spec vector_op eps adp f x RF (shift x) (vector_INT x) (vector_RES x)). Qed.
Lemma vector_central eps adp f x n J i k : respects f ->
  central vector_op eps adp f x n J i k =
  if Nat.ltb k n then (if adp k then (f (shift x k (step eps k x)) i - f (shift x k (- step eps k x)) i) / step eps k x / 2 else 0) else J i k.
Proof. intros RF. apply (central_spec vector_op eps adp f x RF (shift x) (vector_INT x) (vector_RES x)). Qed.
Lemma robot_forward integ eps adp f x n J i k : respects f -> (forall u v, (forall k, u k = v k) -> forall k, integ x u k = integ x v k) ->
  forward (robot_op integ) eps adp f x n J i k =
  if Nat.ltb k n then (if adp k then (f (integ x (unit_vec k (step eps k x))) i - f x i) / step eps k x else 0) else J i k.
Proof. intros RF RI. apply (forward_spec (robot_op integ) eps adp f x RF (fun j t => integ x (unit_vec j t)) (robot_INT integ x RI) (robot_RES integ x)). Qed.
Lemma robot_central integ eps adp f x n J i k : respects f -> (forall u v, (forall k, u k = v k) -> forall k, integ x u k = integ x v k) ->
  central (robot_op integ) eps adp f x n J i k =
  if Nat.ltb k n then (if adp k then (f (integ x (unit_vec k (step eps k x))) i - f (integ x (unit_vec k (- step eps k x))) i) / step eps k x / 2 else 0) else J i k.
Proof. intros RF RI. apply (central_spec (robot_op integ) eps adp f x RF (fun j t => integ x (unit_vec j t)) (robot_INT integ x RI) (robot_RES integ x)). Qed.

(** exactness on polynomials of degree at most 2 along the coordinate line *)
Lemma quadratic_exact eps adp f x n J i k c0 c1 c2 : respects f -> 0 < eps -> (k < n)%nat -> adp k = true ->
  (forall t, f (shift x k t) i = c0 + c1 * t + c2 * t * t) ->
  central vector_op eps adp f x n J i k = c1 /\ forward vector_op eps adp f x n J i k = c1 + c2 * step eps k x.
Proof.
  intros RF E K A Q. rewrite vector_central, vector_forward by auto. rewrite (proj2 (Nat.ltb_lt k n) K), A.
  pose proof (step_pos eps k x E) as S. set (s := step eps k x) in *.
  assert (F0 : f x i = c0). { rewrite <- (RF (shift x k 0) x). 2: { intros k0. unfold shift. destruct (Nat.eqb k0 k); lra. } rewrite Q. lra. }
  rewrite !Q, F0. split; field; lra.
Qed.

(** convergence *)
Lemma forward_converges adp f x i k d : respects f -> adp k = true ->
  derivable_pt_lim (fun t => f (shift x k t) i) 0 d ->
  forall delta, 0 < delta -> exists eps0, 0 < eps0 /\ forall eps n J, 0 < eps < eps0 -> (k < n)%nat ->
    Rabs (forward vector_op eps adp f x n J i k - d) < delta /\ Rabs (central vector_op eps adp f x n J i k - d) < delta.
Proof.
  intros RF A D delta Hd. destruct (D delta Hd) as [r Hr]. destruct r as [r Rp]. cbn in Hr.
  exists (r / (1 + Rabs (x k))). pose proof (Rabs_pos (x k)) as AP. split; [apply Rdiv_lt_0_compat; lra|].
  intros eps n J [E1 E2] K. rewrite vector_central, vector_forward by auto. rewrite (proj2 (Nat.ltb_lt k n) K), A.
  pose proof (step_pos eps k x E1) as S. pose proof (step_small eps k x E1) as S2. set (s := step eps k x) in *.
  assert (SR : s < r).
  { apply Rle_lt_trans with (1 := S2). apply (Rmult_lt_compat_r (1 + Rabs (x k))) in E2; [|lra]. unfold Rdiv in E2. rewrite Rmult_assoc, Rinv_l in E2 by lra. lra. }
  assert (F0 : f (shift x k 0) i = f x i). { apply RF. intros k0. unfold shift. destruct (Nat.eqb k0 k); lra. }
  pose proof (Hr s) as P1. pose proof (Hr (- s)) as P2. rewrite Rplus_0_l in P1. rewrite Rplus_0_l in P2. rewrite F0 in P1, P2.
  specialize (P1 ltac:(lra)). specialize (P2 ltac:(lra)). rewrite Rabs_right in P1 by lra. specialize (P1 SR).
  rewrite Rabs_Ropp, Rabs_right in P2 by lra. specialize (P2 SR). split; auto.
  replace ((f (shift x k s) i - f (shift x k (- s)) i) / s / 2 - d) with
    (((f (shift x k s) i - f x i) / s - d) / 2 + ((f (shift x k (- s)) i - f x i) / - s - d) / 2) by (field; lra).
  eapply Rle_lt_trans; [apply Rabs_triang|]. unfold Rdiv at 1 3. rewrite !Rabs_mult, (Rabs_right (/2)) by lra. lra.
Qed.

(** affine functions *)
Lemma dot_shift_gen a x j t l : NoDup l ->
  fold_right Rplus 0 (map (fun k => a k * shift x j t k) l) =
  fold_right Rplus 0 (map (fun k => a k * x k) l) + (if existsb (Nat.eqb j) l then a j * t else 0).
Proof.
  induction 1 as [|b l N _ IH]; cbn; [lra|]. rewrite IH. unfold shift at 1.
  destruct (Nat.eqb_spec b j); destruct (Nat.eqb_spec j b); try congruence; cbn.
  - subst. replace (existsb (Nat.eqb j) l) with false; [ring|]. symmetry. apply not_true_iff_false. intros H. apply existsb_exists in H as (y & I & E).
    apply Nat.eqb_eq in E. subst. contradiction.
  - destruct (existsb (Nat.eqb j) l); lra.
Qed.
Lemma dot_shift n a x j t : dot n a (shift x j t) = dot n a x + (if Nat.ltb j n then a j * t else 0).
Proof.
  unfold dot. rewrite dot_shift_gen by apply seq_NoDup. f_equal.
  replace (existsb (Nat.eqb j) (seq 0 n)) with (Nat.ltb j n); auto. destruct (Nat.ltb_spec j n).
  - symmetry. apply existsb_exists. exists j. split; [apply in_seq; lia|apply Nat.eqb_refl].
  - symmetry. apply not_true_iff_false. intros H'. apply existsb_exists in H' as (y & I & E). apply Nat.eqb_eq in E. subst. apply in_seq in I. lia.
Qed.
Lemma dot_ext n a x y : (forall k, x k = y k) -> dot n a x = dot n a y.
Proof. intros H. unfold dot. f_equal. apply map_ext. intros. now rewrite H. Qed.
Lemma affine_respects n A b : respects (affine_value n A b).
Proof. intros x y H i. unfold affine_value. now rewrite (dot_ext n (A i) x y H). Qed.

Lemma affine_exact n A b eps adp x J i k : 0 < eps -> (k < n)%nat -> (adp k = false -> A i k = 0) ->
  central vector_op eps adp (affine_value n A b) x n J i k = A i k /\ forward vector_op eps adp (affine_value n A b) x n J i k = A i k.
Proof.
  intros E K H. destruct (adp k) eqn:D.
  - destruct (quadratic_exact eps adp (affine_value n A b) x n J i k (affine_value n A b x i) (A i k) 0 (affine_respects n A b) E K D) as [H1 H2].
    + intros t. unfold affine_value. rewrite dot_shift, (proj2 (Nat.ltb_lt k n) K). ring.
    + split; auto. rewrite H2. ring.
  - rewrite vector_central, vector_forward by apply affine_respects. rewrite (proj2 (Nat.ltb_lt k n) K), D, H; auto.
Qed.

Lemma affine_active_spec m n A b j : (j < n)%nat ->
  (affine_active m A j = true <-> exists i x t, (i < m)%nat /\ affine_value n A b (shift x j t) i <> affine_value n A b x i).
Proof.
  intros K. unfold affine_active, affine_value. split.
  - intros H. apply existsb_exists in H as (i & I & E). apply in_seq in I. exists i, (fun _ => 0), 1. split; [lia|].
    rewrite dot_shift, (proj2 (Nat.ltb_lt j n) K). unfold is0 in E. destruct (Req_EM_T (A i j) 0); [discriminate|]. lra.
  - intros (i & x & t & I & N). apply existsb_exists. exists i. split; [apply in_seq; lia|].
    rewrite dot_shift, (proj2 (Nat.ltb_lt j n) K) in N. unfold is0. destruct (Req_EM_T (A i j) 0) as [E|]; auto. exfalso. apply N. rewrite E. ring.
Qed.

Lemma dot_line n a x v t : dot n a (fun k => x k + t * v k) = dot n a x + t * dot n a v.
Proof. unfold dot. induction (seq 0 n); cbn; [lra|]. rewrite IHl. ring. Qed.
Lemma affine_derivative n A b x v i : derivable_pt_lim (fun t => affine_value n A b (fun k => x k + t * v k) i) 0 (dot n (A i) v).
Proof.
  intros e He. exists (mkposreal 1 Rlt_0_1). intros h Hh _. unfold affine_value. rewrite !dot_line.
  replace (_ / h - _) with 0 by (field; auto). now rewrite Rabs_R0.
Qed.

(** extracted functions *)
Lemma gtb_true a b : gtb a b = true <-> b < a.
Proof. unfold gtb. destruct (Rlt_dec b a); intuition discriminate. Qed.

Lemma extract_value f t1 t2 t i : r_val (extract f t1 t2) t i = r_val f (if gtb t1 t2 then t1 - t else t1 + t) i.
Proof.
  unfold extract. destruct (is0 t1 && gtb t2 0) eqn:B; [|reflexivity]. apply andb_prop in B as [B1 B2]. apply gtb_true in B2.
  unfold is0 in B1. destruct (Req_EM_T t1 0); [subst|discriminate]. replace (gtb 0 t2) with false; [now rewrite Rplus_0_l|].
  symmetry. apply not_true_iff_false. intros H. apply gtb_true in H. lra.
Qed.

Lemma lim_shift g a b t d : derivable_pt_lim g (a + b * t) d -> derivable_pt_lim (fun u => g (a + b * u)) t (d * b).
Proof.
  intros H. assert (L : derivable_pt_lim (fun u => a + b * u) t b).
  { intros e He. exists (mkposreal 1 Rlt_0_1). intros h Hh _. replace (_ / h - b) with 0 by (field; auto). now rewrite Rabs_R0. }
  exact (derivable_pt_lim_comp (fun u => a + b * u) g t b d L H).
Qed.
Lemma lim_ext f g t d : (forall u, f u = g u) -> derivable_pt_lim f t d -> derivable_pt_lim g t d.
Proof. intros E H e He. destruct (H e He) as [r Hr]. exists r. intros h N L. rewrite <- !E. auto. Qed.

Lemma extract_derivative f t1 t2 t i : (forall u, derivable_pt_lim (fun v => r_val f v i) u (r_jac f u i)) ->
  (derivable_pt_lim (fun u => r_val (extract f t1 t2) u i) t (r_jac (extract f t1 t2) t i) <->
   (t2 < t1 \/ (t1 = 0 /\ 0 < t2) \/ r_jac f (t - t1) i = r_jac f (t1 + t) i)).
Proof.
  intros D. destruct (Rlt_dec t2 t1) as [L|L].
  - split; [now left|]. intros _.
    assert (G : gtb t1 t2 = true) by now apply gtb_true.
    assert (J : r_jac (extract f t1 t2) t i = r_jac f (t1 - t) i * -1).
    { unfold extract. destruct (is0 t1 && gtb t2 0) eqn:B.
      - apply andb_prop in B as [B1 B2]. apply gtb_true in B2. unfold is0 in B1. destruct (Req_EM_T t1 0); [lra|discriminate].
      - unfold extracted. cbn. now rewrite G. }
    rewrite J. apply lim_ext with (fun u => r_val f (t1 + -1 * u) i).
    + intros u. rewrite extract_value, G. f_equal. ring.
    + apply (lim_shift (fun v => r_val f v i) t1 (-1)). replace (t1 + -1 * t) with (t1 - t) by ring. apply D.
  - assert (G : gtb t1 t2 = false) by (apply not_true_iff_false; rewrite gtb_true; auto).
    assert (V : derivable_pt_lim (fun u => r_val (extract f t1 t2) u i) t (r_jac f (t1 + t) i)).
    { apply lim_ext with (fun u => r_val f (t1 + 1 * u) i); [intros u; rewrite extract_value, G; f_equal; ring|].
      replace (r_jac f (t1 + t) i) with (r_jac f (t1 + t) i * 1) by ring. apply (lim_shift (fun v => r_val f v i) t1 1). replace (t1 + 1 * t) with (t1 + t) by ring. apply D. }
    destruct (is0 t1 && gtb t2 0) eqn:B.
    + apply andb_prop in B as [B1 B2]. apply gtb_true in B2. unfold is0 in B1. destruct (Req_EM_T t1 0); [subst|discriminate].
      split; [intros _; right; left; auto|]. intros _. assert (J : r_jac (extract f 0 t2) t i = r_jac f (0 + t) i).
      { unfold extract. rewrite (proj2 (gtb_true t2 0) B2). unfold is0. destruct (Req_EM_T 0 0); [|lra]. cbn. f_equal. ring. }
      now rewrite J.
    + assert (J : r_jac (extract f t1 t2) t i = r_jac f (t - t1) i).
      { unfold extract. rewrite B. unfold extracted. cbn. now rewrite G. }
      rewrite J. split.
      * intros H. right; right. eapply uniqueness_limite; eauto.
      * intros [H|[[-> H]|H]]; [lra| |now rewrite H]. rewrite (proj2 (gtb_true t2 0) H) in B. unfold is0 in B. destruct (Req_EM_T 0 0); [discriminate|lra].
Qed.

Lemma ltb_case1 {k n} {a : bool} {u v : R} (K : (k < n)%nat) (D : a = false) : (if Nat.ltb k n then (if a then u else 0) else v) = 0.
Proof. rewrite (proj2 (Nat.ltb_lt k n) K), D. reflexivity. Qed.
Lemma ltb_case2 {k n} {u v : R} (K : (n <= k)%nat) : (if Nat.ltb k n then u else v) = v.
Proof. rewrite (proj2 (Nat.ltb_ge k n) K). reflexivity. Qed.
Lemma ltb_case3 {k n} {a : bool} {u w v : R} (K : (k < n)%nat) (D : a = true) : (if Nat.ltb k n then (if a then u else w) else v) = u.
Proof. rewrite (proj2 (Nat.ltb_lt k n) K), D. reflexivity. Qed.
