(** Proofs on BoundModel. *)
From Coq Require Import Reals Lra Lia List Arith.
From Verif Require Import Geo GeoLemmas BoundModel BoundSpec.
Import ListNotations.
Local Open Scope R_scope.

(** [ge a b]: [a] is not worse than [b] *)
Lemma extreme_spec (better : R -> R -> bool) (ge : R -> R -> Prop) : (forall a, ge a a) -> (forall a b c, ge a b -> ge b c -> ge a c) ->
  (forall a b, if better a b then ge a b else ge b a) ->
  forall l n x i, let r := extreme better (x, i) n l in
    ge (fst r) x /\ (forall y, In y l -> ge (fst r) y) /\
    (r = (x, i) \/ exists j, snd r = (n + j)%nat /\ nth_error l j = Some (fst r)).
Proof.
  intros R0 T B. induction l as [|y l IH]; intros n x i; cbn [extreme]; [repeat split; auto; intros ? []|].
  cbn [fst]. specialize (B y x). destruct (better y x).
  - destruct (IH (S n) y n) as (A & C & D). split; [eapply T; eassumption|]. split.
    + intros z [<-|Z]; auto.
    + right. destruct D as [->|(j & E & F)]; [exists 0%nat; cbn; split; [lia|reflexivity]|exists (S j); split; [rewrite E; lia|exact F]].
  - destruct (IH (S n) x i) as (A & C & D). split; [exact A|]. split.
    + intros z [<-|Z]; auto. eapply T; eassumption.
    + destruct D as [->|(j & E & F)]; [left; reflexivity|right; exists (S j); split; [rewrite E; lia|exact F]].
Qed.
Lemma coeff_spec (better : R -> R -> bool) (ge : R -> R -> Prop) : (forall a, ge a a) -> (forall a b c, ge a b -> ge b c -> ge a c) ->
  (forall a b, if better a b then ge a b else ge b a) ->
  forall l r, coeff better l = Some r -> nth_error l (snd r) = Some (fst r) /\ forall y, In y l -> ge (fst r) y.
Proof.
  intros R0 T B [|x l] r; cbn [coeff]; [discriminate|]. intros [= <-].
  destruct (extreme_spec better ge R0 T B l 1 x 0%nat) as (A & C & D). split.
  - destruct D as [->|(j & -> & F)]; [reflexivity|exact F].
  - intros y [<-|Y]; auto.
Qed.
Lemma max_spec l r : coeff greater l = Some r -> nth_error l (snd r) = Some (fst r) /\ forall y, In y l -> y <= fst r.
Proof.
  intros E. destruct (coeff_spec greater Rge) with (l := l) (r := r) as [A B]; auto.
  - intros; apply Rge_refl. - intros; eapply Rge_trans; eassumption.
  - intros a b. unfold greater. destruct (Rlt_dec b a); lra.
  - split; [exact A|]. intros y Y. specialize (B y Y). lra.
Qed.
Lemma min_spec l r : coeff less l = Some r -> nth_error l (snd r) = Some (fst r) /\ forall y, In y l -> fst r <= y.
Proof.
  intros E. destruct (coeff_spec less Rle) with (l := l) (r := r) as [A B]; auto.
  - intros; apply Rle_refl. - intros; eapply Rle_trans; eassumption.
  - intros a b. unfold less. destruct (Rlt_dec a b); lra.
Qed.

Lemma row_combine u v i a b : row u v i a b <-> nth_error (combine u v) i = Some (a, b).
Proof.
  unfold row. revert v i. induction u as [|x u IH]; intros [|y v] [|i]; cbn; try (split; [intros [? ?]; discriminate|intros Q; discriminate]).
  - split; [intros [[= ->] [= ->]]; reflexivity|intros [= -> ->]; auto].
  - apply IH.
Qed.
Lemma step_pos a b x : 0 < b -> (- (a / b) <= x <-> 0 <= a + x * b).
Proof.
  intros B. assert (E : a / b * b = a) by (field; lra). split; intros H.
  - assert (- (a / b) * b <= x * b) by (apply Rmult_le_compat_r; lra). lra.
  - apply (Rmult_le_reg_r b); [exact B|]. lra.
Qed.
Lemma step_neg a b x : b < 0 -> (x <= - (a / b) <-> 0 <= a + x * b).
Proof.
  intros B. assert (E : a / b * b = a) by (field; lra). split; intros H.
  - assert (0 <= (- (a / b) - x) * - b) by (apply Rmult_le_pos; lra). lra.
  - apply Rnot_lt_le. intros L. assert (0 < (x - - (a / b)) * - b) by (apply Rmult_lt_0_compat; lra). lra.
Qed.

Section B.
Variables (eps : R) (u v : list R) (lo hi : R) (ilo ihi : nat).
Hypothesis (E0 : 0 < eps) (F : findBoundIndex eps u v = Some ((lo, ilo), (hi, ihi))).
Lemma bound_min :
  (forall i a b, row u v i a b -> eps < b -> 0 <= a + lo * b) /\
  ((exists i a b, row u v i a b /\ b <= eps) -> 0 <= lo) /\
  (forall x, (forall i a b, row u v i a b -> eps < b -> 0 <= a + x * b) -> 0 <= x -> lo <= x) /\
  exists a b, row u v ilo a b /\ (eps < b /\ a + lo * b = 0 \/ b <= eps /\ lo = 0).
Proof.
  unfold findBoundIndex in F. destruct (coeff greater _) as [r|] eqn:M; [|discriminate]. destruct (coeff less _) as [s|]; [|discriminate].
  injection F as -> _. apply max_spec in M as [A B]. cbn [fst snd] in *.
  assert (I : forall i a b, row u v i a b -> (if Rlt_dec eps b then lam eps (a, b) else 0) <= lo).
  { intros i a b R0. apply B. apply row_combine, nth_error_In in R0. apply in_map_iff. exists (a, b). auto. }
  assert (L : forall a b, eps < b -> lam eps (a, b) = - (a / b)).
  { intros a b H. unfold lam. cbn. rewrite Rabs_right by lra. destruct (Rlt_dec b eps); [lra|reflexivity]. }
  rewrite nth_error_map in A. destruct (nth_error (combine u v) ilo) as [[a0 b0]|] eqn:N; [|discriminate]. cbn in A. injection A as A.
  assert (W : row u v ilo a0 b0) by now apply row_combine.
  assert (X : eps < b0 /\ a0 + lo * b0 = 0 \/ b0 <= eps /\ lo = 0).
  { destruct (Rlt_dec eps b0) as [H|H]; [left|right; lra]. rewrite L in A by exact H. split; [exact H|]. rewrite <- A. field. lra. }
  split; [|split; [|split]].
  - intros i a b R0 H. specialize (I i a b R0). destruct (Rlt_dec eps b); [|lra]. rewrite L in I by exact H. apply step_pos; lra.
  - intros (i & a & b & R0 & H). specialize (I i a b R0). destruct (Rlt_dec eps b); lra.
  - intros x H Hx. destruct X as [[X Y]|[_ ->]]; [|exact Hx]. specialize (H _ _ _ W X). apply step_pos in H; [|lra].
    destruct (Rlt_dec eps b0); [|lra]. rewrite L in A by exact X. lra.
  - exists a0, b0. auto.
Qed.
Lemma bound_max :
  (forall i a b, row u v i a b -> b <= - eps -> 0 <= a + hi * b) /\
  ((exists i a b, row u v i a b /\ - eps < b) -> hi <= 0) /\
  (forall x, (forall i a b, row u v i a b -> b <= - eps -> 0 <= a + x * b) -> x <= 0 -> x <= hi) /\
  exists a b, row u v ihi a b /\ (b <= - eps /\ a + hi * b = 0 \/ - eps < b /\ hi = 0).
Proof.
  unfold findBoundIndex in F. destruct (coeff greater _) as [r|]; [|discriminate]. destruct (coeff less _) as [s|] eqn:M; [|discriminate].
  injection F as _ ->. apply min_spec in M as [A B]. cbn [fst snd] in *.
  assert (I : forall i a b, row u v i a b -> hi <= (if Rlt_dec b eps then lam eps (a, b) else 0)).
  { intros i a b R0. apply B. apply row_combine, nth_error_In in R0. apply in_map_iff. exists (a, b). auto. }
  assert (L : forall a b, b <= - eps -> lam eps (a, b) = - (a / b)).
  { intros a b H. unfold lam. cbn. rewrite Rabs_left by lra. destruct (Rlt_dec (- b) eps); [lra|reflexivity]. }
  assert (Z : forall a b, - eps < b -> (if Rlt_dec b eps then lam eps (a, b) else 0) = 0).
  { intros a b H. destruct (Rlt_dec b eps) as [K|K]; [|reflexivity]. unfold lam. cbn. destruct (Rlt_dec (Rabs b) eps) as [Q|Q]; [reflexivity|].
    exfalso. apply Q. apply Rabs_def1; lra. }
  rewrite nth_error_map in A. destruct (nth_error (combine u v) ihi) as [[a0 b0]|] eqn:N; [|discriminate]. cbn [option_map snd] in A. injection A as A.
  assert (W : row u v ihi a0 b0) by now apply row_combine.
  assert (X : b0 <= - eps /\ hi = - (a0 / b0) \/ - eps < b0 /\ hi = 0).
  { destruct (Rle_dec b0 (- eps)) as [H|H]; [left|right].
    - destruct (Rlt_dec b0 eps); [|lra]. rewrite L in A by exact H. auto.
    - rewrite Z in A by lra. lra. }
  split; [|split; [|split]].
  - intros i a b R0 H. specialize (I i a b R0). destruct (Rlt_dec b eps); [|lra]. rewrite L in I by exact H. apply step_neg; lra.
  - intros (i & a & b & R0 & H). specialize (I i a b R0). rewrite Z in I by exact H. exact I.
  - intros x H Hx. destruct X as [[X ->]|[_ ->]]; [|exact Hx]. apply step_neg; [lra|]. exact (H _ _ _ W X).
  - exists a0, b0. split; [exact W|]. destruct X as [[X ->]|X]; [left|right; exact X]. split; [exact X|]. field. lra.
Qed.
End B.

Lemma bounds : forall eps u v lo hi ilo ihi, 0 < eps -> findBoundIndex eps u v = Some ((lo, ilo), (hi, ihi)) ->
  ((forall i a b, row u v i a b -> eps < b -> 0 <= a + lo * b) /\
   ((exists i a b, row u v i a b /\ b <= eps) -> 0 <= lo) /\
   (forall x, (forall i a b, row u v i a b -> eps < b -> 0 <= a + x * b) -> 0 <= x -> lo <= x) /\
   exists a b, row u v ilo a b /\ (eps < b /\ a + lo * b = 0 \/ b <= eps /\ lo = 0)) /\
  ((forall i a b, row u v i a b -> b <= - eps -> 0 <= a + hi * b) /\
   ((exists i a b, row u v i a b /\ - eps < b) -> hi <= 0) /\
   (forall x, (forall i a b, row u v i a b -> b <= - eps -> 0 <= a + x * b) -> x <= 0 -> x <= hi) /\
   exists a b, row u v ihi a b /\ (b <= - eps /\ a + hi * b = 0 \/ - eps < b /\ hi = 0)).
Proof. intros. split; [eapply bound_min|eapply bound_max]; eassumption. Qed.
Lemma bounds_defined : forall eps u v, length u = length v -> (findBoundIndex eps u v = None <-> u = []).
Proof.
  intros eps [|a u] [|b v] L; try discriminate; cbn; split; try discriminate; auto.
Qed.

Lemma case_value : findBoundIndex (/ 1000) [-1; 2] [1; -1] = Some ((1, 0%nat), (0, 0%nat)).
Proof.
  unfold findBoundIndex, coeff, lam, greater, less. cbn.
  replace (- (-1 / 1)) with 1 by field. replace (- (2 / -1)) with 2 by field. rewrite (Rabs_right 1), (Rabs_left (-1)) by lra.
  repeat match goal with |- context [Rlt_dec ?a ?b] =>
    lazymatch a with context [Rlt_dec] => fail | _ => idtac end; lazymatch b with context [Rlt_dec] => fail | _ => idtac end;
    destruct (Rlt_dec a b); [try (exfalso; lra)|try (exfalso; lra)]; cbn [fst snd] end; reflexivity.
Qed.
Lemma upper_refuted : exists eps u v lo hi ilo ihi x, 0 < eps /\ findBoundIndex eps u v = Some ((lo, ilo), (hi, ihi)) /\
  (forall i a b, row u v i a b -> 0 < a + x * b) /\ hi < lo /\ hi < x.
Proof.
  exists (/ 1000), [-1; 2], [1; -1], 1, 0, 0%nat, 0%nat, (3 / 2). split; [lra|]. split; [apply case_value|]. split; [|lra].
  intros [|[|[|i]]] a b [A B]; cbn in A, B; try discriminate; injection A as <-; injection B as <-; lra.
Qed.

(** * Derivative *)
Lemma deriv_quot f g t a b : g t <> 0 -> deriv f t a -> deriv g t b -> deriv (fun s => - (f s / g s)) t (- a / g t + f t / (g t * g t) * b).
Proof.
  intros N A B. eapply deriv_eq; [|apply deriv_opp].
  2: { unfold deriv in *. apply (derivable_pt_lim_div f g t a b A B N). }
  unfold Rsqr. field. exact N.
Qed.
Lemma lambda_dot : forall eps (u v : R -> R) t du dv, 0 < eps -> deriv u t du -> deriv v t dv ->
  (eps <= Rabs (v t) -> deriv (fun s => - (u s / v s)) t (computeLambdaDot eps (u t) (v t) du dv)) /\
  (Rabs (v t) < eps -> computeLambdaDot eps (u t) (v t) du dv = 0).
Proof.
  intros eps u v t du dv E A B. unfold computeLambdaDot. destruct (Rlt_dec (Rabs (v t)) eps) as [L|L].
  - split; [lra|reflexivity].
  - split; [|lra]. intros _. apply deriv_quot; auto. intros Z. rewrite Z, Rabs_R0 in L. lra.
Qed.
Lemma derivative_case : deriv (fun s => s) 3 1 /\ deriv (fun s => 2 * s) 3 2 /\ / 1000 <= Rabs (2 * 3).
Proof.
  assert (I : deriv (fun s => s) 3 1) by apply derivable_pt_lim_id. split; [exact I|]. split.
  - eapply deriv_eq; [|apply deriv_scale, I]. ring.
  - rewrite Rabs_right; lra.
Qed.
