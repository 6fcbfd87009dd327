(** Lemmas on [Geo]. *)
From Coq Require Import Reals Ranalysis1 Lra.
From Verif Require Import Geo.
Local Open Scope R_scope.

Lemma v3_eq : forall a b, vx a = vx b -> vy a = vy b -> vz a = vz b -> a = b.
Proof. intros [x y z] [x' y' z']; cbn; congruence. Qed.

Lemma m3_eq : forall a b, ra a = ra b -> rb a = rb b -> rc a = rc b -> a = b.
Proof. intros [x y z] [x' y' z']; cbn; congruence. Qed.

Ltac gcbn :=
  cbv beta iota delta
    [vx vy vz ra rb rc vadd vsub vopp vscale vdot vcross mulv mtr mul m1 m0 madd msub mopp
     mscale det cross_matrix v0].

Ltac gdes :=
  repeat match goal with
         | v : v3 |- _ => destruct v
         | m : m3 |- _ => destruct m
         end.

Ltac geq :=
  match goal with
  | |- @eq v3 _ _ => apply v3_eq
  | |- @eq m3 _ _ => apply m3_eq; apply v3_eq
  | |- _ => idtac
  end.

Ltac geo := intros; gdes; geq; gcbn; try ring.

(** Linear identities. *)
Lemma cross_matrixE : forall a b, mulv (cross_matrix a) b = vcross a b.
Proof. geo. Qed.
Lemma vcrossC : forall a b, vcross a b = vopp (vcross b a).
Proof. geo. Qed.
Lemma mulvA : forall a b v, mulv (mul a b) v = mulv a (mulv b v).
Proof. geo. Qed.
Lemma mulA : forall a b c, mul (mul a b) c = mul a (mul b c).
Proof. geo. Qed.
Lemma mul1v : forall v, mulv m1 v = v.
Proof. geo. Qed.
Lemma mul1m : forall m, mul m1 m = m.
Proof. geo. Qed.
Lemma mulm1 : forall m, mul m m1 = m.
Proof. geo. Qed.
Lemma mtr_mul : forall a b, mtr (mul a b) = mul (mtr b) (mtr a).
Proof. geo. Qed.
Lemma mtrK : forall a, mtr (mtr a) = a.
Proof. geo. Qed.
Lemma mtr1 : mtr m1 = m1.
Proof. geo. Qed.
Lemma mtr_cross : forall v, mtr (cross_matrix v) = mopp (cross_matrix v).
Proof. geo. Qed.
Lemma mulv_add : forall m a b, mulv m (vadd a b) = vadd (mulv m a) (mulv m b).
Proof. geo. Qed.
Lemma mulv_sub : forall m a b, mulv m (vsub a b) = vsub (mulv m a) (mulv m b).
Proof. geo. Qed.
Lemma mulv_opp : forall m a, mulv m (vopp a) = vopp (mulv m a).
Proof. geo. Qed.
Lemma mulv_scale : forall m s a, mulv m (vscale s a) = vscale s (mulv m a).
Proof. geo. Qed.
Lemma mulv_0 : forall m, mulv m v0 = v0.
Proof. geo. Qed.
Lemma mopp_v : forall m v, mulv (mopp m) v = vopp (mulv m v).
Proof. geo. Qed.
Lemma madd_v : forall m n v, mulv (madd m n) v = vadd (mulv m v) (mulv n v).
Proof. geo. Qed.
Lemma msub_v : forall m n v, mulv (msub m n) v = vsub (mulv m v) (mulv n v).
Proof. geo. Qed.
Lemma mscale_v : forall s m v, mulv (mscale s m) v = vscale s (mulv m v).
Proof. geo. Qed.
Lemma vadd_0 : forall a, vadd a v0 = a.
Proof. geo. Qed.
Lemma vadd_0l : forall a, vadd v0 a = a.
Proof. geo. Qed.
Lemma vsub_0 : forall a, vsub a v0 = a.
Proof. geo. Qed.
Lemma vadd_C : forall a b, vadd a b = vadd b a.
Proof. geo. Qed.
Lemma vadd_A : forall a b c, vadd a (vadd b c) = vadd (vadd a b) c.
Proof. geo. Qed.
Lemma vsub_self : forall a, vsub a a = v0.
Proof. geo. Qed.
Lemma det_mul : forall a b, det (mul a b) = det a * det b.
Proof. geo. Qed.
Lemma det_mtr : forall a, det (mtr a) = det a.
Proof. geo. Qed.

(** Rotations. *)
Definition cof (m : m3) : m3 :=
  M3 (vcross (rb m) (rc m)) (vcross (rc m) (ra m)) (vcross (ra m) (rb m)).

Lemma adj_mul : forall m, mul (mtr (cof m)) m = mscale (det m) m1.
Proof. intros; unfold cof; geo. Qed.

Lemma rotation_cof : forall m, rotation m -> cof m = m.
Proof.
  intros m [H D].
  assert (A := adj_mul m). rewrite D in A.
  assert (S : mscale 1 m1 = m1) by geo. rewrite S in A.
  assert (E : mtr (cof m) = mtr m).
  { rewrite <- (mulm1 (mtr (cof m))), <- H, <- mulA, A, mul1m. reflexivity. }
  rewrite <- (mtrK (cof m)), E, mtrK. reflexivity.
Qed.

Lemma rotation_mtr_l : forall m, rotation m -> mul (mtr m) m = m1.
Proof.
  intros m H. assert (A := adj_mul m). rewrite (rotation_cof m H) in A.
  destruct H as [_ D]. rewrite D in A. rewrite A. geo.
Qed.

Lemma rotation_mtr : forall m, rotation m -> rotation (mtr m).
Proof.
  intros m H. split.
  - rewrite mtrK. apply rotation_mtr_l, H.
  - rewrite det_mtr. apply H.
Qed.

Lemma rotation_mul : forall a b, rotation a -> rotation b -> rotation (mul a b).
Proof.
  intros a b [A DA] [B DB]. split.
  - rewrite mtr_mul, mulA, <- (mulA b), B, mul1m. exact A.
  - rewrite det_mul, DA, DB. ring.
Qed.

Lemma rotation_1 : rotation m1.
Proof. split; geo. Qed.

Lemma mulv_cof : forall m a b, vcross (mulv m a) (mulv m b) = mulv (cof m) (vcross a b).
Proof. intros; unfold cof; geo. Qed.

Lemma rotation_cross : forall m a b,
  rotation m -> mulv m (vcross a b) = vcross (mulv m a) (mulv m b).
Proof. intros m a b H. rewrite mulv_cof, (rotation_cof m H). reflexivity. Qed.

Lemma rotation_inv : forall m v, rotation m -> mulv (mtr m) (mulv m v) = v.
Proof. intros. rewrite <- mulvA, rotation_mtr_l, mul1v; auto. Qed.

Lemma rotation_inv_r : forall m v, rotation m -> mulv m (mulv (mtr m) v) = v.
Proof. intros m v H. rewrite <- mulvA. destruct H as [-> _]. apply mul1v. Qed.

(** Derivatives. *)
Lemma deriv_eq : forall f t d d', d = d' -> deriv f t d -> deriv f t d'.
Proof. intros; subst; auto. Qed.

Lemma vderiv_eq : forall f t d d', d = d' -> vderiv f t d -> vderiv f t d'.
Proof. intros; subst; auto. Qed.

Lemma deriv_const : forall c t, deriv (fun _ => c) t 0.
Proof. intros. apply (derivable_pt_lim_const c t). Qed.

Lemma deriv_add : forall f g t a b, deriv f t a -> deriv g t b -> deriv (fun s => f s + g s) t (a + b).
Proof. intros f g t a b H K. exact (derivable_pt_lim_plus f g t a b H K). Qed.

Lemma deriv_sub : forall f g t a b, deriv f t a -> deriv g t b -> deriv (fun s => f s - g s) t (a - b).
Proof. intros f g t a b H K. exact (derivable_pt_lim_minus f g t a b H K). Qed.

Lemma deriv_opp : forall f t a, deriv f t a -> deriv (fun s => - f s) t (- a).
Proof. intros f t a H. exact (derivable_pt_lim_opp f t a H). Qed.

Lemma deriv_mul : forall f g t a b,
  deriv f t a -> deriv g t b -> deriv (fun s => f s * g s) t (a * g t + f t * b).
Proof. intros f g t a b H K. exact (derivable_pt_lim_mult f g t a b H K). Qed.

Lemma deriv_scale : forall c f t a, deriv f t a -> deriv (fun s => c * f s) t (c * a).
Proof.
  intros c f t a H. eapply deriv_eq; [|apply (deriv_mul (fun _ => c) f); [apply deriv_const|exact H]].
  ring.
Qed.

Lemma deriv_unique : forall f t a b, deriv f t a -> deriv f t b -> a = b.
Proof. intros f t a b. exact (uniqueness_limite f t a b). Qed.

Lemma vderiv_unique : forall f t a b, vderiv f t a -> vderiv f t b -> a = b.
Proof.
  intros f t a b (A & B & C) (A' & B' & C').
  apply v3_eq; eapply deriv_unique; eassumption.
Qed.

Lemma deriv_ext : forall f g t d, (forall s, f s = g s) -> deriv f t d -> deriv g t d.
Proof.
  intros f g t d H K eps E. destruct (K eps E) as [del P]. exists del.
  intros h Hh Hl. rewrite <- !H. auto.
Qed.

Lemma vderiv_ext : forall f g t d, (forall s, f s = g s) -> vderiv f t d -> vderiv g t d.
Proof.
  intros f g t d H (A & B & C); repeat split; eapply deriv_ext; try eassumption;
    intros s; cbn; rewrite H; reflexivity.
Qed.

Lemma vderiv_const : forall c t, vderiv (fun _ => c) t v0.
Proof. intros; repeat split; apply deriv_const. Qed.

Lemma vderiv_add : forall f g t a b,
  vderiv f t a -> vderiv g t b -> vderiv (fun s => vadd (f s) (g s)) t (vadd a b).
Proof. intros f g t a b (A & B & C) (A' & B' & C'); repeat split; apply deriv_add; auto. Qed.

Lemma vderiv_sub : forall f g t a b,
  vderiv f t a -> vderiv g t b -> vderiv (fun s => vsub (f s) (g s)) t (vsub a b).
Proof. intros f g t a b (A & B & C) (A' & B' & C'); repeat split; apply deriv_sub; auto. Qed.

Lemma vderiv_scale : forall c f t a,
  vderiv f t a -> vderiv (fun s => vscale c (f s)) t (vscale c a).
Proof. intros c f t a (A & B & C); repeat split; apply deriv_scale; auto. Qed.

Lemma vderiv_dot : forall f g t a b,
  vderiv f t a -> vderiv g t b ->
  deriv (fun s => vdot (f s) (g s)) t (vdot a (g t) + vdot (f t) b).
Proof.
  intros f g t a b (A & B & C) (A' & B' & C').
  eapply deriv_eq; [|apply deriv_add; [apply deriv_add|];
    [apply (deriv_mul (fun s => vx (f s)) (fun s => vx (g s)))
    |apply (deriv_mul (fun s => vy (f s)) (fun s => vy (g s)))
    |apply (deriv_mul (fun s => vz (f s)) (fun s => vz (g s)))]; eassumption].
  unfold vdot. ring.
Qed.

Lemma vderiv_cross : forall f g t a b,
  vderiv f t a -> vderiv g t b ->
  vderiv (fun s => vcross (f s) (g s)) t (vadd (vcross a (g t)) (vcross (f t) b)).
Proof.
  intros f g t a b (A & B & C) (A' & B' & C').
  repeat split; cbn [vx vy vz vcross vadd].
  - eapply deriv_eq; [|apply deriv_sub;
      [apply (deriv_mul (fun s => vy (f s)) (fun s => vz (g s)))
      |apply (deriv_mul (fun s => vz (f s)) (fun s => vy (g s)))]; eassumption]. cbn beta. ring.
  - eapply deriv_eq; [|apply deriv_sub;
      [apply (deriv_mul (fun s => vz (f s)) (fun s => vx (g s)))
      |apply (deriv_mul (fun s => vx (f s)) (fun s => vz (g s)))]; eassumption]. cbn beta. ring.
  - eapply deriv_eq; [|apply deriv_sub;
      [apply (deriv_mul (fun s => vx (f s)) (fun s => vy (g s)))
      |apply (deriv_mul (fun s => vy (f s)) (fun s => vx (g s)))]; eassumption]. cbn beta. ring.
Qed.

Lemma vderiv_mulv : forall M g t M' b,
  mderiv M t M' -> vderiv g t b ->
  vderiv (fun s => mulv (M s) (g s)) t (vadd (mulv M' (g t)) (mulv (M t) b)).
Proof.
  intros M g t M' b (A & B & C) G.
  repeat split; cbn [vx vy vz mulv vadd].
  - exact (vderiv_dot (fun s => ra (M s)) g t _ _ A G).
  - exact (vderiv_dot (fun s => rb (M s)) g t _ _ B G).
  - exact (vderiv_dot (fun s => rc (M s)) g t _ _ C G).
Qed.

Lemma mderiv_tr : forall M t M', mderiv M t M' -> mderiv (fun s => mtr (M s)) t (mtr M').
Proof.
  intros M t M' ((A & B & C) & (A' & B' & C') & (A'' & B'' & C'')).
  repeat split; cbn [ra rb rc mtr vx vy vz]; assumption.
Qed.

Lemma mderiv_const : forall m t, mderiv (fun _ => m) t m0.
Proof. intros; repeat split; apply deriv_const. Qed.

Lemma mderiv_eq : forall f t d d', d = d' -> mderiv f t d -> mderiv f t d'.
Proof. intros; subst; auto. Qed.

Lemma mderiv_mul : forall A B t A' B',
  mderiv A t A' -> mderiv B t B' ->
  mderiv (fun s => mul (A s) (B s)) t (madd (mul A' (B t)) (mul (A t) B')).
Proof.
  intros A B t A' B' HA HB.
  assert (T := mderiv_tr _ _ _ HB). destruct T as (T1 & T2 & T3).
  assert (X := vderiv_mulv A (fun s => ra (mtr (B s))) t A' _ HA T1).
  assert (Y := vderiv_mulv A (fun s => rb (mtr (B s))) t A' _ HA T2).
  assert (Z := vderiv_mulv A (fun s => rc (mtr (B s))) t A' _ HA T3).
  assert (W : mderiv (fun s => M3 (mulv (A s) (ra (mtr (B s)))) (mulv (A s) (rb (mtr (B s))))
                                  (mulv (A s) (rc (mtr (B s))))) t
     (M3 (vadd (mulv A' (ra (mtr (B t)))) (mulv (A t) (ra (mtr B'))))
         (vadd (mulv A' (rb (mtr (B t)))) (mulv (A t) (rb (mtr B'))))
         (vadd (mulv A' (rc (mtr (B t)))) (mulv (A t) (rc (mtr B')))))).
  { split; [exact X|split; [exact Y|exact Z]]. }
  apply mderiv_tr in W. eapply mderiv_eq; [|exact W].
  generalize (B t), (A t). geo.
Qed.
