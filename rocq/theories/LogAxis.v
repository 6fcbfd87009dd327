(** The last two coordinates of the logarithm vanish exactly for the rotations that keep the first axis. *)
From Coq Require Import Reals Lra Ranalysis1 Ratan.
From Verif Require Import Geo GeoLemmas Rigid LogModel LogSpec RotProofs LogProofs LogMain LogPi.
Local Open Scope R_scope.

Definition e1 : v3 := V3 1 0 0.
Lemma turns_first a m : turns_to (V3 a 0 0) m -> mulv m e1 = e1.
Proof.
  intros (E & E0 & ED & E1).
  assert (D : forall t, vderiv (fun s => mulv (E s) e1) t v0).
  { intros t. eapply vderiv_eq; [|exact (vderiv_mulv E (fun _ => e1) t _ _ (ED t) (vderiv_const e1 t))].
    rewrite mulvA. assert (Z : mulv (cross_matrix (V3 a 0 0)) e1 = v0) by (unfold e1; cv; f_equal; ring). rewrite Z. generalize (E t). intros m'. apply v3_eq; gcbn; ring. }
  transitivity (mulv (E 0) e1); [|rewrite E0; apply mul1v]. rewrite <- E1.
  apply v3_eq; apply (const_of_zero (fun s => _ (mulv (E s) e1))); intros t; apply (D t).
Qed.
Lemma first_form m : rotation m -> mulv m e1 = e1 -> exists c s, m = M3 (V3 1 0 0) (V3 0 c (- s)) (V3 0 s c) /\ c * c + s * s = 1.
Proof.
  intros H E. pose proof (rotation_cof m H) as C. destruct H as [O D]. destruct m as [[a b c] [d e f] [g h i]]. unfold e1 in E. cvin E. cvin O. unfold cof in C. cvin C.
  injection E as e1 e2 e3. injection O as r1 r2 r3 r4 r5 r6 r7 r8 r9. injection C as c1 c2 c3 c4 c5 c6 c7 c8 c9.
  assert (A : a = 1) by lra. assert (Dz : d = 0) by lra. assert (G : g = 0) by lra.
  assert (B : b = 0) by (rewrite <- c2, Dz, G; ring). assert (Cz : c = 0) by (rewrite <- c3, Dz, G; ring).
  assert (I : i = e) by (rewrite <- c9, A, B; ring). assert (F : f = - h) by (rewrite <- c6, A, B; ring). clear c1 c2 c3 c4 c5 c6 c7 c8 c9. subst a d g b c i f.
  exists e, h. split; [reflexivity|lra].
Qed.
Lemma log_axis m : rotation m -> let r := snd (logSO3 m) in (vy r = 0 /\ vz r = 0) <-> mulv m e1 = e1.
Proof.
  intros H r. assert (A : fst (logSO3 m) = angle m) by (unfold logSO3; destruct (Rlt_dec _ _); reflexivity).
  assert (AB : 0 <= angle m <= PI).
  { unfold angle. pose proof PI_RGT_0. destruct (Rlt_dec 3 (trace m)); [lra|]. destruct (Rlt_dec (trace m) (-1)); [lra|]. pose proof (acos_bound ((trace m - 1) / 2)). lra. }
  destruct (logSO3 m) as [th r'] eqn:E. cbn [fst snd] in *. subst th. subst r. split.
  - intros [Y Z]. destruct (Rle_lt_or_eq_dec 0 (angle m) (proj1 AB)) as [P|P].
    2: { destruct (log_right m _ _ H E (or_intror (eq_sym P))) as (_ & _ & T). destruct r' as [x y z]. cbn in Y, Z. subst y z. exact (turns_first x m T). }
    destruct (Rle_lt_or_eq_dec (angle m) PI (proj2 AB)) as [Q|Q].
    + destruct (Rlt_dec (/ 1000000) (angle m)) as [L|L].
      * destruct (log_right m _ _ H E (or_introl (conj L Q))) as (_ & _ & T). destruct r' as [x y z]. cbn in Y, Z. subst y z. exact (turns_first x m T).
      * apply Rnot_lt_le in L. destruct (log_small m _ _ H E (conj P L)) as (r0 & T & _ & W). pose proof pi_big. assert (S : 0 < sin (angle m)) by (apply sin_gt_0; lra).
        assert (K : sin (angle m) / angle m <> 0) by (apply Rgt_not_eq, Rdiv_lt_0_compat; lra). rewrite W in Y, Z. cbn in Y, Z.
        apply Rmult_integral in Y as [Y|Y]; [contradiction|]. apply Rmult_integral in Z as [Z|Z]; [contradiction|]. destruct r0 as [x y z]. cbn in Y, Z. subst y z. exact (turns_first x m T).
    + rewrite (log_pi m H Q) in E. injection E as _ <-. cbn in Y, Z. destruct (half_turn m H Q) as (s1 & s2 & s3 & d1 & d2 & d3 & t & p1 & p2 & p3). pose proof pi_big.
      assert (Y' : sqrt ((vy (rb m) + 1) / 2) = 0) by nra. assert (Z' : sqrt ((vz (rc m) + 1) / 2) = 0) by nra. apply sqrt_eq_0 in Y'; [|lra]. apply sqrt_eq_0 in Z'; [|lra].
      assert (Ye : vy (rb m) = -1) by lra. assert (Ze : vz (rc m) = -1) by lra. rewrite Ye in *. rewrite Ze in *. destruct m as [[a b c] [d e f] [g h i]]. cbn in *. unfold e1. cv. f_equal; nra.
  - intros F. destruct (first_form m H F) as (c & s & -> & N). pose proof (cos_angle _ H) as C. unfold trace in C. cbn in C.
    unfold logSO3 in E. destruct (Rlt_dec (angle _) (PI - / 100)).
    + injection E as <-. cbn. split; ring.
    + injection E as <-. cbn. set (g := angle _) in *.
      assert (Z : (c + cos (g - PI)) * (g * g / (1 + cos (g - PI))) = 0).
      { replace (cos (g - PI)) with (- cos g); [replace c with (cos g) by lra; ring|]. rewrite cos_minus, cos_PI, sin_PI. ring. }
      rewrite Z. replace (root 0) with 0; [split; ring|]. unfold root. destruct (Rlt_dec 0 0); [lra|reflexivity].
Qed.
