(** Proofs on the cache of symbolic expressions. *)
From Coq Require Import Reals List Bool Arith.
From Verif Require Import Geo GeoLemmas SymModel SymSpec.
Import ListNotations.
Local Open Scope R_scope.

(** The Jacobian without cache. *)
Fixpoint dj (q : robot) (e : expr) : v3 :=
  match e with
  | Cross _ l r => vsub (mulv (cross_matrix (meaning q l)) (dj q r))
                        (mulv (cross_matrix (meaning q r)) (dj q l))
  | Dot _ l r => V3 (vdot (meaning q l) (dj q r) + vdot (meaning q r) (dj q l)) 0 0
  | Diff _ l r => vsub (dj q l) (dj q r)
  | Sum _ l r => vadd (dj q l) (dj q r)
  | SMul _ s r => vscale s (dj q r)
  | Rot _ j tr r =>
      mulv (if tr then mtr (jR q j) else jR q j)
           (vadd (mulv (mul (cross_matrix (meaning q r)) (jR q j)) (jw q j)) (dj q r))
  | Pij _ (Some j) l =>
      if is_zero l then mulv (jR q j) (jv q j)
      else vsub (mulv (jR q j) (jv q j)) (mulv (mul (cross_matrix (mulv (jR q j) l)) (jR q j)) (jw q j))
  | Vij _ (Some j) v => mulv (mul (mopp (cross_matrix (mulv (jR q j) v))) (jR q j)) (jw q j)
  | Pij _ None _ | Vij _ None _ | Pt _ _ => v0
  | Com _ => comJ q
  end.

Lemma is_zero_spec : forall v, is_zero v = true <-> v = v0.
Proof.
  intros [x y z]. unfold is_zero. cbn [vx vy vz].
  destruct (Req_EM_T x 0), (Req_EM_T y 0), (Req_EM_T z 0); subst; cbn;
    split; intros H; try discriminate; try reflexivity; inversion H; subst; congruence.
Qed.

Lemma upd_same : forall st a c, upd st a c a = c.
Proof. intros. unfold upd. rewrite Nat.eqb_refl. reflexivity. Qed.

Lemma upd_other : forall st a c b, b <> a -> upd st a c b = st b.
Proof. intros st a c b H. unfold upd. apply Nat.eqb_neq in H. rewrite H. reflexivity. Qed.

Definition constant (e : expr) : option v3 :=
  match e with Pij _ None p | Vij _ None p | Pt _ p => Some p | _ => None end.

Definition constp (e : expr) (c : cell) : Prop :=
  match constant e with Some p => mem c = p /\ val c = p /\ jac c = v0 | None => True end.

Definition is_com (e : expr) : Prop := match e with Com _ => True | _ => False end.

Definition good (q : robot) (e : expr) (c : cell) : Prop :=
  (vValid c = true -> val c = meaning q e /\ (~ is_com e -> mem c = meaning q e)) /\
  (jValid c = true -> jac c = dj q e) /\
  (cValid c = true -> crossable e -> crs c = cross_matrix (meaning q e)).

Section World.
  Variable U : expr -> Prop.
  Hypothesis U_sub : forall e f, sub e f -> U f -> U e.
  Hypothesis U_inj : forall e f, U e -> U f -> addr e = addr f -> e = f.
  Hypothesis U_safe : forall e, U e ->
    match e with
    | Cross _ l r => crossable l /\ crossable r
    | Rot _ _ _ r => crossable r
    | _ => True
    end.

  Variable q : robot.
  Variable S : expr -> Prop.
  Hypothesis S_sub : forall e f, sub e f -> S f -> S e.

  Definition P (e : expr) (c : cell) : Prop := constp e c /\ (S e -> good q e c).
  Definition G (st : store) : Prop := forall e, U e -> P e (st (addr e)).

  Definition mono (st st' : store) : Prop :=
    forall a, (vValid (st a) = true -> vValid (st' a) = true) /\
              (jValid (st a) = true -> jValid (st' a) = true) /\
              (cValid (st a) = true -> cValid (st' a) = true).

  Lemma mono_refl : forall st, mono st st.
  Proof. intros st a; auto. Qed.

  Lemma mono_trans : forall s1 s2 s3, mono s1 s2 -> mono s2 s3 -> mono s1 s3.
  Proof.
    intros s1 s2 s3 A B a. destruct (A a) as (X & Y & Z). destruct (B a) as (X' & Y' & Z').
    repeat split; auto.
  Qed.

  Lemma mono_upd : forall st a c,
    (vValid (st a) = true -> vValid c = true) ->
    (jValid (st a) = true -> jValid c = true) ->
    (cValid (st a) = true -> cValid c = true) -> mono st (upd st a c).
  Proof.
    intros st a c X Y Z b. destruct (Nat.eq_dec b a) as [->|N].
    - rewrite upd_same. auto.
    - rewrite upd_other by exact N. auto.
  Qed.

  Lemma G_upd : forall st e c, U e -> G st -> P e c -> G (upd st (addr e) c).
  Proof.
    intros st e c He H HP f Hf. destruct (Nat.eq_dec (addr f) (addr e)) as [E|N].
    - rewrite E, upd_same. rewrite (U_inj _ _ Hf He E). exact HP.
    - rewrite upd_other by exact N. apply H, Hf.
  Qed.

  (** What [compute_value] guarantees. *)
  Definition okV (e : expr) : Prop :=
    forall st, G st -> let st' := compute_value q e st in
      G st' /\ mono st st' /\ vValid (st' (addr e)) = true.
  Definition okC (e : expr) : Prop :=
    forall st, G st -> let st' := compute_cross q e st in
      G st' /\ mono st st' /\ cValid (st' (addr e)) = true.
  Definition okJ (e : expr) : Prop :=
    forall st, G st -> let st' := compute_jacobian q e st in
      G st' /\ mono st st' /\ jValid (st' (addr e)) = true.

  Lemma V_to_C : forall e, U e -> okV e -> okC e.
  Proof.
    intros e He HV st Hst st'. unfold compute_cross, compute_cross_with in st'.
    destruct (cValid (st (addr e))) eqn:C.
    - subst st'. split; [exact Hst|split; [apply mono_refl|exact C]].
    - destruct (HV st Hst) as (G1 & M1 & V1). set (s1 := compute_value q e st) in *.
      assert (E : forall b, st' b = upd s1 (addr e)
        (Cell (mem (s1 (addr e))) (val (s1 (addr e))) (jac (s1 (addr e)))
           (cross_matrix (mem (s1 (addr e)))) (vValid (s1 (addr e))) (jValid (s1 (addr e))) true) b).
      { intros b. unfold st', set_cValid, put_crs. unfold upd at 1.
        destruct (Nat.eqb b (addr e)) eqn:B.
        - rewrite !upd_same. unfold upd. rewrite B. reflexivity.
        - unfold upd. rewrite B. reflexivity. }
      split; [|split].
      + intros f Hf. rewrite E. revert f Hf. apply G_upd; [exact He|exact G1|].
        destruct (G1 e He) as [K1 K2]. split; [exact K1|]. intros Se.
        destruct (K2 Se) as (A & B & D). unfold good. cbn [vValid val mem jac crs jValid cValid].
        split; [exact A|split; [exact B|]].
        { intros _ X. destruct A as [_ A]; [exact V1|].
          rewrite A; [reflexivity|]. destruct e; cbn in *; auto. }
      + apply (mono_trans _ _ _ M1). intros b. rewrite !E. revert b.
        apply (mono_upd s1 (addr e)); cbn [vValid jValid cValid]; auto.
      + rewrite E, upd_same. reflexivity.
  Qed.

  Lemma flagV : forall e st c0,
    U e -> G st -> vValid c0 = vValid (st (addr e)) -> jValid c0 = jValid (st (addr e)) ->
    cValid c0 = cValid (st (addr e)) -> jac c0 = jac (st (addr e)) -> crs c0 = crs (st (addr e)) ->
    (constant e <> None -> mem c0 = mem (st (addr e)) /\ val c0 = val (st (addr e))) ->
    (S e -> val c0 = meaning q e /\ (~ is_com e -> mem c0 = meaning q e)) ->
    let st' := set_vValid (addr e) (upd st (addr e) c0) in
    G st' /\ mono st st' /\ vValid (st' (addr e)) = true.
  Proof.
    intros e st c0 He HG F1 F2 F3 F4 F5 K H st'.
    assert (E : forall b, st' b = upd st (addr e)
        (Cell (mem c0) (val c0) (jac c0) (crs c0) true (jValid c0) (cValid c0)) b).
    { intros b. unfold st', set_vValid. rewrite upd_same. unfold upd.
      destruct (Nat.eqb b (addr e)); reflexivity. }
    destruct (HG e He) as [C1 C2].
    split; [|split].
    - intros f Hf. rewrite E. revert f Hf. apply G_upd; [exact He|exact HG|]. split.
      + unfold constp in *. destruct (constant e) as [p|] eqn:X; [|exact I].
        cbn [mem val jac]. destruct K as [-> ->]; [discriminate|]. rewrite F4. exact C1.
      + intros Se. destruct (C2 Se) as (A & B & D). destruct (H Se) as [H1 H2].
        unfold good. cbn [vValid val mem jac crs jValid cValid].
        rewrite F2, F3, F4, F5. repeat split; auto.
    - intros b. rewrite !E. revert b. apply mono_upd; cbn [vValid jValid cValid]; auto; congruence.
    - rewrite E, upd_same. reflexivity.
  Qed.

  Lemma flagJ : forall e st c0,
    U e -> G st -> vValid c0 = vValid (st (addr e)) -> jValid c0 = jValid (st (addr e)) ->
    cValid c0 = cValid (st (addr e)) -> mem c0 = mem (st (addr e)) ->
    (~ is_com e -> val c0 = val (st (addr e))) ->
    (is_com e -> val c0 = meaning q e) ->
    (crossable e -> crs c0 = crs (st (addr e)) \/ crs c0 = cross_matrix (meaning q e)) ->
    (constant e <> None -> jac c0 = jac (st (addr e))) ->
    (S e -> jac c0 = dj q e) ->
    let st' := set_jValid (addr e) (upd st (addr e) c0) in
    G st' /\ mono st st' /\ jValid (st' (addr e)) = true.
  Proof.
    intros e st c0 He HG F1 F2 F3 F4 F5 F5' F6 K H st'.
    assert (E : forall b, st' b = upd st (addr e)
        (Cell (mem c0) (val c0) (jac c0) (crs c0) (vValid c0) true (cValid c0)) b).
    { intros b. unfold st', set_jValid. rewrite upd_same. unfold upd.
      destruct (Nat.eqb b (addr e)); reflexivity. }
    destruct (HG e He) as [C1 C2].
    assert (DC : is_com e \/ ~ is_com e) by (destruct e; cbn; auto).
    split; [|split].
    - intros f Hf. rewrite E. revert f Hf. apply G_upd; [exact He|exact HG|]. split.
      + unfold constp in *. destruct (constant e) as [p|] eqn:X; [|exact I].
        cbn [mem val jac]. rewrite K by discriminate.
        rewrite F4, F5; [exact C1|]. destruct e; cbn in *; auto; discriminate.
      + intros Se. destruct (C2 Se) as (A & B & D).
        unfold good. cbn [vValid val mem jac crs jValid cValid].
        rewrite F1, F3, F4. split; [|split].
        * intros V. destruct (A V) as [A1 A2]. split; [|exact A2].
          destruct DC as [DC|DC]; [apply F5', DC|rewrite F5; auto].
        * intros _. apply H, Se.
        * intros V X. destruct (F6 X) as [->| ->]; auto.
    - intros b. rewrite !E. revert b. apply mono_upd; cbn [vValid jValid cValid]; auto; congruence.
    - rewrite E, upd_same. reflexivity.
  Qed.

  Lemma readV : forall e st, U e -> S e -> G st -> vValid (st (addr e)) = true ->
    val (st (addr e)) = meaning q e.
  Proof. intros e st He Se HG V. destruct (HG e He) as [_ K]. apply (K Se); exact V. Qed.

  Lemma readJ : forall e st, U e -> S e -> G st -> jValid (st (addr e)) = true ->
    jac (st (addr e)) = dj q e.
  Proof. intros e st He Se HG V. destruct (HG e He) as [_ K]. apply (K Se); exact V. Qed.

  Lemma readC : forall e st, U e -> S e -> G st -> cValid (st (addr e)) = true -> crossable e ->
    crs (st (addr e)) = cross_matrix (meaning q e).
  Proof. intros e st He Se HG V. destruct (HG e He) as [_ K]. apply (K Se); exact V. Qed.

  Lemma put_val_upd : forall a v st, put_val a v st =
    upd st a (Cell v v (jac (st a)) (crs (st a)) (vValid (st a)) (jValid (st a)) (cValid (st a))).
  Proof. reflexivity. Qed.

  Lemma upd_id : forall st a b, upd st a (st a) b = st b.
  Proof.
    intros st a b. unfold upd. destruct (Nat.eqb b a) eqn:E; auto.
    apply Nat.eqb_eq in E. subst; reflexivity.
  Qed.

  (** The conclusion is stable by pointwise equality of stores. *)
  Lemma ok_ext : forall (fl : cell -> bool) st s1 s2 a,
    (forall b, s1 b = s2 b) ->
    G s2 /\ mono st s2 /\ fl (s2 a) = true -> G s1 /\ mono st s1 /\ fl (s1 a) = true.
  Proof.
    intros fl st s1 s2 a E (A & B & C). split; [|split].
    - intros e He. rewrite E. apply A, He.
    - intros b. rewrite E. apply B.
    - rewrite E. exact C.
  Qed.


  Lemma nodeV : forall e st s v, U e -> mono st s -> G s -> constant e = None -> ~ is_com e ->
    (S e -> v = meaning q e) ->
    let st' := set_vValid (addr e) (put_val (addr e) v s) in
    G st' /\ mono st st' /\ vValid (st' (addr e)) = true.
  Proof.
    intros e st s v He M HG C N H st'.
    assert (X := flagV e s (Cell v v (jac (s (addr e))) (crs (s (addr e))) (vValid (s (addr e)))
      (jValid (s (addr e))) (cValid (s (addr e)))) He HG eq_refl eq_refl eq_refl eq_refl eq_refl).
    destruct X as (A & B & D).
    - intros Y; congruence.
    - intros Se; cbn [val mem]; split; [|intros _]; apply H, Se.
    - split; [exact A|split; [eapply mono_trans; eassumption|exact D]].
  Qed.

  Lemma nodeV0 : forall e st, U e -> G st -> (exists p, constant e = Some p) ->
    let st' := set_vValid (addr e) st in
    G st' /\ mono st st' /\ vValid (st' (addr e)) = true.
  Proof.
    intros e st He HG [p C] st'.
    assert (X := flagV e st (st (addr e)) He HG eq_refl eq_refl eq_refl eq_refl eq_refl).
    eapply (ok_ext vValid); [|apply X; [auto|]].
    - intros b. unfold st', set_vValid. unfold upd. rewrite Nat.eqb_refl.
      destruct (Nat.eqb b (addr e)); reflexivity.
    - intros Se. destruct (HG e He) as [K _]. unfold constp in K. rewrite C in K.
      assert (meaning q e = p) as -> by (destruct e; try destruct j; cbn in *; congruence).
      tauto.
  Qed.

  Lemma nodeJ : forall e st s v, U e -> mono st s -> G s -> constant e = None -> ~ is_com e ->
    (S e -> v = dj q e) ->
    let st' := set_jValid (addr e) (put_jac (addr e) v s) in
    G st' /\ mono st st' /\ jValid (st' (addr e)) = true.
  Proof.
    intros e st s v He M HG C N H st'.
    assert (X := flagJ e s (Cell (mem (s (addr e))) (val (s (addr e))) v (crs (s (addr e)))
      (vValid (s (addr e))) (jValid (s (addr e))) (cValid (s (addr e)))) He HG eq_refl eq_refl
      eq_refl eq_refl).
    destruct X as (A & B & D); auto.
    - intros Y; contradiction.
    - intros Y; congruence.
    - split; [exact A|split; [eapply mono_trans; eassumption|exact D]].
  Qed.

  Lemma nodeJ0 : forall e st, U e -> G st -> (exists p, constant e = Some p) ->
    let st' := set_jValid (addr e) st in
    G st' /\ mono st st' /\ jValid (st' (addr e)) = true.
  Proof.
    intros e st He HG [p C] st'.
    assert (X := flagJ e st (st (addr e)) He HG eq_refl eq_refl eq_refl eq_refl).
    eapply (ok_ext jValid); [|apply X; auto].
    - intros b. unfold st', set_jValid. unfold upd. rewrite Nat.eqb_refl.
      destruct (Nat.eqb b (addr e)); reflexivity.
    - intros Y; destruct e; cbn in *; try contradiction; discriminate.
    - intros Se. destruct (HG e He) as [K _]. unfold constp in K. rewrite C in K.
      assert (dj q e = v0) as -> by (destruct e; try destruct j; cbn in *; congruence).
      tauto.
  Qed.

  Ltac skip Hst V := split; [exact Hst|split; [apply mono_refl|exact V]].
  Ltac subU c He := eapply U_sub; [apply c; apply sub_refl|exact He].
  Ltac subS c He := eapply S_sub; [apply c; apply sub_refl|exact He].

  Lemma all_okV : forall e, U e -> okV e.
  Proof.
    induction e as [a l IHl r IHr|a l IHl r IHr|a l IHl r IHr|a l IHl r IHr|a s r IHr
                   |a j tr r IHr|a j l|a j v|a p|a]; intros He st Hst; cbn zeta;
      cbn [compute_value addr].
    - destruct (vValid (st a)) eqn:V; [skip Hst V|].
      assert (Ul : U l) by subU sub_cross_l He.
      assert (Ur : U r) by subU sub_cross_r He.
      destruct (V_to_C l Ul (IHl Ul) st Hst) as (G1 & M1 & C1).
      unfold compute_cross in *.
      set (s1 := compute_cross_with (compute_value q l) (addr l) st) in *.
      destruct (IHr Ur s1 G1) as (G2 & M2 & V2). set (s2 := compute_value q r s1) in *.
      assert (C2 : cValid (s2 (addr l)) = true) by (apply (M2 (addr l)); exact C1).
      apply (nodeV (Cross a l r)); auto; [eapply mono_trans; eassumption|].
      intros Se. cbn [meaning]. rewrite (readC l), (readV r), cross_matrixE; auto.
      + subS sub_cross_r Se.
      + subS sub_cross_l Se.
      + apply (U_safe _ He).
    - destruct (vValid (st a)) eqn:V; [skip Hst V|].
      assert (Ul : U l) by subU sub_dot_l He.
      assert (Ur : U r) by subU sub_dot_r He.
      destruct (IHl Ul st Hst) as (G1 & M1 & C1). set (s1 := compute_value q l st) in *.
      destruct (IHr Ur s1 G1) as (G2 & M2 & V2). set (s2 := compute_value q r s1) in *.
      assert (C2 : vValid (s2 (addr l)) = true) by (apply (M2 (addr l)); exact C1).
      apply (nodeV (Dot a l r)); auto; [eapply mono_trans; eassumption|].
      intros Se. cbn [meaning]. rewrite (readV l), (readV r); auto;
        [subS sub_dot_r Se|subS sub_dot_l Se].
    - destruct (vValid (st a)) eqn:V; [skip Hst V|].
      assert (Ul : U l) by subU sub_diff_l He.
      assert (Ur : U r) by subU sub_diff_r He.
      destruct (IHl Ul st Hst) as (G1 & M1 & C1). set (s1 := compute_value q l st) in *.
      destruct (IHr Ur s1 G1) as (G2 & M2 & V2). set (s2 := compute_value q r s1) in *.
      assert (C2 : vValid (s2 (addr l)) = true) by (apply (M2 (addr l)); exact C1).
      apply (nodeV (Diff a l r)); auto; [eapply mono_trans; eassumption|].
      intros Se. cbn [meaning]. rewrite (readV l), (readV r); auto;
        [subS sub_diff_r Se|subS sub_diff_l Se].
    - destruct (vValid (st a)) eqn:V; [skip Hst V|].
      assert (Ul : U l) by subU sub_sum_l He.
      assert (Ur : U r) by subU sub_sum_r He.
      destruct (IHl Ul st Hst) as (G1 & M1 & C1). set (s1 := compute_value q l st) in *.
      destruct (IHr Ur s1 G1) as (G2 & M2 & V2). set (s2 := compute_value q r s1) in *.
      assert (C2 : vValid (s2 (addr l)) = true) by (apply (M2 (addr l)); exact C1).
      apply (nodeV (Sum a l r)); auto; [eapply mono_trans; eassumption|].
      intros Se. cbn [meaning]. rewrite (readV l), (readV r); auto;
        [subS sub_sum_r Se|subS sub_sum_l Se].
    - destruct (vValid (st a)) eqn:V; [skip Hst V|].
      assert (Ur : U r) by subU sub_smul He.
      destruct (IHr Ur st Hst) as (G1 & M1 & C1). set (s1 := compute_value q r st) in *.
      apply (nodeV (SMul a s r)); auto.
      intros Se. cbn [meaning]. rewrite (readV r); auto. subS sub_smul Se.
    - destruct (vValid (st a)) eqn:V; [skip Hst V|].
      assert (Ur : U r) by subU sub_rot He.
      destruct (IHr Ur st Hst) as (G1 & M1 & C1). set (s1 := compute_value q r st) in *.
      apply (nodeV (Rot a j tr r)); auto.
      intros Se. cbn [meaning]. rewrite (readV r); auto. subS sub_rot Se.
    - destruct (vValid (st a)) eqn:V; [skip Hst V|]. destruct j as [j|].
      + apply (nodeV (Pij a (Some j) l)); auto using mono_refl.
      + apply (nodeV0 (Pij a None l)); auto. exists l; reflexivity.
    - destruct (vValid (st a)) eqn:V; [skip Hst V|]. destruct j as [j|].
      + apply (nodeV (Vij a (Some j) v)); auto using mono_refl.
      + apply (nodeV0 (Vij a None v)); auto. exists v; reflexivity.
    - destruct (vValid (st a)) eqn:V; [skip Hst V|].
      apply (nodeV0 (Pt a p)); auto. exists p; reflexivity.
    - destruct (vValid (st a)) eqn:V; [skip Hst V|].
      unfold put_com. apply (flagV (Com a)); auto.
      + intros X. exfalso; apply X; reflexivity.
      + intros Se. cbn [val mem meaning is_com]. split; [reflexivity|tauto].
  Qed.

  Lemma all_okC : forall e, U e -> okC e.
  Proof. intros e He. apply V_to_C; auto using all_okV. Qed.

  Lemma all_okJ : forall e, U e -> okJ e.
  Proof.
    induction e as [a l IHl r IHr|a l IHl r IHr|a l IHl r IHr|a l IHl r IHr|a s r IHr
                   |a j tr r IHr|a j l|a j v|a p|a]; intros He st Hst; cbn zeta;
      cbn [compute_jacobian addr].
    - destruct (jValid (st a)) eqn:V; [skip Hst V|].
      assert (Ul : U l) by subU sub_cross_l He.
      assert (Ur : U r) by subU sub_cross_r He.
      destruct (all_okC l Ul st Hst) as (G1 & M1 & C1). set (s1 := compute_cross q l st) in *.
      destruct (all_okC r Ur s1 G1) as (G2 & M2 & C2). set (s2 := compute_cross q r s1) in *.
      destruct (IHl Ul s2 G2) as (G3 & M3 & C3). set (s3 := compute_jacobian q l s2) in *.
      destruct (IHr Ur s3 G3) as (G4 & M4 & C4). set (s4 := compute_jacobian q r s3) in *.
      assert (M24 := mono_trans _ _ _ M3 M4).
      assert (X1 : cValid (s4 (addr l)) = true) by (apply (M24 (addr l)), (M2 (addr l)); exact C1).
      assert (X2 : cValid (s4 (addr r)) = true) by (apply (M24 (addr r)); exact C2).
      assert (X3 : jValid (s4 (addr l)) = true) by (apply (M4 (addr l)); exact C3).
      apply (nodeJ (Cross a l r)); auto.
      { eapply mono_trans; [exact M1|]. eapply mono_trans; eassumption. }
      intros Se. cbn [dj].
      assert (Sl : S l) by subS sub_cross_l Se.
      assert (Sr : S r) by subS sub_cross_r Se.
      destruct (U_safe _ He) as [K1 K2].
      rewrite (readC l), (readC r), (readJ l), (readJ r); auto.
    - destruct (jValid (st a)) eqn:V; [skip Hst V|].
      assert (Ul : U l) by subU sub_dot_l He.
      assert (Ur : U r) by subU sub_dot_r He.
      destruct (all_okV l Ul st Hst) as (G1 & M1 & C1). set (s1 := compute_value q l st) in *.
      destruct (all_okV r Ur s1 G1) as (G2 & M2 & C2). set (s2 := compute_value q r s1) in *.
      destruct (IHl Ul s2 G2) as (G3 & M3 & C3). set (s3 := compute_jacobian q l s2) in *.
      destruct (IHr Ur s3 G3) as (G4 & M4 & C4). set (s4 := compute_jacobian q r s3) in *.
      assert (M24 := mono_trans _ _ _ M3 M4).
      assert (X1 : vValid (s4 (addr l)) = true) by (apply (M24 (addr l)), (M2 (addr l)); exact C1).
      assert (X2 : vValid (s4 (addr r)) = true) by (apply (M24 (addr r)); exact C2).
      assert (X3 : jValid (s4 (addr l)) = true) by (apply (M4 (addr l)); exact C3).
      apply (nodeJ (Dot a l r)); auto.
      { eapply mono_trans; [exact M1|]. eapply mono_trans; eassumption. }
      intros Se. cbn [dj].
      assert (Sl : S l) by subS sub_dot_l Se.
      assert (Sr : S r) by subS sub_dot_r Se.
      rewrite (readV l), (readV r), (readJ l), (readJ r); auto.
    - destruct (jValid (st a)) eqn:V; [skip Hst V|].
      assert (Ul : U l) by subU sub_diff_l He.
      assert (Ur : U r) by subU sub_diff_r He.
      destruct (IHl Ul st Hst) as (G1 & M1 & C1). set (s1 := compute_jacobian q l st) in *.
      destruct (IHr Ur s1 G1) as (G2 & M2 & V2). set (s2 := compute_jacobian q r s1) in *.
      assert (C2 : jValid (s2 (addr l)) = true) by (apply (M2 (addr l)); exact C1).
      apply (nodeJ (Diff a l r)); auto; [eapply mono_trans; eassumption|].
      intros Se. cbn [dj]. rewrite (readJ l), (readJ r); auto;
        [subS sub_diff_r Se|subS sub_diff_l Se].
    - destruct (jValid (st a)) eqn:V; [skip Hst V|].
      assert (Ul : U l) by subU sub_sum_l He.
      assert (Ur : U r) by subU sub_sum_r He.
      destruct (IHl Ul st Hst) as (G1 & M1 & C1). set (s1 := compute_jacobian q l st) in *.
      destruct (IHr Ur s1 G1) as (G2 & M2 & V2). set (s2 := compute_jacobian q r s1) in *.
      assert (C2 : jValid (s2 (addr l)) = true) by (apply (M2 (addr l)); exact C1).
      apply (nodeJ (Sum a l r)); auto; [eapply mono_trans; eassumption|].
      intros Se. cbn [dj]. rewrite (readJ l), (readJ r); auto;
        [subS sub_sum_r Se|subS sub_sum_l Se].
    - destruct (jValid (st a)) eqn:V; [skip Hst V|].
      assert (Ur : U r) by subU sub_smul He.
      destruct (IHr Ur st Hst) as (G1 & M1 & C1). set (s1 := compute_jacobian q r st) in *.
      apply (nodeJ (SMul a s r)); auto.
      intros Se. cbn [dj]. rewrite (readJ r); auto. subS sub_smul Se.
    - destruct (jValid (st a)) eqn:V; [skip Hst V|].
      assert (Ur : U r) by subU sub_rot He.
      destruct (IHr Ur st Hst) as (G1 & M1 & C1). set (s1 := compute_jacobian q r st) in *.
      destruct (all_okC r Ur s1 G1) as (G2 & M2 & C2). set (s2 := compute_cross q r s1) in *.
      assert (X : jValid (s2 (addr r)) = true) by (apply (M2 (addr r)); exact C1).
      apply (nodeJ (Rot a j tr r)); auto; [eapply mono_trans; eassumption|].
      intros Se. cbn [dj].
      assert (Sr : S r) by subS sub_rot Se.
      assert (K := U_safe _ He). cbn in K.
      rewrite (readC r), (readJ r); auto.
    - destruct (jValid (st a)) eqn:V; [skip Hst V|]. destruct j as [j|].
      + destruct (is_zero l) eqn:Z.
        * apply (nodeJ (Pij a (Some j) l)); auto using mono_refl.
          intros _. cbn [dj]. rewrite Z. reflexivity.
        * eapply (ok_ext jValid st _ (set_jValid a (upd st a (Cell (mem (st a)) (val (st a))
            (dj q (Pij a (Some j) l)) (cross_matrix (mulv (jR q j) l)) (vValid (st a))
            (jValid (st a)) (cValid (st a)))))).
          { intros b. unfold set_jValid, put_jac, put_crs. rewrite !upd_same. unfold upd.
            cbn [dj]. rewrite Z. destruct (Nat.eqb b a); reflexivity. }
          apply (flagJ (Pij a (Some j) l)); auto; cbn [is_com crossable constant]; try tauto.
          { intros ->. exfalso. assert (is_zero v0 = true) by (apply is_zero_spec; reflexivity).
            congruence. }
      + apply (nodeJ0 (Pij a None l)); auto. exists l; reflexivity.
    - destruct (jValid (st a)) eqn:V; [skip Hst V|]. destruct j as [j|].
      + eapply (ok_ext jValid st _ (set_jValid a (upd st a (Cell (mem (st a)) (val (st a))
            (dj q (Vij a (Some j) v)) (cross_matrix (mulv (jR q j) v)) (vValid (st a))
            (jValid (st a)) (cValid (st a)))))).
        { intros b. unfold set_jValid, put_jac, put_crs. rewrite !upd_same. unfold upd.
          destruct (Nat.eqb b a); reflexivity. }
        apply (flagJ (Vij a (Some j) v)); auto; cbn [is_com crossable constant]; try tauto.
      + apply (nodeJ0 (Vij a None v)); auto. exists v; reflexivity.
    - destruct (jValid (st a)) eqn:V; [skip Hst V|].
      apply (nodeJ0 (Pt a p)); auto. exists p; reflexivity.
    - destruct (jValid (st a)) eqn:V; [skip Hst V|].
      eapply (ok_ext jValid st _ (set_jValid a (upd st a (Cell (mem (st a)) (com q)
            (comJ q) (crs (st a)) (vValid (st a))
            (jValid (st a)) (cValid (st a)))))).
      { intros b. unfold set_jValid, put_jac, put_com. rewrite !upd_same. unfold upd.
        destruct (Nat.eqb b a); reflexivity. }
      apply (flagJ (Com a)); auto; cbn [is_com crossable constant]; try tauto.
  Qed.

  (** Invalidation. *)
  Lemma G_invalidate : forall r st, U r -> G st -> G (invalidate r st).
  Proof.
    assert (B : forall e st, U e -> G st -> G (invalidate_base (addr e) st)).
    { intros e st He HG. unfold invalidate_base. apply G_upd; auto. destruct (HG e He) as [K _].
      split; [exact K|]. intros _. unfold good. cbn [vValid jValid cValid].
      repeat split; discriminate. }
    induction r as [a l IHl r IHr|a l IHl r IHr|a l IHl r IHr|a l IHl r IHr|a s r IHr
                   |a j tr r IHr|a j l|a j v|a p|a]; intros st He HG; cbn [invalidate].
    - apply IHl; [subU sub_cross_l He|]. apply IHr; [subU sub_cross_r He|].
      apply (B (Cross a l r)); auto.
    - apply IHl; [subU sub_dot_l He|]. apply IHr; [subU sub_dot_r He|].
      apply (B (Dot a l r)); auto.
    - apply IHl; [subU sub_diff_l He|]. apply IHr; [subU sub_diff_r He|].
      apply (B (Diff a l r)); auto.
    - apply IHl; [subU sub_sum_l He|]. apply IHr; [subU sub_sum_r He|].
      apply (B (Sum a l r)); auto.
    - apply IHr; [subU sub_smul He|]. apply (B (SMul a s r)); auto.
    - apply IHr; [subU sub_rot He|]. apply (B (Rot a j tr r)); auto.
    - apply (B (Pij a j l)); auto.
    - apply (B (Vij a j v)); auto.
    - apply (B (Pt a p)); auto.
    - apply (B (Com a)); auto.
  Qed.
End World.
