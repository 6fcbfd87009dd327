(** Counterexamples and cases for symbolic expressions. *)
From Coq Require Import Reals List Bool Arith Lra Lia.
From Verif Require Import Geo GeoLemmas SymModel SymSpec SymProofs SymMain SymCases.
Import ListNotations.
Local Open Scope R_scope.

(** A robot spinning around the vertical axis, at a distance of the origin. *)
Definition Rz (t : R) : m3 :=
  M3 (V3 (cos t) (- sin t) 0) (V3 (sin t) (cos t) 0) (V3 0 0 1).
Definition spin (p : v3) (t : R) : robot :=
  Robot (fun _ => Rz t) (fun _ => p) (fun _ => v0) (fun _ => V3 0 0 1) v0 v0.
Definition ex : v3 := V3 1 0 0.

Lemma Rz0 : Rz 0 = m1.
Proof. unfold Rz, m1. rewrite cos_0, sin_0, Ropp_0. reflexivity. Qed.

Lemma spin_motion : forall p, motion (spin p).
Proof.
  intros p. unfold motion. cbn [spin jR jp jv jw com comJ]. rewrite Rz0.
  split; [intros _; apply rotation_1|]. split; [|split].
  - intros _. rewrite mul1m.
    assert (C : deriv cos 0 0)
      by (eapply deriv_eq; [|apply derivable_pt_lim_cos]; rewrite sin_0; ring).
    assert (S : deriv sin 0 1)
      by (eapply deriv_eq; [|apply derivable_pt_lim_sin]; apply cos_0).
    repeat split; cbn [cross_matrix ra rb rc vx vy vz Rz]; try apply deriv_const; auto.
    + apply deriv_opp. exact S.
    + eapply deriv_eq; [|apply deriv_const]. ring.
    + eapply deriv_eq; [|apply deriv_const]. ring.
  - intros _. rewrite mulv_0. apply vderiv_const.
  - apply vderiv_const.
Qed.

Lemma ex_nonzero : is_zero ex = false.
Proof.
  destruct (is_zero ex) eqn:E; auto. apply is_zero_spec in E. inversion E. lra.
Qed.

(** Evaluation step by step: the content of the store at addresses 0, 1, 2 is known
    before each operation, and computed for the store after it. *)
Lemma cv_eq q e st : compute_value q e st = if vValid (st (addr e)) then st else
  set_vValid (addr e)
    match e with
    | Cross a l r => let st1 := compute_value q r (compute_cross_with (compute_value q l) (addr l) st) in
        put_val a (mulv (crs (st1 (addr l))) (val (st1 (addr r)))) st1
    | Dot a l r => let st1 := compute_value q r (compute_value q l st) in
        put_val a (V3 (vdot (val (st1 (addr l))) (val (st1 (addr r)))) 0 0) st1
    | Diff a l r => let st1 := compute_value q r (compute_value q l st) in
        put_val a (vsub (val (st1 (addr l))) (val (st1 (addr r)))) st1
    | Sum a l r => let st1 := compute_value q r (compute_value q l st) in
        put_val a (vadd (val (st1 (addr l))) (val (st1 (addr r)))) st1
    | SMul a s r => let st1 := compute_value q r st in put_val a (vscale s (val (st1 (addr r)))) st1
    | Rot a j tr r => let st1 := compute_value q r st in
        put_val a (mulv (if tr then mtr (jR q j) else jR q j) (val (st1 (addr r)))) st1
    | Pij a (Some j) l => put_val a (vadd (mulv (jR q j) l) (jp q j)) st
    | Pij a None l => st
    | Vij a (Some j) v => put_val a (mulv (jR q j) v) st
    | Vij a None v => st
    | Pt a p => st
    | Com a => put_com a (com q) st
    end.
Proof. destruct e; reflexivity. Qed.
Lemma cj_eq q e st : compute_jacobian q e st = if jValid (st (addr e)) then st else
  set_jValid (addr e)
    match e with
    | Cross a l r => let st1 := compute_jacobian q r (compute_jacobian q l (compute_cross q r (compute_cross q l st))) in
        put_jac a (vsub (mulv (crs (st1 (addr l))) (jac (st1 (addr r)))) (mulv (crs (st1 (addr r))) (jac (st1 (addr l))))) st1
    | Dot a l r => let st1 := compute_jacobian q r (compute_jacobian q l (compute_value q r (compute_value q l st))) in
        put_jac a (V3 (vdot (val (st1 (addr l))) (jac (st1 (addr r))) + vdot (val (st1 (addr r))) (jac (st1 (addr l)))) 0 0) st1
    | Diff a l r => let st1 := compute_jacobian q r (compute_jacobian q l st) in
        put_jac a (vsub (jac (st1 (addr l))) (jac (st1 (addr r)))) st1
    | Sum a l r => let st1 := compute_jacobian q r (compute_jacobian q l st) in
        put_jac a (vadd (jac (st1 (addr l))) (jac (st1 (addr r)))) st1
    | SMul a s r => let st1 := compute_jacobian q r st in put_jac a (vscale s (jac (st1 (addr r)))) st1
    | Rot a j tr r => let st1 := compute_cross q r (compute_jacobian q r st) in
        put_jac a (mulv (if tr then mtr (jR q j) else jR q j)
                        (vadd (mulv (mul (crs (st1 (addr r))) (jR q j)) (jw q j)) (jac (st1 (addr r))))) st1
    | Pij a (Some j) l =>
        if is_zero l then put_jac a (mulv (jR q j) (jv q j)) st
        else let st1 := put_crs a (cross_matrix (mulv (jR q j) l)) st in
             put_jac a (vsub (mulv (jR q j) (jv q j)) (mulv (mul (crs (st1 a)) (jR q j)) (jw q j))) st1
    | Pij a None l => st
    | Vij a (Some j) v => let st1 := put_crs a (cross_matrix (mulv (jR q j) v)) st in
        put_jac a (mulv (mul (mopp (crs (st1 a))) (jR q j)) (jw q j)) st1
    | Vij a None v => st
    | Pt a p => st
    | Com a => put_jac a (comJ q) (put_com a (com q) st)
    end.
Proof. destruct e; reflexivity. Qed.
Lemma cross_eq q e st : compute_cross q e st = if cValid (st (addr e)) then st
  else set_cValid (addr e) (put_crs (addr e) (cross_matrix (mem (compute_value q e st (addr e)))) (compute_value q e st)).
Proof. reflexivity. Qed.
Lemma crossw_eq q e a st : compute_cross_with (compute_value q e) a st = if cValid (st a) then st
  else set_cValid a (put_crs a (cross_matrix (mem (compute_value q e st a))) (compute_value q e st)).
Proof. reflexivity. Qed.
Lemma upd_at st a c b : upd st a c b = if Nat.eqb b a then c else st b.
Proof. reflexivity. Qed.

Ltac known st N :=
  repeat match goal with H : st ?k = Cell _ _ _ _ _ _ _ |- _ => rewrite H in N end;
  cbn [mem val jac crs vValid jValid cValid] in N.
Ltac gen_upd :=
  match goal with
  | |- context [upd ?st ?a ?c] => is_var st;
      let s := fresh "sto" in
      let N0 := fresh in let N1 := fresh in let N2 := fresh in
      assert (N0 := upd_at st a c 0%nat); assert (N1 := upd_at st a c 1%nat); assert (N2 := upd_at st a c 2%nat);
      revert N0 N1 N2; generalize (upd st a c); intros s N0 N1 N2;
      cbn [Nat.eqb] in N0, N1, N2; cbv iota in N0, N1, N2;
      known st N0; known st N1; known st N2
  end.
Ltac flags st :=
  cbn [addr]; repeat match goal with H : st ?k = Cell _ _ _ _ _ _ _ |- _ => rewrite H end;
  cbn [mem val jac crs vValid jValid cValid]; cbv iota beta zeta; cbn [addr].
Ltac look :=
  repeat match goal with H : ?s _ = Cell _ _ _ _ _ _ _ |- context [?s _] => rewrite H end;
  cbn [mem val jac crs vValid jValid cValid].
Ltac one :=
  first
  [ gen_upd
  | progress cbv beta zeta delta [put_val put_com put_jac put_crs set_vValid set_jValid set_cValid invalidate_base]
  | match goal with |- context [compute_value ?q ?e ?st] => is_var st; rewrite (cv_eq q e st); flags st end
  | match goal with |- context [compute_jacobian ?q ?e ?st] => is_var st; rewrite (cj_eq q e st); flags st; rewrite ?ex_nonzero; cbv iota zeta end
  | match goal with |- context [compute_cross ?q ?e ?st] => is_var st; rewrite (cross_eq q e st); flags st end
  | match goal with |- context [compute_cross_with (compute_value ?q ?e) ?a ?st] => is_var st; rewrite (crossw_eq q e a st); flags st end ].
Ltac evalg g0 :=
  let g := fresh "g" in let G0 := fresh in let G1 := fresh in let G2 := fresh in
  assert (G0 : g0 0%nat = g0 0%nat) by reflexivity; assert (G1 : g0 1%nat = g0 1%nat) by reflexivity; assert (G2 : g0 2%nat = g0 2%nat) by reflexivity;
  cbv beta in G0, G1, G2;
  match type of G0 with ?c = _ => change (g0 0%nat = c) in G0 end;
  match type of G1 with ?c = _ => change (g0 1%nat = c) in G1 end;
  match type of G2 with ?c = _ => change (g0 2%nat = c) in G2 end;
  revert G0 G1 G2; generalize g0; intros g G0 G1 G2;
  cbn [run fold_left step fst snd app constructed construct_all construct invalidate addr];
  cbv beta zeta iota delta [construct addr];
  repeat one; look; repeat match goal with H : _ = Cell _ _ _ _ _ _ _ |- _ => clear H end; repeat match goal with x : store |- _ => clear x end; cbn [spin jR jp jv jw com comJ].
Ltac evalst :=
  match goal with
  | |- context [constructed ?r ?g0] => evalg g0
  end.

(** Product by a rotation: the Jacobian has the wrong sign. *)
Definition rot_ex := Rot 1 0 false (Pt 0 ex).

Lemma rotation_refuted : exists Q e ops q0 g,
  consistent [e] /\ safe [e] /\ motion Q /\ history [e] (Q 0) e ops /\
  ~ vderiv (fun t => meaning (Q t) e) 0
      (jac (snd (run (ops ++ [Jacobian e]) (q0, constructed [e] g)) (addr e))).
Proof.
  exists (spin v0), rot_ex, [Move (spin v0 0); Invalidate rot_ex], (spin v0 0),
    (fun _ => Cell v0 v0 v0 m0 false false false).
  assert (N : forall e, among [rot_ex] e -> e = rot_ex \/ e = Pt 0 ex).
  { intros e (r & [<-|[]] & S). inversion S; subst; auto. inversion H0; subst; auto. }
  split; [|split; [|split; [|split]]].
  - intros e f He Hf E. apply N in He. apply N in Hf.
    destruct He as [-> | ->], Hf as [-> | ->]; cbn in E; congruence.
  - intros e He. apply N in He. destruct He as [-> | ->]; cbn; auto.
  - apply spin_motion.
  - exists [], [], []. split; [reflexivity|]. split; [|constructor].
    constructor; [exact I|]. constructor; [|constructor]. exists rot_ex.
    split; [left; reflexivity|apply sub_refl].
  - intros H. unfold rot_ex in H. revert H. evalst. rewrite Rz0. intros H.
    assert (D : vderiv (fun t => meaning (spin v0 t) rot_ex) 0 (V3 0 1 0)).
    { assert (C : deriv cos 0 0)
        by (eapply deriv_eq; [|apply derivable_pt_lim_cos]; rewrite sin_0; ring).
      assert (S : deriv sin 0 1)
        by (eapply deriv_eq; [|apply derivable_pt_lim_sin]; apply cos_0).
      repeat split.
      - eapply deriv_ext; [|exact C]. intros s; cbn [meaning rot_ex spin jR]; unfold Rz, ex; gcbn; ring.
      - eapply deriv_ext; [|exact S]. intros s; cbn [meaning rot_ex spin jR]; unfold Rz, ex; gcbn; ring.
      - eapply deriv_ext; [|apply (deriv_const 0)]. intros s; cbn [meaning rot_ex spin jR]; unfold Rz, ex; gcbn; ring. }
    assert (E := vderiv_unique _ _ _ _ H D).
    apply (f_equal vy) in E. revert E. gcbn. unfold ex. gcbn. lra.
Qed.

(** Vector product with a point attached to a joint. *)
Definition pt_ex := Pij 0 (Some 0%nat) ex.
Definition cross_ex := Cross 2 pt_ex (Vij 1 (Some 0%nat) ex).

Lemma cross_ex_among : forall e, among [cross_ex] e ->
  e = cross_ex \/ e = pt_ex \/ e = Vij 1 (Some 0%nat) ex.
Proof.
  intros e (r & [<-|[]] & S). inversion S; subst; auto; inversion H0; subst; auto.
Qed.

Lemma cross_ex_consistent : consistent [cross_ex].
Proof.
  intros e f He Hf E. apply cross_ex_among in He. apply cross_ex_among in Hf.
  destruct He as [-> |[-> | ->]], Hf as [-> |[-> | ->]]; cbn in E; congruence.
Qed.

Lemma cross_ex_history : forall q, history [cross_ex] q cross_ex [Move q; Invalidate cross_ex].
Proof.
  intros q. exists [], [], []. split; [reflexivity|]. split; [|constructor].
  constructor; [exact I|]. constructor; [|constructor]. exists cross_ex.
  split; [left; reflexivity|apply sub_refl].
Qed.

Lemma point_jacobian_refuted : exists Q e ops q0 g,
  consistent [e] /\ transposed [e] /\ motion Q /\ history [e] (Q 0) e ops /\
  ~ vderiv (fun t => meaning (Q t) e) 0
      (jac (snd (run (ops ++ [Jacobian e]) (q0, constructed [e] g)) (addr e))).
Proof.
  exists (spin ex), cross_ex, [Move (spin ex 0); Invalidate cross_ex], (spin ex 0),
    (fun _ => Cell v0 v0 v0 m0 false false false).
  split; [exact cross_ex_consistent|]. split; [|split; [apply spin_motion|split]].
  - intros e He. apply cross_ex_among in He. destruct He as [-> |[-> | ->]]; exact I.
  - apply cross_ex_history.
  - intros H. unfold cross_ex, pt_ex in H. revert H. evalst.
    intros H.
    assert (D := dj_deriv (spin ex) cross_ex (spin_motion ex)).
    assert (E := vderiv_unique _ _ _ _ H (D ltac:(intros f F; destruct (cross_ex_among f
      ltac:(exists cross_ex; split; [left; reflexivity|exact F])) as [-> |[-> | ->]]; exact I))).
    revert E. unfold cross_ex, pt_ex. cbn [dj meaning]. rewrite ex_nonzero.
    cbn [spin jR jp jv jw]. rewrite Rz0. intros E.
    apply (f_equal vz) in E. revert E. unfold ex. gcbn. lra.
Qed.

(** Evaluating the Jacobian changes the value computed afterwards. *)
Definition shifted : robot :=
  Robot (fun _ => m1) (fun _ => V3 0 1 0) (fun _ => v0) (fun _ => v0) v0 v0.

Lemma point_after_jacobian :
  val (snd (run ([Move shifted; Invalidate cross_ex; Jacobian cross_ex] ++ [Value cross_ex])
         (shifted, constructed [cross_ex] (fun _ => Cell v0 v0 v0 m0 false false false)))
       (addr cross_ex)) = mulv (cross_matrix (mulv m1 ex)) (mulv m1 ex).
Proof.
  set (s0 := (shifted, constructed [cross_ex] (fun _ => Cell v0 v0 v0 m0 false false false))).
  change (run ([Move shifted; Invalidate cross_ex; Jacobian cross_ex] ++ [Value cross_ex]) s0)
    with (step (run [Move shifted; Invalidate cross_ex; Jacobian cross_ex] s0) (Value cross_ex)).
  assert (V2 : vValid (snd (run [Move shifted; Invalidate cross_ex; Jacobian cross_ex] s0) 2%nat)
               = false) by (unfold s0, cross_ex, pt_ex; evalst; reflexivity).
  assert (C0 : cValid (snd (run [Move shifted; Invalidate cross_ex; Jacobian cross_ex] s0) 0%nat)
               = true) by (unfold s0, cross_ex, pt_ex; evalst; reflexivity).
  assert (K0 : crs (snd (run [Move shifted; Invalidate cross_ex; Jacobian cross_ex] s0) 0%nat)
               = cross_matrix (mulv m1 ex)) by (unfold s0, cross_ex, pt_ex; evalst; reflexivity).
  assert (V1 : vValid (snd (run [Move shifted; Invalidate cross_ex; Jacobian cross_ex] s0) 1%nat)
               = true) by (unfold s0, cross_ex, pt_ex; evalst; reflexivity).
  assert (W1 : val (snd (run [Move shifted; Invalidate cross_ex; Jacobian cross_ex] s0) 1%nat)
               = mulv m1 ex) by (unfold s0, cross_ex, pt_ex; evalst; reflexivity).
  revert V2 C0 K0 V1 W1.
  generalize (run [Move shifted; Invalidate cross_ex; Jacobian cross_ex] s0).
  intros [q st]. cbn [snd]. intros V2 C0 K0 V1 W1.
  cbn [step snd fst]. unfold cross_ex. cbn [compute_value addr]. rewrite V2.
  unfold compute_cross_with, pt_ex. cbn [addr]. rewrite C0, V1. unfold set_vValid, put_val.
  rewrite !upd_same. cbn [val]. rewrite K0, W1. reflexivity.
Qed.

Lemma point_value_refuted : exists q e ops ops' q0 g,
  consistent [e] /\ history [e] q e ops /\ history [e] q e ops' /\
  val (snd (run (ops ++ [Value e]) (q0, constructed [e] g)) (addr e)) = meaning q e /\
  val (snd (run (ops' ++ [Value e]) (q0, constructed [e] g)) (addr e)) <> meaning q e.
Proof.
  exists shifted, cross_ex, [Move shifted; Invalidate cross_ex],
    [Move shifted; Invalidate cross_ex; Jacobian cross_ex], shifted,
    (fun _ => Cell v0 v0 v0 m0 false false false).
  split; [exact cross_ex_consistent|]. split; [apply cross_ex_history|]. split; [|split].
  - exists [], [], [Jacobian cross_ex]. split; [reflexivity|].
    assert (A : among [cross_ex] cross_ex)
      by (exists cross_ex; split; [left; reflexivity|apply sub_refl]).
    split; [constructor; [exact I|constructor; [exact A|constructor; [exact A|constructor]]]|].
    constructor; [exact I|constructor].
  - unfold cross_ex, pt_ex. evalst. cbn [meaning shifted jR jp jw jv]. rewrite cross_matrixE. reflexivity.
  - rewrite point_after_jacobian. unfold cross_ex, pt_ex. cbn [meaning shifted jR jp jw jv].
    intros E. apply (f_equal vz) in E. revert E. unfold ex. gcbn. lra.
Qed.

(** Vector product with the center of mass: the member [value_] is never set. *)
Definition com_ex := Cross 2 (Com 0) (Pt 1 ex).

Lemma com_ex_among : forall e, among [com_ex] e -> e = com_ex \/ e = Com 0 \/ e = Pt 1 ex.
Proof.
  intros e (r & [<-|[]] & S). inversion S; subst; auto; inversion H0; subst; auto.
Qed.

Lemma com_value_refuted : forall q, exists e ops q0 g g',
  consistent [e] /\ history [e] q e ops /\
  val (snd (run (ops ++ [Value e]) (q0, constructed [e] g)) (addr e)) <>
  val (snd (run (ops ++ [Value e]) (q0, constructed [e] g')) (addr e)).
Proof.
  intros q. exists com_ex, [Move q; Invalidate com_ex], q,
    (fun _ => Cell v0 v0 v0 m0 false false false),
    (fun _ => Cell (V3 0 1 0) v0 v0 m0 false false false).
  split; [|split].
  - intros e f He Hf E. apply com_ex_among in He. apply com_ex_among in Hf.
    destruct He as [-> |[-> | ->]], Hf as [-> |[-> | ->]]; cbn in E; congruence.
  - exists [], [], []. split; [reflexivity|]. split; [|constructor].
    constructor; [exact I|]. constructor; [|constructor]. exists com_ex.
    split; [left; reflexivity|apply sub_refl].
  - unfold com_ex. match goal with |- ?a <> ?b =>
      assert (A : a = mulv (cross_matrix v0) ex) by (evalst; reflexivity);
      assert (B : b = mulv (cross_matrix (V3 0 1 0)) ex) by (evalst; reflexivity); rewrite A, B end.
    intros E. apply (f_equal vz) in E. revert E. unfold ex. gcbn. lra.
Qed.

(** Without invalidation: right after construction, and after a motion when only
    another expression sharing the same point was invalidated. *)
Definition sum_ex := Sum 1 (Vij 0 (Some 0%nat) ex) (Vij 0 (Some 0%nat) ex).
Definition sum_ex' := SMul 2 1 (Vij 0 (Some 0%nat) ex).

Lemma sum_ex_among : forall e, among [sum_ex; sum_ex'] e ->
  e = sum_ex \/ e = sum_ex' \/ e = Vij 0 (Some 0%nat) ex.
Proof.
  intros e (r & [<-|[<-|[]]] & S); inversion S; subst; auto; inversion H0; subst; auto.
Qed.

Lemma sum_ex_ok : consistent [sum_ex; sum_ex'] /\ safe [sum_ex; sum_ex'].
Proof.
  split.
  - intros e f He Hf E. apply sum_ex_among in He. apply sum_ex_among in Hf.
    destruct He as [-> |[-> | ->]], Hf as [-> |[-> | ->]]; cbn in E; congruence.
  - intros e He. apply sum_ex_among in He. destruct He as [-> |[-> | ->]]; exact I.
Qed.

Definition idq : robot := Robot (fun _ => m1) (fun _ => v0) (fun _ => v0) (fun _ => v0) v0 v0.
Definition quarter : robot :=
  Robot (fun _ => M3 (V3 0 (-1) 0) (V3 1 0 0) (V3 0 0 1)) (fun _ => v0) (fun _ => v0) (fun _ => v0) v0 v0.

Lemma uninitialised_refuted : exists roots e q g,
  consistent roots /\ safe roots /\ among roots e /\
  val (snd (run [Move q; Value e] (q, constructed roots g)) (addr e)) <> meaning q e.
Proof.
  exists [sum_ex; sum_ex'], sum_ex, idq, (fun _ => Cell v0 v0 v0 m0 true true true).
  split; [apply sum_ex_ok|]. split; [apply sum_ex_ok|]. split.
  - exists sum_ex. split; [left; reflexivity|apply sub_refl].
  - unfold sum_ex, sum_ex'. evalst. cbn [meaning idq jR]. intros E.
    apply (f_equal vx) in E. revert E. unfold ex. gcbn. lra.
Qed.

Lemma stale_refuted : exists roots e f q q' g,
  consistent roots /\ safe roots /\ among roots e /\ among roots f /\
  (exists s, sub s e /\ sub s f) /\
  let ops := [Move q; Invalidate e; Invalidate f; Value e; Value f; Move q'; Invalidate f] in
  val (snd (run (ops ++ [Value f]) (q, constructed roots g)) (addr f)) = meaning q' f /\
  val (snd (run (ops ++ [Value e]) (q, constructed roots g)) (addr e)) <> meaning q' e.
Proof.
  exists [sum_ex; sum_ex'], sum_ex, sum_ex', idq, quarter,
    (fun _ => Cell v0 v0 v0 m0 false false false).
  split; [apply sum_ex_ok|]. split; [apply sum_ex_ok|].
  split; [exists sum_ex; split; [left; reflexivity|apply sub_refl]|].
  split; [exists sum_ex'; split; [right; left; reflexivity|apply sub_refl]|].
  split; [exists (Vij 0 (Some 0%nat) ex); split;
    [apply sub_sum_l, sub_refl|apply sub_smul, sub_refl]|].
  cbv zeta. unfold sum_ex, sum_ex'. split.
  - evalst. cbn [meaning quarter jR]. reflexivity.
  - evalst. cbn [meaning quarter idq jR]. intros E.
    apply (f_equal vx) in E. revert E. unfold ex. gcbn. lra.
Qed.

(** A case: [ComBetweenFeet] with a moving robot, after other evaluations. *)
Lemma case_value : forall g,
  consistent (cbf_roots 0 1 2 ex ex) /\ safe (cbf_roots 0 1 2 ex ex) /\
  transposed (cbf_roots 0 1 2 ex ex) /\
  history (cbf_roots 0 1 2 ex ex) quarter (cbf_expr 0 1 2 ex ex)
    [Move idq; Invalidate (cbf_xmxlDotu 0 1 ex ex); Jacobian (cbf_xmxlDotu 0 1 ex ex);
     Move quarter; Value (cbf_xmxlDotu 0 1 ex ex); Invalidate (cbf_expr 0 1 2 ex ex);
     Jacobian (cbf_expr 0 1 2 ex ex)] /\
  val (snd (run ([Move idq; Invalidate (cbf_xmxlDotu 0 1 ex ex); Jacobian (cbf_xmxlDotu 0 1 ex ex);
     Move quarter; Value (cbf_xmxlDotu 0 1 ex ex); Invalidate (cbf_expr 0 1 2 ex ex);
     Jacobian (cbf_expr 0 1 2 ex ex)] ++ [Value (cbf_left 0 ex)])
     (idq, constructed (cbf_roots 0 1 2 ex ex) g)) (addr (cbf_left 0 ex))) = V3 0 1 0.
Proof.
  intros g.
  assert (H : history (cbf_roots 0 1 2 ex ex) quarter (cbf_expr 0 1 2 ex ex)
    [Move idq; Invalidate (cbf_xmxlDotu 0 1 ex ex); Jacobian (cbf_xmxlDotu 0 1 ex ex);
     Move quarter; Value (cbf_xmxlDotu 0 1 ex ex); Invalidate (cbf_expr 0 1 2 ex ex);
     Jacobian (cbf_expr 0 1 2 ex ex)]).
  { exists [Move idq; Invalidate (cbf_xmxlDotu 0 1 ex ex); Jacobian (cbf_xmxlDotu 0 1 ex ex)],
      [Value (cbf_xmxlDotu 0 1 ex ex)], [Jacobian (cbf_expr 0 1 2 ex ex)].
    split; [reflexivity|].
    assert (A : among (cbf_roots 0 1 2 ex ex) (cbf_xmxlDotu 0 1 ex ex)).
    { exists (cbf_xmxlDotu 0 1 ex ex). split; [right; right; left; reflexivity|apply sub_refl]. }
    assert (B : among (cbf_roots 0 1 2 ex ex) (cbf_expr 0 1 2 ex ex)).
    { exists (cbf_expr 0 1 2 ex ex). split; [right; left; reflexivity|apply sub_refl]. }
    split; repeat (apply Forall_cons; [first [exact I|exact A|exact B]|]); constructor. }
  split; [apply cbf_consistent|]. split; [apply cbf_safe|]. split; [apply cbf_transposed|].
  split; [exact H|].
  rewrite (fresh_value _ (cbf_consistent 0 1 2 ex ex) (cbf_safe 0 1 2 ex ex) quarter
             (cbf_expr 0 1 2 ex ex) (cbf_left 0 ex) _ idq g H).
  - cbn [cbf_left meaning quarter jR jp]. unfold ex. apply v3_eq; gcbn; ring.
  - unfold cbf_expr, cbf_ecrossu. apply sub_rot, sub_cross_r, sub_diff_r, sub_refl.
Qed.
