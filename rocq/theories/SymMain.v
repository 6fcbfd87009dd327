(** Main lemmas on symbolic expressions. *)
From Coq Require Import Reals List Bool Arith Lra.
From Verif Require Import Geo GeoLemmas SymModel SymSpec SymProofs.
Import ListNotations.
Local Open Scope R_scope.

Lemma sub_trans : forall e f, sub e f -> forall g, sub f g -> sub e g.
Proof.
  intros e f H g K. induction K; [exact H|..]; econstructor; eassumption.
Qed.

Lemma among_sub : forall roots e f, sub e f -> among roots f -> among roots e.
Proof. intros roots e f H (r & R & K). exists r. split; [exact R|]. eapply sub_trans; eassumption. Qed.

Definition none (_ : expr) : Prop := False.

(** Invalidation clears the flags of all objects of the expression. *)
Definition cleared (c : cell) : Prop := vValid c = false /\ jValid c = false /\ cValid c = false.

Lemma invalidate_keeps : forall r st a, cleared (st a) -> cleared (invalidate r st a).
Proof.
  assert (B : forall b st a, cleared (st a) -> cleared (invalidate_base b st a)).
  { intros b st a H. unfold invalidate_base. destruct (Nat.eq_dec a b) as [->|N].
    - rewrite upd_same. repeat split.
    - rewrite upd_other by exact N. exact H. }
  induction r; intros st c H; cbn [invalidate]; auto.
Qed.

Lemma invalidate_base_clears : forall b st, cleared (invalidate_base b st b).
Proof. intros. unfold invalidate_base. rewrite upd_same. repeat split. Qed.

Lemma invalidate_clears : forall e r, sub e r -> forall st, cleared (invalidate r st (addr e)).
Proof.
  intros e r H. induction H; intros st; cbn [invalidate]; auto using invalidate_keeps.
  destruct e; cbn [invalidate addr]; auto using invalidate_keeps, invalidate_base_clears.
Qed.

Section Roots.
  Variable roots : list expr.
  Hypothesis Hcons : consistent roots.
  Hypothesis Hsafe : safe roots.

  Let U := among roots.

  Lemma G_move : forall q q' st, G U q none st -> G U q' none st.
  Proof. intros q q' st H e He. split; [apply H, He|intros []]. Qed.

  Lemma G_none : forall q (S : expr -> Prop) st, G U q S st -> G U q none st.
  Proof. intros q S st H e He. split; [apply H, He|intros []]. Qed.

  Lemma G_enter : forall q r st, U r -> G U q none st -> G U q (fun e => sub e r) (invalidate r st).
  Proof.
    intros q r st Hr H e He. split.
    - apply (G_invalidate U (among_sub roots) Hcons q none r st Hr H e He).
    - intros S. destruct (invalidate_clears e r S st) as (A & B & C).
      unfold good. rewrite A, B, C. repeat split; discriminate.
  Qed.

  Lemma G_step : forall S : expr -> Prop, (forall e f, sub e f -> S f -> S e) ->
    forall o q st, uses roots o -> still o -> G U q S st -> 
    fst (step (q, st) o) = q /\ G U q S (snd (step (q, st) o)).
  Proof.
    intros S HS o q st Ho Hq H. destruct o as [q'|e|e|e|e]; cbn [step fst snd uses] in *;
      [contradiction|..]; (split; [reflexivity|]).
    - apply G_invalidate; auto. exact (among_sub roots).
    - apply (all_okV U (among_sub roots) Hcons Hsafe q S HS e Ho st H).
    - apply (all_okJ U (among_sub roots) Hcons Hsafe q S HS e Ho st H).
    - apply (all_okC U (among_sub roots) Hcons Hsafe q S HS e Ho st H).
  Qed.

  Lemma none_sub : forall e f, sub e f -> none f -> none e.
  Proof. intros e f _ []. Qed.

  Lemma G_run0 : forall ops q st, Forall (uses roots) ops -> G U q none st ->
    G U (fst (run ops (q, st))) none (snd (run ops (q, st))).
  Proof.
    induction ops as [|o ops IH]; intros q st F H; [exact H|].
    inversion F as [|? ? Fo Fs]; subst. cbn [run fold_left].
    change (fold_left step ops (step (q, st) o)) with (run ops (step (q, st) o)).
    destruct o as [q'|e|e|e|e].
    - cbn [step snd]. apply IH; [exact Fs|]. apply (G_move q), H.
    - destruct (G_step none none_sub (Invalidate e) q st Fo I H) as [X Y].
      cbn [step fst snd] in *. apply IH; auto.
    - destruct (G_step none none_sub (Value e) q st Fo I H) as [X Y].
      cbn [step fst snd] in *. apply IH; auto.
    - destruct (G_step none none_sub (Jacobian e) q st Fo I H) as [X Y].
      cbn [step fst snd] in *. apply IH; auto.
    - destruct (G_step none none_sub (CrossValue e) q st Fo I H) as [X Y].
      cbn [step fst snd] in *. apply IH; auto.
  Qed.

  Lemma G_run_still : forall S : expr -> Prop, (forall e f, sub e f -> S f -> S e) ->
    forall ops q st, Forall (uses roots) ops -> Forall still ops -> G U q S st ->
    fst (run ops (q, st)) = q /\ G U q S (snd (run ops (q, st))).
  Proof.
    intros S HS. induction ops as [|o ops IH]; intros q st F K H; [split; [reflexivity|exact H]|].
    inversion F as [|? ? Fo Fs]; inversion K as [|? ? Ko Ks]; subst.
    destruct (G_step S HS o q st Fo Ko H) as [X Y].
    change (run (o :: ops) (q, st)) with (run ops (step (q, st) o)).
    destruct (step (q, st) o) as [q1 s1] eqn:E. cbn [fst snd] in X, Y. rewrite X in *.
    apply IH; auto.
  Qed.

  (** Construction. *)
  Lemma constp_construct : forall e g, constp e (construct e g (addr e)).
  Proof.
    intros e g. unfold construct. rewrite upd_same. unfold constp.
    destruct e as [| | | | | |a j p|a j p| |]; cbn [constant]; try exact I;
      try (destruct j; cbn [mem val jac]; auto); cbn [mem val jac]; auto.
  Qed.

  Lemma constp_keep : forall e f g, U e -> U f -> constp e (g (addr e)) ->
    constp e (construct f g (addr e)).
  Proof.
    intros e f g He Hf H. destruct (Nat.eq_dec (addr e) (addr f)) as [E|N].
    - rewrite <- (Hcons _ _ He Hf E). apply constp_construct.
    - unfold construct. rewrite upd_other by exact N. exact H.
  Qed.

  Lemma constp_keep_all : forall f e g, U e -> U f -> constp e (g (addr e)) ->
    constp e (construct_all f g (addr e)).
  Proof.
    induction f as [a l IHl r IHr|a l IHl r IHr|a l IHl r IHr|a l IHl r IHr|a s r IHr
                   |a j tr r IHr|a j l|a j v|a p|a]; intros e g He Hf H; cbn [construct_all];
      apply constp_keep; auto;
      repeat match goal with
        | IH : forall e g, _ -> U ?x -> _ -> _ |- constp _ (construct_all ?x _ _) =>
            apply IH; [exact He|eapply among_sub; [|exact Hf]; constructor; apply sub_refl|]
        end; auto.
  Qed.

  Lemma constp_all : forall r e g, sub e r -> U r -> constp e (construct_all r g (addr e)).
  Proof.
    intros r e g H. revert g. induction H; intros g Hr.
    - destruct e; cbn [construct_all]; apply (constp_construct _ _).
    - assert (U e) by (eapply among_sub; [|exact Hr]; apply sub_cross_l; exact H).
      assert (U l) by (eapply among_sub; [|exact Hr]; apply sub_cross_l; apply sub_refl).
      assert (U r) by (eapply among_sub; [|exact Hr]; apply sub_cross_r; apply sub_refl).
      cbn [construct_all]. apply constp_keep; auto. apply constp_keep_all; auto.
    - assert (U e) by (eapply among_sub; [|exact Hr]; apply sub_cross_r; exact H).
      assert (U r) by (eapply among_sub; [|exact Hr]; apply sub_cross_r; apply sub_refl).
      cbn [construct_all]. apply constp_keep; auto.
    - assert (U e) by (eapply among_sub; [|exact Hr]; apply sub_dot_l; exact H).
      assert (U l) by (eapply among_sub; [|exact Hr]; apply sub_dot_l; apply sub_refl).
      assert (U r) by (eapply among_sub; [|exact Hr]; apply sub_dot_r; apply sub_refl).
      cbn [construct_all]. apply constp_keep; auto. apply constp_keep_all; auto.
    - assert (U e) by (eapply among_sub; [|exact Hr]; apply sub_dot_r; exact H).
      assert (U r) by (eapply among_sub; [|exact Hr]; apply sub_dot_r; apply sub_refl).
      cbn [construct_all]. apply constp_keep; auto.
    - assert (U e) by (eapply among_sub; [|exact Hr]; apply sub_diff_l; exact H).
      assert (U l) by (eapply among_sub; [|exact Hr]; apply sub_diff_l; apply sub_refl).
      assert (U r) by (eapply among_sub; [|exact Hr]; apply sub_diff_r; apply sub_refl).
      cbn [construct_all]. apply constp_keep; auto. apply constp_keep_all; auto.
    - assert (U e) by (eapply among_sub; [|exact Hr]; apply sub_diff_r; exact H).
      assert (U r) by (eapply among_sub; [|exact Hr]; apply sub_diff_r; apply sub_refl).
      cbn [construct_all]. apply constp_keep; auto.
    - assert (U e) by (eapply among_sub; [|exact Hr]; apply sub_sum_l; exact H).
      assert (U l) by (eapply among_sub; [|exact Hr]; apply sub_sum_l; apply sub_refl).
      assert (U r) by (eapply among_sub; [|exact Hr]; apply sub_sum_r; apply sub_refl).
      cbn [construct_all]. apply constp_keep; auto. apply constp_keep_all; auto.
    - assert (U e) by (eapply among_sub; [|exact Hr]; apply sub_sum_r; exact H).
      assert (U r) by (eapply among_sub; [|exact Hr]; apply sub_sum_r; apply sub_refl).
      cbn [construct_all]. apply constp_keep; auto.
    - assert (U e) by (eapply among_sub; [|exact Hr]; apply sub_smul; exact H).
      assert (U r) by (eapply among_sub; [|exact Hr]; apply sub_smul; apply sub_refl).
      cbn [construct_all]. apply constp_keep; auto.
    - assert (U e) by (eapply among_sub; [|exact Hr]; apply sub_rot; exact H).
      assert (U r) by (eapply among_sub; [|exact Hr]; apply sub_rot; apply sub_refl).
      cbn [construct_all]. apply constp_keep; auto.
  Qed.

  Lemma G_constructed : forall q g, G U q none (constructed roots g).
  Proof.
    intros q g e He. split; [|intros []].
    assert (K : forall l g, (forall r, In r l -> In r roots) ->
      (exists r, In r l /\ sub e r) \/ constp e (g (addr e)) ->
      constp e (fold_left (fun st e => construct_all e st) l g (addr e))).
    { clear g. induction l as [|r l IH]; intros g Hl H; cbn [fold_left].
      - destruct H as [(r & [] & _)|H]; exact H.
      - apply IH; [intros; apply Hl; right; assumption|].
        assert (Hr : U r) by (exists r; split; [apply Hl; left; reflexivity|apply sub_refl]).
        destruct H as [(r' & [->|I] & S)|H].
        + right. apply constp_all; auto.
        + left. exists r'. auto.
        + right. apply constp_keep_all; auto. }
    apply K; [auto|]. left. exact He.
  Qed.

  (** A history leads to a state where everything in [r] is up to date. *)
  Lemma history_G : forall q r ops q0 g, history roots q r ops ->
    fst (run ops (q0, constructed roots g)) = q /\
    G U q (fun e => sub e r) (snd (run ops (q0, constructed roots g))).
  Proof.
    intros q r ops q0 g (b & m & a & -> & F & K).
    apply Forall_app in F. destruct F as [Fb F]. inversion F as [|? ? _ F1]; subst.
    apply Forall_app in F1. destruct F1 as [Fm F2]. inversion F2 as [|? ? Fr Fa]; subst.
    apply Forall_app in K. destruct K as [Km Ka].
    unfold run. rewrite fold_left_app. cbn [fold_left].
    change (fold_left step b (q0, constructed roots g)) with (run b (q0, constructed roots g)).
    assert (H0 := G_run0 b q0 _ Fb (G_constructed q0 g)).
    destruct (run b (q0, constructed roots g)) as [qb sb]. cbn [step fst snd] in *.
    apply (G_move _ q) in H0.
    rewrite fold_left_app. cbn [fold_left].
    destruct (G_run_still none none_sub m q sb Fm Km H0) as [E H1].
    change (fold_left step m (q, sb)) with (run m (q, sb)).
    destruct (run m (q, sb)) as [qm sm]. cbn [fst snd] in E, H1. subst qm.
    cbn [step fst snd]. 
    apply (G_run_still (fun e => sub e r)); auto.
    - intros e f S S'. eapply sub_trans; eassumption.
    - apply G_enter; [exact Fr|exact H1].
  Qed.

  Section Read.
    Variables (q : robot) (r e : expr) (ops : list op) (q0 : robot) (g : store).
    Hypothesis Hh : history roots q r ops.
    Hypothesis He : sub e r.

    Lemma r_among : among roots r.
    Proof.
      destruct Hh as (b & m & a & -> & F & _). apply Forall_app in F. destruct F as [_ F].
      inversion F as [|? ? _ F1]; subst. apply Forall_app in F1. destruct F1 as [_ F2].
      inversion F2; subst. assumption.
    Qed.

    Let e_among : among roots e := among_sub roots e r He r_among.

    Lemma run_snoc : forall o s, run (ops ++ [o]) s = step (run ops s) o.
    Proof. intros. unfold run. rewrite fold_left_app. reflexivity. Qed.

    Lemma subS : forall e f, sub e f -> sub f r -> sub e r.
    Proof. intros; eapply sub_trans; eassumption. Qed.

    Lemma fresh_value :
      val (snd (run (ops ++ [Value e]) (q0, constructed roots g)) (addr e)) = meaning q e.
    Proof.
      destruct (history_G q r ops q0 g Hh) as [E H]. rewrite run_snoc.
      cbn [step snd]. rewrite E.
      destruct (all_okV U (among_sub roots) Hcons Hsafe q _ subS e e_among _ H) as (A & _ & V).
      apply (readV U q (fun f => sub f r)); auto.
    Qed.

    Lemma fresh_jac :
      jac (snd (run (ops ++ [Jacobian e]) (q0, constructed roots g)) (addr e)) = dj q e.
    Proof.
      destruct (history_G q r ops q0 g Hh) as [E H]. rewrite run_snoc.
      cbn [step snd]. rewrite E.
      destruct (all_okJ U (among_sub roots) Hcons Hsafe q _ subS e e_among _ H) as (A & _ & V).
      apply (readJ U q (fun f => sub f r)); auto.
    Qed.

    Lemma fresh_cross : crossable e ->
      crs (snd (run (ops ++ [CrossValue e]) (q0, constructed roots g)) (addr e))
      = cross_matrix (meaning q e).
    Proof.
      intros X. destruct (history_G q r ops q0 g Hh) as [E H]. rewrite run_snoc.
      cbn [step snd]. rewrite E.
      destruct (all_okC U (among_sub roots) Hcons Hsafe q _ subS e e_among _ H) as (A & _ & V).
      apply (readC U q (fun f => sub f r)); auto.
    Qed.
  End Read.
End Roots.

(** The Jacobian without cache is the derivative. *)
Lemma dj_deriv : forall Q e, motion Q ->
  (forall f, sub f e -> match f with Rot _ _ tr _ => tr = true | _ => True end) ->
  vderiv (fun t => meaning (Q t) e) 0 (dj (Q 0) e).
Proof.
  intros Q e (HR & DR & DP & DC).
  induction e as [a l IHl r IHr|a l IHl r IHr|a l IHl r IHr|a l IHl r IHr|a s r IHr
                 |a j tr r IHr|a j l|a j v|a p|a]; intros T; cbn [meaning dj].
  - eapply vderiv_eq; [|apply vderiv_cross; [apply IHl|apply IHr]];
      try (intros f F; apply T; constructor; exact F).
    cbv beta; generalize (dj (Q 0) l), (dj (Q 0) r), (meaning (Q 0) l), (meaning (Q 0) r). geo.
  - assert (X : vderiv (fun t => meaning (Q t) l) 0 (dj (Q 0) l))
      by (apply IHl; intros f F; apply T; constructor; exact F).
    assert (Y : vderiv (fun t => meaning (Q t) r) 0 (dj (Q 0) r))
      by (apply IHr; intros f F; apply T; apply sub_dot_r; exact F).
    repeat split; cbn [vx vy vz]; try apply deriv_const.
    eapply deriv_eq; [|exact (vderiv_dot _ _ _ _ _ X Y)].
    cbv beta; generalize (dj (Q 0) l), (dj (Q 0) r), (meaning (Q 0) l), (meaning (Q 0) r). geo.
  - apply vderiv_sub; [apply IHl|apply IHr]; intros f F; apply T; constructor; exact F.
  - apply vderiv_add; [apply IHl|apply IHr]; intros f F; apply T; constructor; exact F.
  - apply vderiv_scale, IHr; intros f F; apply T; constructor; exact F.
  - assert (Y : vderiv (fun t => meaning (Q t) r) 0 (dj (Q 0) r))
      by (apply IHr; intros f F; apply T; constructor; exact F).
    assert (E := T _ (sub_refl _)). cbn in E. subst tr.
    eapply vderiv_eq; [|exact (vderiv_mulv _ _ _ _ _ (mderiv_tr _ _ _ (DR j)) Y)].
    rewrite mtr_mul, mtr_cross, mulvA, mopp_v, cross_matrixE, mulv_add, mulvA, cross_matrixE.
    f_equal.
    rewrite (rotation_cross (mtr (jR (Q 0) j))) by (apply rotation_mtr, HR).
    rewrite rotation_inv by apply HR. rewrite <- vcrossC. reflexivity.
  - destruct j as [j|]; [|apply vderiv_const].
    assert (X := vderiv_add _ _ _ _ _ (vderiv_mulv _ _ _ _ _ (DR j) (vderiv_const l 0)) (DP j)).
    eapply vderiv_eq; [|exact X]. cbv beta.
    rewrite mulv_0, vadd_0.
    rewrite mulvA, cross_matrixE, rotation_cross by apply HR.
    destruct (is_zero l) eqn:Z.
    + apply is_zero_spec in Z. subst l. rewrite mulv_0.
      generalize (mulv (jR (Q 0) j) (jv (Q 0) j)), (mulv (jR (Q 0) j) (jw (Q 0) j)). geo.
    + rewrite mulvA, cross_matrixE.
      generalize (mulv (jR (Q 0) j) (jv (Q 0) j)), (mulv (jR (Q 0) j) (jw (Q 0) j)),
        (mulv (jR (Q 0) j) l). geo.
  - destruct j as [j|]; [|apply vderiv_const].
    assert (X := vderiv_mulv _ _ _ _ _ (DR j) (vderiv_const v 0)).
    eapply vderiv_eq; [|exact X]. cbv beta.
    rewrite mulv_0, vadd_0.
    rewrite !mulvA, cross_matrixE, mopp_v, cross_matrixE, rotation_cross by apply HR.
    rewrite vcrossC. reflexivity.
  - apply vderiv_const.
  - exact DC.
Qed.
