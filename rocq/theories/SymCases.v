(** Functions built on symbolic expressions, counterexamples and cases. *)
From Coq Require Import Reals List Bool Arith Lra Lia.
From Verif Require Import Geo GeoLemmas SymModel SymSpec SymProofs SymMain.
Import ListNotations.
Local Open Scope R_scope.

(** ** Jacobians do not depend on the history and are derivatives. *)
Lemma jacobian_history : forall roots q r e ops q0 g ops' q0' g',
  consistent roots -> safe roots -> history roots q r ops -> history roots q r ops' -> sub e r ->
  jac (snd (run (ops ++ [Jacobian e]) (q0, constructed roots g)) (addr e)) =
  jac (snd (run (ops' ++ [Jacobian e]) (q0', constructed roots g')) (addr e)).
Proof.
  intros. rewrite (fresh_jac roots H H0 q r e ops q0 g H1 H3).
  rewrite (fresh_jac roots H H0 q r e ops' q0' g' H2 H3). reflexivity.
Qed.

Lemma jacobian_derivative : forall roots Q r e ops q0 g,
  consistent roots -> safe roots -> transposed roots -> history roots (Q 0) r ops -> sub e r ->
  motion Q ->
  vderiv (fun t => meaning (Q t) e) 0
    (jac (snd (run (ops ++ [Jacobian e]) (q0, constructed roots g)) (addr e))).
Proof.
  intros roots Q r e ops q0 g HC HS HT HH He HM.
  rewrite (fresh_jac roots HC HS (Q 0) r e ops q0 g HH He).
  apply dj_deriv; [exact HM|]. intros f F. apply HT.
  eapply among_sub; [exact F|]. eapply among_sub; [exact He|].
  eapply r_among; exact HH.
Qed.

Lemma pick_deriv : forall (bs : list bool) (fs : list (R -> R)) (ds : list R) i d,
  Forall2 (fun f d => deriv f 0 d) fs ds ->
  nth_error (map snd (filter (fun p => fst p) (combine bs ds))) i = Some d ->
  deriv (fun t => nth i (map snd (filter (fun p => fst p)
                                    (combine bs (map (fun f => f t) fs)))) 0) 0 d.
Proof.
  induction bs as [|b bs IH]; intros fs ds i d F H.
  - cbn in H. destruct i; discriminate.
  - destruct F as [|f x fs ds X F].
    + cbn in H. destruct i; discriminate.
    + destruct b.
      * destruct i as [|i].
        -- cbn in H. injection H as <-. exact X.
        -- exact (IH fs ds i d F H).
      * exact (IH fs ds i d F H).
Qed.

(** ** ComBetweenFeet *)
Section Cbf.
  Variables (jl jr jref : nat) (pl pr pref : v3).
  Definition cbf_roots : list expr :=
    [cbf_com; cbf_expr jl jr jref pl pr; cbf_xmxlDotu jl jr pl pr; cbf_xmxrDotu jl jr pl pr].

  Ltac invsub :=
    repeat match goal with
           | H : sub _ (?c _ _ _ _) |- _ => inversion H; clear H; subst
           | H : sub _ (?c _ _ _) |- _ => inversion H; clear H; subst
           | H : sub _ (?c _ _) |- _ => inversion H; clear H; subst
           | H : sub _ (?c _) |- _ => inversion H; clear H; subst
           end.

  Definition cbf_nodes : list expr :=
    [cbf_com; cbf_left jl pl; cbf_right jr pr; cbf_u jl jr pl pr; cbf_xmxl jl pl; cbf_xmxr jr pr;
     Sum 6 (cbf_right jr pr) (cbf_left jl pl);
     SMul 7 (1/2) (Sum 6 (cbf_right jr pr) (cbf_left jl pl));
     Diff 8 cbf_com (SMul 7 (1/2) (Sum 6 (cbf_right jr pr) (cbf_left jl pl)));
     cbf_ecrossu jl jr pl pr; cbf_expr jl jr jref pl pr; cbf_xmxlDotu jl jr pl pr;
     cbf_xmxrDotu jl jr pl pr].

  Lemma cbf_among : forall e, among cbf_roots e -> In e cbf_nodes.
  Proof.
    intros e (r & R & S). unfold cbf_roots in R. cbn [In] in R.
    unfold cbf_nodes.
    destruct R as [<-|[<-|[<-|[<-|[]]]]];
      unfold cbf_expr, cbf_ecrossu, cbf_xmxlDotu, cbf_xmxrDotu, cbf_xmxl, cbf_xmxr, cbf_u,
        cbf_left, cbf_right, cbf_com in *; invsub; cbn [In]; tauto.
  Qed.

  Lemma cbf_addr : forall i e, nth_error cbf_nodes i = Some e -> addr e = i.
  Proof.
    intros i e H. do 13 (destruct i as [|i]; [cbn in H; inversion H; reflexivity|]).
    cbn in H. destruct i; discriminate.
  Qed.

  Lemma cbf_consistent : consistent cbf_roots.
  Proof.
    intros e f He Hf E. apply cbf_among in He. apply cbf_among in Hf.
    apply In_nth_error in He. apply In_nth_error in Hf.
    destruct He as [i He], Hf as [k Hf].
    rewrite (cbf_addr i e He), (cbf_addr k f Hf) in E. subst k. congruence.
  Qed.

  Lemma cbf_safe : safe cbf_roots.
  Proof.
    intros e He. apply cbf_among in He. unfold cbf_nodes in He. cbn [In] in He.
    repeat destruct He as [<-|He]; try contradiction; cbn; auto.
  Qed.

  Lemma cbf_transposed : transposed cbf_roots.
  Proof.
    intros e He. apply cbf_among in He. unfold cbf_nodes in He. cbn [In] in He.
    repeat destruct He as [<-|He]; try contradiction; cbn; auto.
  Qed.

  (** The four rows. *)
  Definition cbf_rows (q : robot) : list R :=
    let L := vadd (mulv (jR q jl) pl) (jp q jl) in
    let R_ := vadd (mulv (jR q jr) pr) (jp q jr) in
    let u := vsub R_ L in
    [vz (com q) - vz pref;
     vz (mulv (mtr (jR q jref)) (vcross (vsub (com q) (vscale (1/2) (vadd R_ L))) u));
     vdot (vsub (com q) L) u; vdot (vsub (com q) R_) u].

  Definition selected {A} (mask : bool * bool * bool * bool) (l : list A) : list A :=
    let '(b0, b1, b2, b3) := mask in
    map snd (filter (fun p => fst p) (combine [b0; b1; b2; b3] l)).

  Variables (before : list op) (q0 : robot) (g : store).
  Hypothesis Hbefore : Forall (uses cbf_roots) before.
  Let s0 := run before (q0, constructed cbf_roots g).

  Lemma in_among : forall e, In e cbf_roots -> among cbf_roots e.
  Proof. intros e H. exists e. split; [exact H|apply sub_refl]. Qed.

  Section OneRow.
    Variables (q : robot) (mid : list op).
    Hypothesis Hmid : Forall (uses cbf_roots) mid.
    Hypothesis Hstill : Forall still mid.
    Variable e : expr.
    Hypothesis He : In e cbf_roots.

    Lemma row_history : history cbf_roots q e (before ++ Move q :: mid ++ [Invalidate e]).
    Proof.
      exists before, mid, []. split; [reflexivity|]. split.
      - apply Forall_app. split; [exact Hbefore|]. constructor; [exact I|].
        apply Forall_app. split; [exact Hmid|]. constructor; [apply in_among, He|constructor].
      - rewrite app_nil_r. exact Hstill.
    Qed.

    Lemma run_app : forall l l' s, run (l ++ l') s = run l' (run l s).
    Proof. intros. unfold run. apply fold_left_app. Qed.

    Lemma row_value :
      val (snd (run [Invalidate e; Value e] (run mid (step s0 (Move q)))) (addr e)) = meaning q e.
    Proof.
      rewrite <- (fresh_value cbf_roots cbf_consistent cbf_safe q e e _ q0 g row_history
                    (sub_refl e)).
      rewrite <- app_assoc, run_app. fold s0.
      change ((Move q :: mid ++ [Invalidate e]) ++ [Value e]) with
        (Move q :: (mid ++ [Invalidate e]) ++ [Value e]).
      rewrite <- app_assoc. cbn [app].
      change (run (Move q :: mid ++ [Invalidate e; Value e]) s0) with
        (run (mid ++ [Invalidate e; Value e]) (step s0 (Move q))).
      rewrite run_app. reflexivity.
    Qed.

    Lemma row_jacobian : 
      jac (snd (run [Invalidate e; Jacobian e] (run mid (step s0 (Move q)))) (addr e)) = dj q e.
    Proof.
      rewrite <- (fresh_jac cbf_roots cbf_consistent cbf_safe q e e _ q0 g row_history
                    (sub_refl e)).
      rewrite <- app_assoc, run_app. fold s0.
      change ((Move q :: mid ++ [Invalidate e]) ++ [Jacobian e]) with
        (Move q :: (mid ++ [Invalidate e]) ++ [Jacobian e]).
      rewrite <- app_assoc. cbn [app].
      change (run (Move q :: mid ++ [Invalidate e; Jacobian e]) s0) with
        (run (mid ++ [Invalidate e; Jacobian e]) (step s0 (Move q))).
      rewrite run_app. reflexivity.
    Qed.
  End OneRow.

  Lemma uses_row : forall e o, In e cbf_roots ->
    In o [Invalidate e; Value e; Jacobian e] -> uses cbf_roots o /\ still o.
  Proof.
    intros e o He Ho. cbn [In] in Ho.
    destruct Ho as [<-|[<-|[<-|[]]]]; split; try exact I; apply in_among, He.
  Qed.

  (** Operations of a row. *)
  Definition row_ops (b : bool) (e : expr) (o : op) : list op := if b then [Invalidate e; o] else [].

  Lemma cbf_rowE : forall b e o read s,
    cbf_row b e o read s =
    ((if b then [read (snd (run [Invalidate e; o] s) (addr e))] else []), run (row_ops b e o) s).
  Proof. intros [|]; reflexivity. Qed.

  Definition quiet (m : list op) : Prop := Forall (uses cbf_roots) m /\ Forall still m.

  Lemma quiet_row : forall b e o, In e cbf_roots -> In o [Value e; Jacobian e] ->
    quiet (row_ops b e o).
  Proof.
    intros b e o He Ho. destruct b; [|split; constructor].
    split; apply Forall_forall; intros x [<-|[<-|[]]];
      first [exact (proj1 (uses_row e (Invalidate e) He (or_introl eq_refl)))
            |exact (proj1 (uses_row e o He (or_intror Ho)))
            |exact (proj2 (uses_row e (Invalidate e) He (or_introl eq_refl)))
            |exact (proj2 (uses_row e o He (or_intror Ho)))].
  Qed.

  Lemma quiet_app : forall m m', quiet m -> quiet m' -> quiet (m ++ m').
  Proof. intros m m' [A B] [C D]. split; apply Forall_app; auto. Qed.

  Lemma quiet_nil : quiet [].
  Proof. split; constructor. Qed.

  Lemma cbf_value : forall mask q,
    fst (cbf_compute jl jr jref pl pr pref mask q s0) = selected mask (cbf_rows q).
  Proof.
    intros [[[b0 b1] b2] b3] q. unfold cbf_compute. rewrite !cbf_rowE. cbn [fst].
    set (c := cbf_com). set (x := cbf_expr jl jr jref pl pr).
    set (l := cbf_xmxlDotu jl jr pl pr). set (r := cbf_xmxrDotu jl jr pl pr).
    assert (Ic : In c cbf_roots) by (left; reflexivity).
    assert (Ix : In x cbf_roots) by (right; left; reflexivity).
    assert (Il : In l cbf_roots) by (right; right; left; reflexivity).
    assert (Ir : In r cbf_roots) by (right; right; right; left; reflexivity).
    set (m0 := row_ops b0 c (Value c)). set (m1 := row_ops b1 x (Value x)).
    set (m2 := row_ops b2 l (Value l)).
    assert (Q0 : quiet m0) by (apply quiet_row; [|left]; auto).
    assert (Q1 : quiet m1) by (apply quiet_row; [|left]; auto).
    assert (Q2 : quiet m2) by (apply quiet_row; [|left]; auto).
    assert (Q01 := quiet_app _ _ Q0 Q1). assert (Q012 := quiet_app _ _ Q01 Q2).
    assert (R0 := row_value q [] (proj1 quiet_nil) (proj2 quiet_nil) c Ic).
    assert (R1 := row_value q m0 (proj1 Q0) (proj2 Q0) x Ix).
    assert (R2 := row_value q (m0 ++ m1) (proj1 Q01) (proj2 Q01) l Il).
    assert (R3 := row_value q ((m0 ++ m1) ++ m2) (proj1 Q012) (proj2 Q012) r Ir).
    rewrite run_app in R2. rewrite run_app, run_app in R3.
    change (run [] (step s0 (Move q))) with (step s0 (Move q)) in R0.
    rewrite R0, R1, R2, R3.
    destruct b0, b1, b2, b3; reflexivity.
  Qed.

  Lemma cbf_jacobianE : forall mask q,
    fst (cbf_jacobian jl jr jref pl pr mask q s0) =
    selected mask [vz (dj q cbf_com); vz (dj q (cbf_expr jl jr jref pl pr));
                   vx (dj q (cbf_xmxlDotu jl jr pl pr)); vx (dj q (cbf_xmxrDotu jl jr pl pr))].
  Proof.
    intros [[[b0 b1] b2] b3] q. unfold cbf_jacobian. rewrite !cbf_rowE. cbn [fst].
    set (c := cbf_com). set (x := cbf_expr jl jr jref pl pr).
    set (l := cbf_xmxlDotu jl jr pl pr). set (r := cbf_xmxrDotu jl jr pl pr).
    assert (Ic : In c cbf_roots) by (left; reflexivity).
    assert (Ix : In x cbf_roots) by (right; left; reflexivity).
    assert (Il : In l cbf_roots) by (right; right; left; reflexivity).
    assert (Ir : In r cbf_roots) by (right; right; right; left; reflexivity).
    set (m0 := row_ops b0 c (Jacobian c)). set (m1 := row_ops b1 x (Jacobian x)).
    set (m2 := row_ops b2 l (Jacobian l)).
    assert (Q0 : quiet m0) by (apply quiet_row; [|right; left]; auto).
    assert (Q1 : quiet m1) by (apply quiet_row; [|right; left]; auto).
    assert (Q2 : quiet m2) by (apply quiet_row; [|right; left]; auto).
    assert (Q01 := quiet_app _ _ Q0 Q1). assert (Q012 := quiet_app _ _ Q01 Q2).
    assert (R0 := row_jacobian q [] (proj1 quiet_nil) (proj2 quiet_nil) c Ic).
    assert (R1 := row_jacobian q m0 (proj1 Q0) (proj2 Q0) x Ix).
    assert (R2 := row_jacobian q (m0 ++ m1) (proj1 Q01) (proj2 Q01) l Il).
    assert (R3 := row_jacobian q ((m0 ++ m1) ++ m2) (proj1 Q012) (proj2 Q012) r Ir).
    rewrite run_app in R2. rewrite run_app, run_app in R3.
    change (run [] (step s0 (Move q))) with (step s0 (Move q)) in R0.
    rewrite R0, R1, R2, R3.
    destruct b0, b1, b2, b3; reflexivity.
  Qed.

  (** The rows of the Jacobian are the derivatives of the rows of the value. *)
  Lemma cbf_derivative : forall mask Q i d, motion Q ->
    nth_error (fst (cbf_jacobian jl jr jref pl pr mask (Q 0) s0)) i = Some d ->
    deriv (fun t => nth i (fst (cbf_compute jl jr jref pl pr pref mask (Q t) s0)) 0) 0 d.
  Proof.
    intros mask Q i d HM H. rewrite cbf_jacobianE in H.
    apply (deriv_ext (fun t => nth i (selected mask (cbf_rows (Q t))) 0)).
    { intros t. rewrite cbf_value. reflexivity. }
    assert (T : forall e, In e cbf_roots -> vderiv (fun t => meaning (Q t) e) 0 (dj (Q 0) e)).
    { intros e He. apply dj_deriv; [exact HM|]. intros f F. apply cbf_transposed.
      exists e. auto. }
    assert (Tc := T _ (or_introl eq_refl)).
    assert (Tx := T _ (or_intror (or_introl eq_refl))).
    assert (Tl := T _ (or_intror (or_intror (or_introl eq_refl)))).
    assert (Tr := T _ (or_intror (or_intror (or_intror (or_introl eq_refl))))).
    assert (X0 : deriv (fun t => vz (com (Q t)) - vz pref) 0 (vz (dj (Q 0) cbf_com))).
    { eapply deriv_eq; [|apply deriv_sub; [apply Tc|apply deriv_const]]. ring. }
    destruct Tx as (_ & _ & X1). destruct Tl as (X2 & _ & _). destruct Tr as (X3 & _ & _).
    destruct mask as [[[b0 b1] b2] b3].
    assert (F : Forall2 (fun f d => deriv f 0 d)
             [fun t => vz (com (Q t)) - vz pref; fun t => vz (meaning (Q t) (cbf_expr jl jr jref pl pr));
              fun t => vx (meaning (Q t) (cbf_xmxlDotu jl jr pl pr));
              fun t => vx (meaning (Q t) (cbf_xmxrDotu jl jr pl pr))]
             [vz (dj (Q 0) cbf_com); vz (dj (Q 0) (cbf_expr jl jr jref pl pr));
              vx (dj (Q 0) (cbf_xmxlDotu jl jr pl pr)); vx (dj (Q 0) (cbf_xmxrDotu jl jr pl pr))]).
    { constructor; [exact X0|]. constructor; [exact X1|]. constructor; [exact X2|].
      constructor; [exact X3|]. constructor. }
    exact (pick_deriv [b0; b1; b2; b3] _ _ i d F H).
  Qed.
End Cbf.
