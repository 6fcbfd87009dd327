From Coq Require Import Reals List Bool Arith Lra Lia.
From Verif Require Import Geo GeoLemmas Rigid SymModel SymSpec SymMain SymCases QPModel QPSpec QPProofs EquiModel EquiSpec EquiProofs.
Import ListNotations.
Local Open Scope R_scope.

(** ** Jacobian *)
Section Jac.
Variables (roots : list expr) (Q : R -> robot) (q0 : robot) (g : store).
Hypothesis (CO : consistent roots) (SA : safe roots) (TR : transposed roots) (MO : motion Q).
Definition quiet (o : op) : Prop := match o with Value _ | Jacobian _ => True | _ => False end.
Lemma history_quiet e o ops : history roots (Q 0) e ops -> quiet o -> uses roots o -> history roots (Q 0) e (ops ++ [o]).
Proof.
  intros (b & m & a & -> & U & S) A B. exists b, m, (a ++ [o]). split; [|split].
  - rewrite <- !app_assoc. cbn. rewrite <- !app_assoc. reflexivity.
  - apply Forall_app. split; [exact U|]. now repeat constructor.
  - rewrite app_assoc. apply Forall_app. split; [exact S|]. constructor; [|constructor]. destruct o; cbn in *; auto.
Qed.
Lemma history_jacobians e fs : forall ops, history roots (Q 0) e ops -> (forall f, In f fs -> among roots f) -> history roots (Q 0) e (ops ++ map Jacobian fs).
Proof.
  induction fs as [|f fs IH]; intros ops H A; cbn; [now rewrite app_nil_r|].
  change (Jacobian f :: map Jacobian fs) with ([Jacobian f] ++ map Jacobian fs). rewrite app_assoc. apply IH.
  - apply history_quiet; [exact H|exact I|]. cbn. apply A. now left.
  - intros f' F. apply A. now right.
Qed.
Lemma jread_right es : forall ops, (forall e, In e es -> In e roots) -> (forall e, In e es -> history roots (Q 0) e ops) ->
  exists D, read_jrow es (run ops (q0, constructed roots g)) = (D, run (ops ++ map Jacobian es) (q0, constructed roots g)) /\
    Forall2 (fun e d => vderiv (fun t => meaning (Q t) e) 0 d) es D.
Proof.
  induction es as [|e es IH]; intros ops I H; cbn -[run step].
  - exists []. rewrite app_nil_r. split; [reflexivity|constructor].
  - change (step (run ops (q0, constructed roots g)) (Jacobian e)) with (run [Jacobian e] (run ops (q0, constructed roots g))).
    rewrite <- run_app. destruct (IH (ops ++ [Jacobian e])) as (D & E & FD).
    + intros f F. apply I. now right.
    + intros f F. apply history_quiet; [apply H; now right|exact Logic.I|]. exists e. split; [apply I; now left|constructor].
    + rewrite E. eexists. split.
      * f_equal. rewrite <- app_assoc. reflexivity.
      * constructor; [|exact FD]. apply (jacobian_derivative roots Q e e); auto; [apply H; now left|constructor].
Qed.
End Jac.
Lemma jphi_E l q s : l <> [] -> phi_jacobian (columns_from 0 l) q s =
  let cols := columns_from 0 l in
  let s := run (Move q :: map Invalidate (map fst cols ++ map snd cols)) s in
  let '(r0, s) := read_jrow (map fst cols) s in
  let '(r1, s) := read_jrow (map snd cols) s in
  Some (stack r0 r1, s).
Proof. destruct l; [contradiction|reflexivity]. Qed.
Lemma vderiv_ext f g t d : (forall s, f s = g s) -> vderiv f t d -> vderiv g t d.
Proof.
  intros E (A & B & C). unfold vderiv, deriv in *. repeat split; intros eps P; [destruct (A eps P) as [x H]|destruct (B eps P) as [x H]|destruct (C eps P) as [x H]];
    exists x; intros h N L; rewrite <- !E; now apply H.
Qed.
Lemma stack_deriv Q l : forall i D0 D1, Forall2 (fun e d => vderiv (fun t => meaning (Q t) e) 0 d) (map fst (columns_from i l)) D0 ->
  Forall2 (fun e d => vderiv (fun t => meaning (Q t) e) 0 d) (map snd (columns_from i l)) D1 ->
  Forall2 (fun c d => tderiv (fun t => wrench (Q t) c) 0 d) (map snd l) (stack D0 D1).
Proof.
  induction l as [|t l IH]; intros i D0 D1 A B; cbn -[column] in *.
  - inversion A. inversion B. constructor.
  - rewrite column_E in A, B. cbn [fst snd] in A, B. inversion A; subst. inversion B; subst. cbn. constructor.
    + split; cbn [lin ang wrench]; (eapply vderiv_ext; [|eassumption]); intros s; cbn [lin ang]; [now rewrite meaning_n|now rewrite meaning_x].
    + eapply IH; eassumption.
Qed.
Lemma jphi_right l before q0 g Q : l <> [] -> tags_ok l -> motion Q ->
  let roots := elements (columns_from 0 l) in Forall (uses roots) before ->
  exists D, option_map fst (phi_jacobian (columns_from 0 l) (Q 0) (run before (q0, constructed roots g))) = Some D /\
    Forall2 (fun c d => tderiv (fun t => wrench (Q t) c) 0 d) (map snd l) D.
Proof.
  intros N T MO roots U.
  assert (CO : consistent roots) by now apply consistent_elements.
  assert (SA : safe roots) by apply safe_elements.
  assert (TR : transposed roots) by apply transposed_elements.
  set (ops := before ++ Move (Q 0) :: map Invalidate roots).
  assert (AM : forall e, In e roots -> among roots e) by (intros e I; exists e; split; [exact I|constructor]).
  assert (H : forall e, In e roots -> history roots (Q 0) e ops).
  { intros e I. destruct (in_split _ _ I) as (a & b & E). exists before, (map Invalidate a), (map Invalidate b). split; [|split].
    - unfold ops. rewrite E at 1. now rewrite map_app.
    - unfold ops. apply Forall_app. split; [exact U|]. constructor; [exact Logic.I|]. apply Forall_forall. intros o O. apply in_map_iff in O. destruct O as (f & <- & F). cbn. now apply AM.
    - rewrite <- map_app. apply Forall_forall. intros o O. apply in_map_iff in O. destruct O as (f & <- & F). exact Logic.I. }
  rewrite jphi_E by exact N. cbv zeta. fold (elements (columns_from 0 l)). fold roots.
  rewrite <- run_app. fold ops.
  destruct (jread_right roots Q q0 g CO SA TR MO (map fst (columns_from 0 l)) ops) as (D0 & E0 & F0).
  { intros e I. unfold roots, elements. apply in_app_iff. now left. }
  { intros e I. apply H. unfold roots, elements. apply in_app_iff. now left. }
  rewrite E0.
  destruct (jread_right roots Q q0 g CO SA TR MO (map snd (columns_from 0 l)) (ops ++ map Jacobian (map fst (columns_from 0 l)))) as (D1 & E1 & F1).
  { intros e I. unfold roots, elements. apply in_app_iff. now right. }
  { intros e I. apply history_jacobians; [apply H; unfold roots, elements; apply in_app_iff; now right|].
    intros f F. apply AM. unfold roots, elements. apply in_app_iff. now left. }
  rewrite E1. eexists. split; [reflexivity|]. exact (stack_deriv Q l 0 D0 D1 F0 F1).
Qed.
Lemma contact_jacobian cs before q0 g Q : cs <> [] -> motion Q -> let roots := elements (contact_columns cs) in Forall (uses roots) before ->
  exists D, option_map fst (phi_jacobian (contact_columns cs) (Q 0) (run before (q0, constructed roots g))) = Some D /\
    Forall2 (fun c d => tderiv (fun t => wrench (Q t) c) 0 d) cs D.
Proof.
  intros N MO roots U. unfold roots, contact_columns in *.
  destruct (jphi_right (tag_contacts 0 cs) before q0 g Q) as (D & E & F); [destruct cs; [contradiction|discriminate]|apply tag_contacts_ok|exact MO|exact U|].
  exists D. split; [exact E|]. now rewrite tag_contacts_snd in F.
Qed.
Lemma force_jacobian fs before q0 g Q : flatten fs <> [] -> motion Q -> let roots := elements (force_columns fs) in Forall (uses roots) before ->
  exists D, option_map fst (phi_jacobian (force_columns fs) (Q 0) (run before (q0, constructed roots g))) = Some D /\
    Forall2 (fun c d => tderiv (fun t => wrench (Q t) c) 0 d) (flatten fs) D.
Proof.
  intros N MO roots U. unfold roots, force_columns in *.
  destruct (jphi_right (tag_forces 0 fs) before q0 g Q) as (D & E & F); [|apply tag_forces_ok|exact MO|exact U|].
  - intros E. apply N. rewrite <- (tag_forces_snd fs 0), E. reflexivity.
  - exists D. split; [exact E|]. now rewrite tag_forces_snd in F.
Qed.

(** ** Value of QPStaticStability *)
Lemma qp_equilibrium qp cs before q0 g n (ops : list (qp_op robot)) q : cs <> [] ->
  let roots := elements (contact_columns cs) in Forall (uses roots) before ->
  let phi := phi_of (contact_columns cs) (run before (q0, constructed roots g)) in
  qp_solves qp (phi q) ->
  let r := snd (qp_compute robot phi qp (qp_run robot phi qp n ops) q) in
  (r = 0 <-> exists F, forces (length cs) F /\ forall O, in_equilibrium O (loads q cs F)) /\
  (upward q cs -> (r = 0 <-> above_support (com q) (map (world_point q) cs))).
Proof.
  intros N roots U phi S r.
  assert (E : phi q = map (wrench q) cs).
  { unfold phi, phi_of. pose proof (contact_matrix cs before q0 g q N U) as H. fold roots in H.
    destruct (phi_value (contact_columns cs) q (run before (q0, constructed roots g))) as [[P s]|]; cbn in H; [now injection H|discriminate]. }
  pose proof (value_right qp robot phi (qp_run robot phi qp n ops) q S) as (_ & _ & _ & Z). fold r in Z. rewrite E in Z.
  split.
  - rewrite Z. unfold balanced. rewrite map_length. split; intros (F & A & B); exists F; split; auto.
    + intros O. now apply equilibrium_iff.
    + apply (equilibrium_iff q cs F v0), B.
  - intros UP. rewrite Z. now apply support_iff.
Qed.

(** ** Three contacts that are not aligned *)
Lemma three_contacts q a b c : upward q [a; b; c] -> ~ aligned (world_point q a) (world_point q b) (world_point q c) ->
  exists F, length F = 3%nat /\ (forall O, in_equilibrium O (loads q [a; b; c] F)) /\
    (forall F', length F' = 3%nat -> forall O, in_equilibrium O (loads q [a; b; c] F') -> F' = F) /\
    (Forall (fun x => 0 <= x) F <-> above_support (com q) (map (world_point q) [a; b; c])).
Proof.
  intros U NA. unfold aligned in NA.
  set (ps := map (world_point q) [a; b; c]).
  assert (EQ : forall w O, length w = 3%nat -> (in_equilibrium O (loads q [a; b; c] w) <->
     wsum w (map (fun _ => 1) ps) = 1 /\ wsum w (map vx ps) = vx (com q) /\ wsum w (map vy ps) = vy (com q))).
  { intros w O L. rewrite <- equilibrium_iff. rewrite (japp_upward q [a; b; c] U w L). fold ps. unfold minus_gravity, v0.
    split.
    - intros E. assert (E1 := f_equal (fun t => vz (lin t)) E). assert (E2 := f_equal (fun t => vx (ang t)) E). assert (E3 := f_equal (fun t => vy (ang t)) E).
      cbn [lin ang vx vy vz] in E1, E2, E3. rewrite E1 in E2, E3. clear E. repeat split; [exact E1|lra|lra].
    - intros (S & X & Y). rewrite S, X, Y. f_equal; f_equal; ring. }
  assert (UNI : forall w w', length w = 3%nat -> length w' = 3%nat ->
     wsum w (map (fun _ => 1) ps) = wsum w' (map (fun _ => 1) ps) -> wsum w (map vx ps) = wsum w' (map vx ps) -> wsum w (map vy ps) = wsum w' (map vy ps) -> w = w').
  { intros w w' L L'. destruct w as [|x [|y [|z [|]]]]; try discriminate. destruct w' as [|x' [|y' [|z' [|]]]]; try discriminate. cbn.
    set (ax := vx (world_point q a)) in *. set (ay := vy (world_point q a)) in *. set (bx := vx (world_point q b)) in *. set (by_ := vy (world_point q b)) in *. set (cx := vx (world_point q c)) in *. set (cy := vy (world_point q c)) in *.
    intros A B C. set (D := (bx - ax) * (cy - ay) - (by_ - ay) * (cx - ax)) in *.
    assert (P1 : (y - y') * (bx - ax) + (z - z') * (cx - ax) = 0).
    { assert (X : x - x' = - (y - y') - (z - z')) by lra.
      assert (B0 : (x - x') * ax + (y - y') * bx + (z - z') * cx = 0) by lra. rewrite X in B0. rewrite <- B0. ring. }
    assert (P2 : (y - y') * (by_ - ay) + (z - z') * (cy - ay) = 0).
    { assert (X : x - x' = - (y - y') - (z - z')) by lra.
      assert (C0 : (x - x') * ay + (y - y') * by_ + (z - z') * cy = 0) by lra. rewrite X in C0. rewrite <- C0. ring. }
    assert (Y : D * (y - y') = 0).
    { transitivity (((y - y') * (bx - ax) + (z - z') * (cx - ax)) * (cy - ay) - ((y - y') * (by_ - ay) + (z - z') * (cy - ay)) * (cx - ax)); [unfold D; ring|rewrite P1, P2; ring]. }
    assert (Z : D * (z - z') = 0).
    { transitivity (((y - y') * (by_ - ay) + (z - z') * (cy - ay)) * (bx - ax) - ((y - y') * (bx - ax) + (z - z') * (cx - ax)) * (by_ - ay)); [unfold D; ring|rewrite P1, P2; ring]. }
    apply Rmult_integral in Y. apply Rmult_integral in Z. destruct Y as [Y|Y]; [contradiction|]. destruct Z as [Z|Z]; [contradiction|].
    assert (y = y') by lra. assert (z = z') by lra. subst. f_equal. lra. }
  set (ax := vx (world_point q a)) in *. set (ay := vy (world_point q a)) in *. set (bx := vx (world_point q b)) in *. set (by_ := vy (world_point q b)) in *. set (cx := vx (world_point q c)) in *. set (cy := vy (world_point q c)) in *.
  set (D := (bx - ax) * (cy - ay) - (by_ - ay) * (cx - ax)) in *. set (gx := vx (com q)) in *. set (gy := vy (com q)) in *.
  set (y := ((gx - ax) * (cy - ay) - (gy - ay) * (cx - ax)) / D). set (z := ((bx - ax) * (gy - ay) - (by_ - ay) * (gx - ax)) / D).
  assert (SOL : wsum [1 - y - z; y; z] (map (fun _ => 1) ps) = 1 /\ wsum [1 - y - z; y; z] (map vx ps) = gx /\ wsum [1 - y - z; y; z] (map vy ps) = gy).
  { cbn. fold ax ay bx by_ cx cy. repeat split; unfold y, z; try (field_simplify_eq; [|assumption]; unfold D; ring). }
  exists [1 - y - z; y; z]. split; [reflexivity|]. split; [|split].
  - intros O. apply EQ; [reflexivity|exact SOL].
  - intros F' L O E. apply (EQ F' O L) in E. destruct E as (E1 & E2 & E3), SOL as (S1 & S2 & S3). apply UNI; auto; congruence.
  - split.
    + intros P. exists [1 - y - z; y; z]. destruct SOL as (S1 & S2 & S3). repeat split; auto.
    + intros (w & L & P & S & X & Y). destruct SOL as (S1 & S2 & S3). rewrite (UNI [1 - y - z; y; z] w); auto; fold gx gy in X, Y; congruence.
Qed.

(** ** A table with three legs *)
Lemma table_case : upward (still_robot (V3 1 1 5)) [leg 0 0; leg 4 0; leg 0 4] /\
  ~ aligned (V3 0 0 0) (V3 4 0 0) (V3 0 4 0) /\
  above_support (V3 1 1 5) (map (world_point (still_robot (V3 1 1 5))) [leg 0 0; leg 4 0; leg 0 4]) /\
  ~ above_support (V3 3 3 5) (map (world_point (still_robot (V3 3 3 5))) [leg 0 0; leg 4 0; leg 0 4]).
Proof.
  split; [|split; [|split]].
  - repeat constructor.
  - unfold aligned. cbn. lra.
  - exists [1/2; 1/4; 1/4]. cbn. repeat split; try lra. repeat constructor; lra.
  - intros (w & L & P & S & X & Y). destruct w as [|a [|b [|c [|]]]]; try discriminate. cbn in S, X, Y.
    inversion P; subst. inversion H2; subst. inversion H4; subst. lra.
Qed.
Lemma span_refuted : exists q cs F, upward q cs /\ length F = length cs /\ (forall O, in_equilibrium O (loads q cs F)) /\ ~ balanced (map (wrench q) cs).
Proof.
  assert (U : upward (still_robot (V3 3 3 5)) [leg 0 0; leg 4 0; leg 0 4]) by repeat constructor.
  destruct (three_contacts (still_robot (V3 3 3 5)) (leg 0 0) (leg 4 0) (leg 0 4) U) as (F & L & E & _ & _).
  { unfold aligned. cbn. lra. }
  exists (still_robot (V3 3 3 5)), [leg 0 0; leg 4 0; leg 0 4], F. split; [exact U|]. split; [exact L|]. split; [exact E|].
  intros B. apply (support_iff _ _ U) in B. exact (proj2 (proj2 (proj2 table_case)) B).
Qed.
