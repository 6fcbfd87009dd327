From Coq Require Import Reals List Bool Arith Lra Lia.
From Verif Require Import Geo GeoLemmas Rigid SymModel SymSpec SymMain SymCases QPModel QPSpec QPProofs EquiModel EquiSpec.
Import ListNotations.
Local Open Scope R_scope.

(** ** The objects of the matrix *)
Definition tags_ok (l : list (nat * contact)) : Prop :=
  forall g c c', In (g, c) l -> In (g, c') l -> c_joint c = c_joint c' /\ c_normal c = c_normal c'.

Definition nvec (t : nat * contact) := Vij (4 * fst t + 2) (c_joint (snd t)) (c_normal (snd t)).
Definition pvec (i : nat) (t : nat * contact) := Pij (4 * i + 1) (c_joint (snd t)) (c_point (snd t)).
Definition dvec (i : nat) (t : nat * contact) := Diff (4 * i + 3) (Com 0) (pvec i t).
Definition xvec (i : nat) (t : nat * contact) := Cross (4 * i + 4) (dvec i t) (nvec t).
Lemma column_E i t : column i t = (nvec t, xvec i t).
Proof. now destruct t. Qed.
Lemma columns_in l : forall i p, In p (columns_from i l) -> exists k t, nth_error l k = Some t /\ p = column (i + k) t.
Proof.
  induction l as [|t l IH]; intros i p [].
  - exists 0%nat, t. split; [reflexivity|]. now rewrite Nat.add_0_r.
  - destruct (IH _ _ H) as (k & t' & N & ->). exists (S k), t'. split; [exact N|]. now rewrite Nat.add_succ_r.
Qed.
Definition object (l : list (nat * contact)) (e : expr) : Prop :=
  e = Com 0 \/ (exists t, In t l /\ e = nvec t) \/
  exists k t, nth_error l k = Some t /\ (e = pvec k t \/ e = dvec k t \/ e = xvec k t).
Lemma among_object l e : among (elements (columns_from 0 l)) e -> object l e.
Proof.
  intros (r & I & S). unfold elements in I. apply in_app_iff in I.
  assert (C : exists k t, nth_error l k = Some t /\ (r = nvec t \/ r = xvec k t)).
  { destruct I as [I|I]; apply in_map_iff in I; destruct I as (p & <- & I); apply columns_in in I; destruct I as (k & t & N & ->);
      rewrite column_E; exists k, t; cbn; auto. }
  destruct C as (k & t & N & [->| ->]).
  - right. left. exists t. split; [eapply nth_error_In; eauto|]. inversion S. reflexivity.
  - unfold object. pose proof (nth_error_In _ _ N) as J. inversion S; subst.
    + right. right. exists k, t. auto.
    + match goal with H : sub _ (dvec _ _) |- _ => inversion H; subst end.
      * right. right. exists k, t. auto.
      * match goal with H : sub _ (Com _) |- _ => inversion H; subst end. now left.
      * match goal with H : sub _ (pvec _ _) |- _ => inversion H; subst end. right. right. exists k, t. auto.
    + match goal with H : sub _ (nvec _) |- _ => inversion H; subst end. right. left. exists t. auto.
Qed.
Lemma consistent_elements l : tags_ok l -> consistent (elements (columns_from 0 l)).
Proof.
  intros T e f E F A. apply among_object in E. apply among_object in F.
  destruct E as [->|[(t & I & ->)|(k & t & N & [-> |[-> | ->]])]]; destruct F as [->|[(t' & I' & ->)|(k' & t' & N' & [-> |[-> | ->]])]];
    cbn in A; try reflexivity; try (exfalso; lia).
  - assert (G : fst t = fst t') by lia. unfold nvec. destruct t as [g c], t' as [g' c']. cbn in *. subst g'. destruct (T g c c' I I') as [-> ->]. reflexivity.
  - assert (G : k = k') by lia. subst k'. rewrite N in N'. now injection N' as <-.
  - assert (G : k = k') by lia. subst k'. rewrite N in N'. now injection N' as <-.
  - assert (G : k = k') by lia. subst k'. rewrite N in N'. now injection N' as <-.
Qed.
Lemma safe_elements l : safe (elements (columns_from 0 l)).
Proof.
  intros e E. apply among_object in E. destruct E as [->|[(t & I & ->)|(k & t & N & [-> |[-> | ->]])]]; cbn; auto.
Qed.
Lemma transposed_elements l : transposed (elements (columns_from 0 l)).
Proof.
  intros e E. apply among_object in E. destruct E as [->|[(t & I & ->)|(k & t & N & [-> |[-> | ->]])]]; cbn; auto.
Qed.

(** ** Evaluation *)
Lemma run_app a b s : run (a ++ b) s = run b (run a s).
Proof. apply fold_left_app. Qed.
Section Read.
Variables (roots : list expr) (q : robot) (q0 : robot) (g : store).
Hypothesis (CO : consistent roots) (SA : safe roots).
Lemma history_snoc e ops r : history roots q e ops -> among roots r -> history roots q e (ops ++ [Value r]).
Proof.
  intros (b & m & a & -> & U & S) A. exists b, m, (a ++ [Value r]). split; [|split].
  - rewrite <- !app_assoc. cbn. rewrite <- !app_assoc. reflexivity.
  - apply Forall_app. split; [exact U|]. now repeat constructor.
  - rewrite app_assoc. apply Forall_app. split; [exact S|]. now repeat constructor.
Qed.
Lemma history_values e fs : forall ops, history roots q e ops -> (forall f, In f fs -> among roots f) -> history roots q e (ops ++ map Value fs).
Proof.
  induction fs as [|f fs IH]; intros ops H A; cbn; [now rewrite app_nil_r|].
  change (Value f :: map Value fs) with ([Value f] ++ map Value fs). rewrite app_assoc. apply IH.
  - apply history_snoc; [exact H|]. apply A. now left.
  - intros f' F. apply A. now right.
Qed.
Lemma read_right es : forall ops, (forall e, In e es -> In e roots) -> (forall e, In e es -> history roots q e ops) ->
  read_row es (run ops (q0, constructed roots g)) = (map (meaning q) es, run (ops ++ map Value es) (q0, constructed roots g)).
Proof.
  induction es as [|e es IH]; intros ops I H; cbn -[run step].
  - now rewrite app_nil_r.
  - change (step (run ops (q0, constructed roots g)) (Value e)) with (run [Value e] (run ops (q0, constructed roots g))).
    rewrite <- run_app. rewrite IH.
    + f_equal; [f_equal|].
      * apply (fresh_value roots CO SA q e e); [apply H; now left|constructor].
      * rewrite <- app_assoc. reflexivity.
    + intros f F. apply I. now right.
    + intros f F. apply history_snoc; [apply H; now right|]. exists e. split; [apply I; now left|constructor].
Qed.
End Read.

Lemma meaning_n q t : meaning q (nvec t) = world_normal q (snd t).
Proof. unfold nvec, world_normal. cbn. now destruct (c_joint (snd t)). Qed.
Lemma meaning_x q i t : meaning q (xvec i t) = vcross (vsub (com q) (world_point q (snd t))) (world_normal q (snd t)).
Proof. unfold xvec, dvec, pvec, nvec, world_point, world_normal. cbn. now destruct (c_joint (snd t)). Qed.
Lemma stack_right q l : forall i, stack (map (meaning q) (map fst (columns_from i l))) (map (meaning q) (map snd (columns_from i l))) = map (wrench q) (map snd l).
Proof.
  induction l as [|t l IH]; intros i; [reflexivity|]. cbn -[meaning column]. rewrite column_E. cbn [fst snd]. rewrite meaning_n, meaning_x, IH. reflexivity.
Qed.

Lemma phi_E l q s : l <> [] -> phi_value (columns_from 0 l) q s =
  let cols := columns_from 0 l in
  let s := run (Move q :: map Invalidate (map fst cols ++ map snd cols)) s in
  let '(r0, s) := read_row (map fst cols) s in
  let '(r1, s) := read_row (map snd cols) s in
  Some (stack r0 r1, s).
Proof. destruct l; [contradiction|reflexivity]. Qed.

Lemma phi_right l before q0 g q : l <> [] -> tags_ok l ->
  let roots := elements (columns_from 0 l) in Forall (uses roots) before ->
  option_map fst (phi_value (columns_from 0 l) q (run before (q0, constructed roots g))) = Some (map (wrench q) (map snd l)).
Proof.
  intros N T roots U.
  assert (CO : consistent roots) by now apply consistent_elements.
  assert (SA : safe roots) by apply safe_elements.
  set (ops := before ++ Move q :: map Invalidate roots).
  assert (AM : forall e, In e roots -> among roots e) by (intros e I; exists e; split; [exact I|constructor]).
  assert (H : forall e, In e roots -> history roots q e ops).
  { intros e I. destruct (in_split _ _ I) as (a & b & E). exists before, (map Invalidate a), (map Invalidate b). split; [|split].
    - unfold ops. rewrite E at 1. now rewrite map_app.
    - unfold ops. apply Forall_app. split; [exact U|]. constructor; [exact Logic.I|]. apply Forall_forall. intros o O. apply in_map_iff in O. destruct O as (f & <- & F). cbn. now apply AM.
    - rewrite <- map_app. apply Forall_forall. intros o O. apply in_map_iff in O. destruct O as (f & <- & F). exact Logic.I. }
  rewrite phi_E by exact N. cbv zeta. fold (elements (columns_from 0 l)). fold roots.
  rewrite <- run_app. fold ops.
  rewrite (read_right roots q q0 g CO SA (map fst (columns_from 0 l))).
  2: { intros e I. unfold roots, elements. apply in_app_iff. now left. }
  2: { intros e I. apply H. unfold roots, elements. apply in_app_iff. now left. }
  rewrite (read_right roots q q0 g CO SA (map snd (columns_from 0 l))).
  2: { intros e I. unfold roots, elements. apply in_app_iff. now right. }
  2: { intros e I. apply history_values; [apply H; unfold roots, elements; apply in_app_iff; now right|].
       intros f F. apply AM. unfold roots, elements. apply in_app_iff. now left. }
  cbn. now rewrite stack_right.
Qed.

(** ** The two constructors *)
Lemma tag_contacts_snd cs : forall g, map snd (tag_contacts g cs) = cs.
Proof. induction cs as [|c cs IH]; intros g; cbn; [reflexivity|]. now rewrite IH. Qed.
Lemma tag_contacts_ge cs : forall g g' c, In (g', c) (tag_contacts g cs) -> (g <= g')%nat.
Proof. induction cs as [|c cs IH]; intros g g' c' []; [injection H as -> ->; lia|]. apply IH in H. lia. Qed.
Lemma tag_contacts_ok cs : forall g, tags_ok (tag_contacts g cs).
Proof.
  induction cs as [|c cs IH]; intros g h a b; cbn; [contradiction|]. intros [A|A] [B|B].
  - injection A as -> ->. injection B as ->. auto.
  - injection A as -> ->. apply tag_contacts_ge in B. lia.
  - injection B as -> ->. apply tag_contacts_ge in A. lia.
  - exact (IH _ h a b A B).
Qed.
Lemma tag_forces_snd fs : forall g, map snd (tag_forces g fs) = flatten fs.
Proof. induction fs as [|f fs IH]; intros g; cbn; [reflexivity|]. rewrite map_app, IH, map_map. reflexivity. Qed.
Lemma tag_forces_ge fs : forall g g' c, In (g', c) (tag_forces g fs) -> (g <= g')%nat.
Proof.
  induction fs as [|f fs IH]; intros g g' c; cbn; [contradiction|]. intros H. apply in_app_iff in H. destruct H as [H|H].
  - apply in_map_iff in H. destruct H as (p & E & _). injection E as -> _. lia.
  - apply IH in H. lia.
Qed.
Lemma tag_forces_ok fs : forall g, tags_ok (tag_forces g fs).
Proof.
  induction fs as [|f fs IH]; intros g h a b; cbn; [contradiction|]. intros A B. apply in_app_iff in A. apply in_app_iff in B. destruct A as [A|A], B as [B|B].
  - apply in_map_iff in A. apply in_map_iff in B. destruct A as (p & A & _), B as (p' & B & _). injection A as _ <-. injection B as _ <-. auto.
  - apply in_map_iff in A. destruct A as (p & A & _). injection A as -> _. apply tag_forces_ge in B. lia.
  - apply in_map_iff in B. destruct B as (p & B & _). injection B as -> _. apply tag_forces_ge in A. lia.
  - exact (IH _ h a b A B).
Qed.
Lemma nb_contacts_from fs : forall k, fold_left (fun nb f => (nb + length (f_points f))%nat) fs k = (k + length (flatten fs))%nat.
Proof. induction fs as [|f fs IH]; intros k; [cbn; lia|]. cbn [fold_left]. rewrite IH. unfold flatten. cbn [flat_map]. rewrite app_length, map_length. lia. Qed.
Lemma columns_length l : forall i, length (columns_from i l) = length l.
Proof. induction l as [|t l IH]; intros i; cbn; auto. Qed.
Lemma nb_contacts_right fs : nb_contacts fs = length (flatten fs) /\ length (force_columns fs) = nb_contacts fs.
Proof.
  unfold nb_contacts. rewrite nb_contacts_from. split; [reflexivity|]. unfold force_columns. rewrite columns_length.
  rewrite <- (map_length snd), tag_forces_snd. reflexivity.
Qed.

Lemma contact_matrix cs before q0 g q : cs <> [] -> let roots := elements (contact_columns cs) in Forall (uses roots) before ->
  option_map fst (phi_value (contact_columns cs) q (run before (q0, constructed roots g))) = Some (map (wrench q) cs).
Proof.
  intros N roots U. unfold roots, contact_columns in *.
  rewrite (phi_right (tag_contacts 0 cs) before q0 g q); [now rewrite tag_contacts_snd| |apply tag_contacts_ok|exact U]. destruct cs; [contradiction|discriminate].
Qed.
Lemma force_matrix fs before q0 g q : flatten fs <> [] -> let roots := elements (force_columns fs) in Forall (uses roots) before ->
  option_map fst (phi_value (force_columns fs) q (run before (q0, constructed roots g))) = Some (map (wrench q) (flatten fs)).
Proof.
  intros N roots U. unfold roots, force_columns in *.
  rewrite (phi_right (tag_forces 0 fs) before q0 g q); [now rewrite tag_forces_snd| |apply tag_forces_ok|exact U].
  intros E. apply N. rewrite <- (tag_forces_snd fs 0), E. reflexivity.
Qed.

(** ** Equilibrium *)
Lemma lin_japp q cs : forall F, lin (japp (map (wrench q) cs) F) = total_force (contact_loads q cs F).
Proof. induction cs as [|c cs IH]; intros [|x F]; cbn; try reflexivity. now rewrite IH. Qed.
Lemma ang_japp q cs : forall F, ang (japp (map (wrench q) cs) F) = vopp (total_moment (com q) (contact_loads q cs F)).
Proof.
  induction cs as [|c cs IH]; intros [|x F]; cbn [map japp contact_loads total_moment]; try (apply v3_eq; gcbn; cbn; ring).
  cbn [ang tadd tscale]. rewrite IH. unfold wrench. cbn [ang at_point force].
  destruct (total_moment (com q) (contact_loads q cs F)), (world_point q c), (world_normal q c), (com q). apply v3_eq; gcbn; ring.
Qed.
Lemma moment_shift O G l : total_moment O l = vadd (total_moment G l) (vcross (vsub G O) (total_force l)).
Proof.
  induction l as [|f l IH]; cbn; [apply v3_eq; gcbn; ring|]. rewrite IH. destruct (total_moment G l), (total_force l), (at_point f), (force f), O, G. apply v3_eq; gcbn; ring.
Qed.
Lemma equilibrium_iff q cs F O : japp (map (wrench q) cs) F = minus_gravity <-> in_equilibrium O (loads q cs F).
Proof.
  unfold in_equilibrium, loads. cbn [total_force total_moment at_point force]. rewrite (moment_shift O (com q)).
  pose proof (lin_japp q cs F) as L. pose proof (ang_japp q cs F) as A.
  destruct (japp (map (wrench q) cs) F) as [l a]. cbn in L, A. subst l a.
  destruct (total_force (contact_loads q cs F)) as [fx fy fz], (total_moment (com q) (contact_loads q cs F)) as [mx my mz], (com q) as [gx gy gz], O as [ox oy oz].
  unfold minus_gravity. gcbn. split.
  - intros E. injection E as E1 E2 E3 E4 E5 E6. subst fx fy fz.
    assert (mx = 0) by lra. assert (my = 0) by lra. assert (mz = 0) by lra. subst mx my mz. split; f_equal; ring.
  - intros [E M]. injection E as E1 E2 E3. injection M as M1 M2 M3.
    assert (fx = 0) by lra. assert (fy = 0) by lra. assert (fz = 1) by lra. subst fx fy fz.
    f_equal; f_equal; lra.
Qed.

(** ** Vertical normals *)
Lemma japp_upward q cs : upward q cs -> forall F, length F = length cs ->
  let ps := map (world_point q) cs in
  let s := wsum F (map (fun _ => 1) ps) in
  japp (map (wrench q) cs) F = Tw (V3 0 0 s) (V3 (s * vy (com q) - wsum F (map vy ps)) (wsum F (map vx ps) - s * vx (com q)) 0).
Proof.
  intros U. induction U as [|c cs E U IH]; intros [|x F] L; try discriminate; cbn.
  - unfold t0, v0. f_equal; f_equal; ring.
  - injection L as L. rewrite (IH F L). unfold wrench. rewrite E. destruct (world_point q c), (com q). unfold tadd, tscale. cbn [lin ang]. gcbn.
    f_equal; f_equal; ring.
Qed.
Lemma support_iff q cs : upward q cs -> (balanced (map (wrench q) cs) <-> above_support (com q) (map (world_point q) cs)).
Proof.
  intros U. unfold balanced, above_support, forces. rewrite !map_length.
  split.
  - intros (F & (L & P) & E). exists F. rewrite (japp_upward q cs U F L) in E. unfold minus_gravity, v0 in E. injection E as E1 E2 E3.
    rewrite !map_map in *. repeat split; auto; try lra; rewrite E1 in *; lra.
  - intros (w & L & P & S & X & Y). exists w. split; [auto|]. rewrite (japp_upward q cs U w L). unfold minus_gravity, v0.
    rewrite S, X, Y. f_equal; f_equal; ring.
Qed.
Lemma downward_far q cs F : Forall (fun c => vz (world_normal q c) <= 0) cs -> forces (length cs) F -> 1 <= residual (map (wrench q) cs) F.
Proof.
  intros D [L P].
  assert (Z : vz (lin (japp (map (wrench q) cs) F)) <= 0).
  { revert F L P. induction D as [|c cs E D IH]; intros [|x F] L P; cbn; try lra; try discriminate. injection L as L. inversion P; subst. specialize (IH F L). cbn in IH.
    assert (x * vz (world_normal q c) <= 0) by nra. specialize (IH ltac:(assumption)). lra. }
  unfold residual, tdot. destruct (japp (map (wrench q) cs) F) as [[a b c] [d e f]]. cbn in Z. unfold tadd, gravity. cbn [lin ang]. gcbn. nra.
Qed.
