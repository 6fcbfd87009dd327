From Coq Require Import Classical_Prop Reals Lra Lia List Bool Arith ZArith.
From Verif Require Import Geo GeoLemmas Rigid RigidExamples SegModel ViewModel RotProofs LogSpec LogProofs LogMain LogPi DistModel DistProofs GTModel GTSpec GTProofs GTJac GTDeriv SE3Proofs RTModel RTSpec.
Import ListNotations.
Local Open Scope R_scope.

Definition built (f : rtf) : Prop := r_C f = comp (r_F1 f) (sinv (r_F2 f)).
Lemma parentE f k : match has_parent f with Some j => place k j | None => sid end = parent_place f k.
Proof. unfold has_parent, parent_place. destruct (r_parent f) as [[|n]|]; reflexivity. Qed.
Lemma rt_valueE f k : built f -> good_frames f -> rotation (rot (parent_place f k)) ->
  rt_value f k = comp (sinv (comp (parent_place f k) (r_pos f))) (comp (place1 f k) (comp (r_F1 f) (sinv (r_F2 f)))).
Proof.
  intros B (R1 & R2 & R3) RP. unfold rt_value. rewrite B. rewrite sinv_comp by assumption. rewrite compA.
  assert (E1 : match r_j1 f with Some j => comp (place k j) (comp (r_F1 f) (sinv (r_F2 f))) | None => comp (r_F1 f) (sinv (r_F2 f)) end
     = comp (place1 f k) (comp (r_F1 f) (sinv (r_F2 f)))) by (unfold place1; destruct (r_j1 f); [reflexivity|now rewrite comp_sid_l]).
  rewrite E1. unfold has_parent. unfold parent_place in RP. unfold parent_place. destruct (r_parent f) as [[|n]|];
    rewrite ?sinv_sid, ?comp_sid_l, !actInvE; auto.
Qed.
Lemma place1_rot f k : (forall j, r_j1 f = Some j -> rotation (rot (place k j))) -> rotation (rot (place1 f k)).
Proof. intros H. unfold place1. destruct (r_j1 f) as [j|]; [now apply H|apply rotation_1]. Qed.

(** * The pose computed satisfies the implicit constraint, and is the only one *)
Section RP.
Variables (exp6 : twist -> se3) (log6 : se3 -> twist).
Lemma imp2exp_E f M : log_inverted exp6 log6 f M -> exp6 (imp2exp log6 f M) = comp (comp (r_F2 f) M) (sinv (r_F2 f)).
Proof.
  intros H. unfold imp2exp. rewrite sinv_sid, comp_sid_l. exact H.
Qed.
Lemma output_iff f k rhs x : built f -> good_frames f -> rotation (rot (parent_place f k)) -> rotation (rot (place1 f k)) ->
  rotation (rot rhs) -> log_inverted exp6 log6 f rhs -> (x = output_value exp6 log6 f k rhs <-> implicit_value f k x = rhs).
Proof.
  intros B G RP R1 RR LG. unfold output_value. rewrite (imp2exp_E f rhs LG), (rt_valueE f k B G RP).
  destruct G as (RF1 & RF2 & RPos). unfold implicit_value. fold (place1 f k).
  set (P := comp (parent_place f k) (r_pos f)). assert (RPP : rotation (rot P)) by (now apply rot_comp).
  set (A := comp (place1 f k) (r_F1 f)). assert (RA : rotation (rot A)) by (now apply rot_comp).
  assert (E : comp (comp (sinv P) (comp (place1 f k) (comp (r_F1 f) (sinv (r_F2 f))))) (comp (comp (r_F2 f) rhs) (sinv (r_F2 f)))
     = comp (sinv P) (comp A (comp rhs (sinv (r_F2 f))))).
  { rewrite !compA. f_equal. unfold A. rewrite !compA. f_equal. f_equal. rewrite comp_cancel by exact RF2. reflexivity. }
  rewrite E. split.
  - intros ->. rewrite comp_cancel_r by exact RPP. rewrite !compA, sinv_l, comp_sid_r by exact RF2. now apply comp_cancel.
  - intros H. apply (comp_inj P); [exact RPP|]. rewrite comp_cancel_r by exact RPP.
    apply (comp_inj_r (r_F2 f)); [exact RF2|]. rewrite !compA, sinv_l, comp_sid_r by exact RF2.
    rewrite <- H. rewrite comp_cancel_r by exact RA. now rewrite compA.
Qed.
Lemma rhs_roundtrip f M : good_frames f -> log_inverted exp6 log6 f M -> exp2imp exp6 f (imp2exp log6 f M) = M.
Proof.
  intros G LG. unfold exp2imp. rewrite (imp2exp_E f M LG). destruct G as (_ & RF2 & _).
  rewrite !compA, sinv_l, comp_sid_r by exact RF2. now apply comp_cancel.
Qed.
Lemma rhs_roundtrip' f v : good_frames f -> imp2exp log6 f (exp2imp exp6 f v) = log6 (exp6 v).
Proof.
  intros (_ & RF2 & _). unfold imp2exp, exp2imp. rewrite sinv_sid, comp_sid_l. f_equal.
  rewrite !compA, sinv_r, comp_sid_r by exact RF2. now apply comp_cancel_r.
Qed.
(** full turns are lost *)
Hypothesis exp_screw : forall v, screws_to v (exp6 v).
Lemma spin_exp th : cos th = 1 -> sin th = 0 -> exp6 (Tw v0 (vscale th ez)) = sid.
Proof.
  intros C S. destruct (exp_screw (Tw v0 (vscale th ez))) as (E & E0 & EM & E1).
  assert (T : turns_to (vscale th ez) (rot (exp6 (Tw v0 (vscale th ez))))).
  { exists (fun s => rot (E s)). rewrite E0. split; [reflexivity|]. split; [intros t; apply EM|now rewrite E1]. }
  apply turns_unique in T; [|unfold ez; cbv; lra].
  assert (Z : tra (E 1) = tra (E 0)).
  { assert (D : forall t, vderiv (fun s => tra (E s)) t v0) by (intros t; eapply vderiv_eq; [|apply EM]; cbn [lin]; apply mulv_0).
    apply v3_eq; [apply (const_of_zero (fun s => vx (tra (E s))))|apply (const_of_zero (fun s => vy (tra (E s))))|apply (const_of_zero (fun s => vz (tra (E s))))]; intros t; apply (D t). }
  unfold sid in *. rewrite E1, E0 in Z. destruct (exp6 (Tw v0 (vscale th ez))) as [m v]. cbn [rot tra] in *. subst m v. f_equal.
  unfold about. rewrite C, S. unfold ez. cv. f_equal; f_equal; ring.
Qed.
Lemma rhs_turns_lost f : good_frames f -> exists v, imp2exp log6 f (exp2imp exp6 f v) <> v.
Proof.
  intros G. destruct (Classical_Prop.classic (log6 sid = Tw v0 (vscale 0 ez))) as [H|H].
  - exists (Tw v0 (vscale (2 * PI) ez)). rewrite rhs_roundtrip', spin_exp by (exact G || apply cos_2PI || apply sin_2PI). rewrite H.
    intros E. assert (X := f_equal (fun a => vz (ang a)) E). unfold ez in X. cbn in X. assert (P := PI_RGT_0). lra.
  - exists (Tw v0 (vscale 0 ez)). rewrite rhs_roundtrip', spin_exp by (exact G || apply cos_0 || apply sin_0). exact H.
Qed.
End RP.

(** * Jacobian *)
Lemma vread_map {A B} (h : A -> B) (g : Z -> A) l : vread (fun i => h (g i)) l = map h (vread g l).
Proof. unfold vread. induction l as [|s l IH]; cbn; [reflexivity|]. rewrite map_app, map_map, IH. reflexivity. Qed.
Lemma vread_ext {A} (g h : Z -> A) l : (forall i, g i = h i) -> vread g l = vread h l.
Proof. intros E. unfold vread. induction l as [|s l IH]; cbn; [reflexivity|]. rewrite IH. f_equal. apply map_ext. auto. Qed.
Lemma japp_map (f : twist -> twist) (Ha : forall a b, f (tadd a b) = tadd (f a) (f b)) (Hs : forall s a, f (tscale s a) = tscale s (f a)) (H0 : f t0 = t0) :
  forall J d, japp (map f J) d = f (japp J d).
Proof. induction J as [|c J IH]; intros [|x d]; cbn; auto. now rewrite Ha, Hs, IH. Qed.
Lemma japp_zero n d : japp (repeat t0 n) d = t0.
Proof. apply japp_t0. Qed.
Lemma adinv_add B a b : adinv B (tadd a b) = tadd (adinv B a) (adinv B b).
Proof.
  unfold adinv, tadd. cbn [lin ang]. rewrite <- !mulv_add. f_equal. f_equal. generalize (tra B) (lin a) (lin b) (ang a) (ang b). geo.
Qed.
Lemma adinv_scale B s a : adinv B (tscale s a) = tscale s (adinv B a).
Proof. unfold adinv, tscale. cbn [lin ang]. rewrite <- !mulv_scale. f_equal. f_equal. generalize (tra B) (lin a) (ang a). geo. Qed.

Lemma rt_col_free f k c1 cp : built f -> good_frames f -> has_parent f = None -> (forall j, r_j1 f = Some j -> rotation (rot (place k j))) ->
  rt_col f k c1 cp = match r_j1 f with Some _ => adinv (r_C f) c1 | None => t0 end.
Proof.
  intros B G NP RJ. assert (PP : parent_place f k = sid) by (rewrite <- parentE, NP; reflexivity).
  assert (V := rt_valueE f k B G). rewrite PP in V. specialize (V rotation_1).
  assert (RC : rotation (rot (r_C f))) by (rewrite B; destruct G as (? & ? & ?); repeat (apply rot_comp || apply rot_sinv); assumption).
  unfold rt_col, place2. rewrite V, NP. destruct (r_j1 f) as [j|] eqn:J; [|reflexivity].
  assert (R := RJ j eq_refl). rewrite comp_sid_l.
  destruct G as (RF1 & RF2 & RPos). rewrite comp_cancel_r by exact RPos.
  unfold place1. rewrite J, <- B. cbn [comp rot].
  unfold adinv, skewm. f_equal.
  - rewrite mtr_mul, !mulvA. f_equal. rewrite !mulv_add, (rotation_inv (rot (place k j)) (lin c1)), mopp_v, cross_matrixE by exact R.
    rewrite mulv_opp, (rotation_cross (mtr (rot (place k j)))) by (now apply rotation_mtr). rewrite !rotation_inv by exact R.
    generalize (tra (r_C f)) (lin c1) (ang c1). geo.
  - rewrite mtr_mul, !mulvA. now rewrite rotation_inv by exact R.
Qed.
Lemma rt_jac_free f K t d : built f -> good_frames f -> has_parent f = None -> input_moves f (r_j1 f) K t d ->
  moves (fun s => rt_value f (K s)) t (japp (rt_jacobian f (K t)) d).
Proof.
  intros B G NP M.
  assert (RC : rotation (rot (r_C f))) by (rewrite B; destruct G as (? & ? & ?); repeat (apply rot_comp || apply rot_sinv); assumption).
  assert (V : forall s, rt_value f (K s) = comp (sinv (r_pos f)) (comp (place1 f (K s)) (r_C f))).
  { intros s. assert (PP : parent_place f (K s) = sid) by (rewrite <- parentE, NP; reflexivity).
    rewrite (rt_valueE f (K s) B G), PP, comp_sid_l, B; [reflexivity|]. rewrite PP. apply rotation_1. }
  eapply moves_ext; [intros s; symmetry; apply V|].
  assert (RJ : forall s j, r_j1 f = Some j -> rotation (rot (place (K s) j))) by (intros s j E; rewrite E in M; apply M).
  unfold rt_jacobian. rewrite (vread_ext _ _ _ (fun i => rt_col_free f (K t) (col_of (K t) (r_j1 f) i) (col_of (K t) (has_parent f) i) B G NP (RJ t))).
  unfold place1. destruct (r_j1 f) as [j|] eqn:J.
  - rewrite (vread_map (adinv (r_C f))), japp_map by (apply adinv_add || apply adinv_scale || apply adinv_0).
    destruct M as [RM M]. apply moves_left; [apply rot_comp; [apply RM|exact RC]|]. apply (moves_right (r_C f) (fun s => place (K s) j)); [exact RC|exact M].
  - assert (Z : vread (fun _ : Z => t0) (r_in f) = repeat t0 (length (vread (fun _ : Z => t0) (r_in f)))).
    { unfold vread. generalize (r_in f). induction l as [|s l IH]; cbn; [reflexivity|]. rewrite IH at 1. rewrite app_length, repeat_app. f_equal.
      generalize (Z.to_nat (snd s)) 0%nat. induction n; intros m; cbn; [reflexivity|]. now rewrite <- IHn. }
    rewrite Z, japp_t0. apply moves_const.
Qed.

(** with a parent the angular part has the wrong sign *)
Lemma rt_jac_parent f K t d j : built f -> good_frames f -> has_parent f = Some j -> input_moves f (r_j1 f) K t d -> input_moves f (Some j) K t d ->
  exists T, moves (fun s => rt_value f (K s)) t T /\ ang (japp (rt_jacobian f (K t)) d) = vopp (ang T).
Proof.
  intros B G HP M MP.
  assert (RC : rotation (rot (r_C f))) by (rewrite B; destruct G as (? & ? & ?); repeat (apply rot_comp || apply rot_sinv); assumption).
  destruct MP as [RP MP].
  assert (PP : forall s, parent_place f (K s) = place (K s) j) by (intros s; rewrite <- parentE, HP; reflexivity).
  assert (V : forall s, rt_value f (K s) = comp (sinv (comp (place (K s) j) (r_pos f))) (comp (place1 f (K s)) (r_C f))).
  { intros s. rewrite (rt_valueE f (K s) B G), PP, B; [reflexivity|]. rewrite PP. apply RP. }
  set (d1 := match r_j1 f with Some n => japp (vread (fun i => nth (Z.to_nat i) (jjac (K t) n) t0) (r_in f)) d | None => t0 end).
  set (dp := japp (vread (fun i => nth (Z.to_nat i) (jjac (K t) j) t0) (r_in f)) d) in *.
  assert (M1 : moves (fun s => place1 f (K s)) t d1 /\ forall s, rotation (rot (place1 f (K s)))).
  { unfold place1, d1. destruct (r_j1 f); [destruct M; auto|]. split; [apply moves_const|intros; apply rotation_1]. }
  destruct M1 as [M1 RJ]. destruct G as (RF1 & RF2 & RPos).
  set (P := fun s => comp (place (K s) j) (r_pos f)). assert (RPs : forall s, rotation (rot (P s))) by (intros; now apply rot_comp).
  assert (DP : moves P t (adinv (r_pos f) dp)) by (apply (moves_right (r_pos f) (fun s => place (K s) j)); assumption).
  assert (DX : moves (fun s => comp (place1 f (K s)) (r_C f)) t (adinv (r_C f) d1)) by (apply (moves_right (r_C f) (fun s => place1 f (K s))); assumption).
  eexists. split.
  - eapply moves_ext; [intros s; symmetry; apply V|].
    refine (moves_comp (fun s => sinv (P s)) (fun s => comp (place1 f (K s)) (r_C f)) t _ _ _ (moves_inv P t _ RPs DP) DX).
    apply rot_comp; auto.
  - cbn [tadd ang adinv topp sinv rot]. unfold rt_jacobian.
    assert (C : forall c1 cp, ang (rt_col f (K t) (match r_j1 f with Some _ => c1 | None => t0 end) cp) =
       vsub (mulv (mtr (rot (comp (place1 f (K t)) (r_C f)))) (mulv (rot (place (K t) j)) (ang cp)))
            (mulv (mtr (rot (r_C f))) (ang (match r_j1 f with Some _ => c1 | None => t0 end)))).
    { intros c1 cp. unfold rt_col. rewrite HP. cbn [ang]. unfold place2. rewrite HP. fold (P t).
      rewrite V, comp_cancel_r by apply RPs. unfold place1. specialize (RJ t). unfold place1 in RJ. destruct (r_j1 f) as [n|].
      - cbn [comp rot]. rewrite mtr_mul, !mulvA. now rewrite (rotation_inv _ _ RJ).
      - cbn [comp rot sid ang t0]. now rewrite mul1m, !mulvA, mulv_0, vsub_0. }
    set (h := fun c : twist * twist => rt_col f (K t) (fst c) (snd c)).
    assert (AJ : forall J J' d, length J = length J' -> (forall x, In x J -> r_j1 f = None -> x = t0) ->
      ang (japp (map h (combine J J')) d) = vsub (mulv (mtr (rot (comp (place1 f (K t)) (r_C f)))) (mulv (rot (place (K t) j)) (ang (japp J' d)))) (mulv (mtr (rot (r_C f))) (ang (japp J d)))).
    { induction J as [|a J IH]; intros [|b J'] e L N; try discriminate L.
      - cbn. rewrite !mulv_0. symmetry. apply vsub_0.
      - destruct e as [|x e]; [cbn; rewrite !mulv_0; symmetry; apply vsub_0|]. cbn [combine map japp]. cbn [tadd ang tscale]. rewrite IH; [|cbn in L; lia|intros; apply N; [now right|assumption]].
        assert (Ca := C a b). replace (match r_j1 f with Some _ => a | None => t0 end) with a in Ca by (destruct (r_j1 f) eqn:EJ; [reflexivity|apply N; [now left|reflexivity]]).
        unfold h at 1. cbn [fst snd]. rewrite Ca. rewrite !mulv_add, !mulv_scale.
        generalize (mulv (mtr (rot (comp (place1 f (K t)) (r_C f)))) (mulv (rot (place (K t) j)) (ang b))) (mulv (mtr (rot (r_C f))) (ang a)) (mulv (mtr (rot (comp (place1 f (K t)) (r_C f)))) (mulv (rot (place (K t) j)) (ang (japp J' e)))) (mulv (mtr (rot (r_C f))) (ang (japp J e))). geo. }
    assert (SP : vread (fun i => rt_col f (K t) (col_of (K t) (r_j1 f) i) (col_of (K t) (has_parent f) i)) (r_in f)
       = map h (combine (vread (col_of (K t) (r_j1 f)) (r_in f)) (vread (col_of (K t) (has_parent f)) (r_in f)))).
    { rewrite (vread_map h (fun i => (col_of (K t) (r_j1 f) i, col_of (K t) (has_parent f) i))). f_equal. generalize (col_of (K t) (r_j1 f)) (col_of (K t) (has_parent f)). intros u v.
      assert (CM : forall (A : Type) (u v : A -> twist) (l : list A), map (fun i => (u i, v i)) l = combine (map u l) (map v l)) by (intros A u' v'; induction l; cbn; congruence).
      assert (VM : forall (B : Type) (g : Z -> B), vread g (r_in f) = map g (vread (fun i => i) (r_in f))) by (intros; apply (vread_map g (fun i => i))).
      rewrite !(VM _ u), !(VM _ v), (VM _ (fun i => (u i, v i))). apply CM. }
    rewrite SP, AJ.
    + rewrite HP. change (japp (vread (col_of (K t) (Some j)) (r_in f)) d) with dp.
      replace (japp (vread (col_of (K t) (r_j1 f)) (r_in f)) d) with d1.
      2: { unfold d1, col_of. destruct (r_j1 f); [reflexivity|].
           assert (Z : vread (fun _ : Z => t0) (r_in f) = map (fun _ => t0) (vread (fun i => i) (r_in f))) by apply (vread_map (fun _ : Z => t0) (fun i => i)).
           rewrite Z. generalize (vread (fun i => i) (r_in f)). clear. intros l. revert d. induction l; intros [|x d]; cbn; auto. rewrite <- IHl. unfold tadd, tscale, t0. cbn. f_equal; geo. }
      unfold P. cbn [comp rot]. rewrite mtrK, !mulv_opp.
      rewrite (mulvA (rot (place (K t) j))), (rotation_inv_r _ (ang dp) RPos).
      generalize (mulv (mtr (mul (rot (place1 f (K t))) (rot (r_C f)))) (mulv (rot (place (K t) j)) (ang dp))) (mulv (mtr (rot (r_C f))) (ang d1)). geo.
    + rewrite (vread_map (col_of (K t) (r_j1 f)) (fun i => i)), (vread_map (col_of (K t) (has_parent f)) (fun i => i)), !map_length. reflexivity.
    + intros x H E. rewrite (vread_map (col_of (K t) (r_j1 f)) (fun i => i)) in H. apply in_map_iff in H. destruct H as (y & <- & _). rewrite E. reflexivity.
Qed.

(** * RelativePose *)
Section RP2.
Variables (exp6 : twist -> se3) (log6 : se3 -> twist) (is_neutral : se3 -> bool).
Hypothesis neutralP : forall M, is_neutral M = true -> M = sid.
Lemma jac_output_free f K t d rhs : built f -> good_frames f -> has_parent f = None -> input_moves f (r_j1 f) K t d -> rotation (rot rhs) -> log_inverted exp6 log6 f rhs ->
  moves (fun s => output_value exp6 log6 f (K s) rhs) t (japp (jac_output exp6 log6 f is_neutral (K t) rhs) d).
Proof.
  intros B G NP M RR LG. assert (D := rt_jac_free f K t d B G NP M).
  assert (E := imp2exp_E exp6 log6 f rhs LG).
  assert (RE : rotation (rot (exp6 (imp2exp log6 f rhs)))).
  { rewrite E. destruct G as (? & ? & ?). repeat (apply rot_comp || apply rot_sinv); assumption. }
  unfold output_value, jac_output. destruct (is_neutral rhs) eqn:N.
  - apply neutralP in N. subst rhs. destruct G as (_ & RF2 & _). rewrite comp_sid_r, sinv_r in E by exact RF2. rewrite E.
    eapply moves_ext; [intros s; symmetry; apply comp_sid_r|exact D].
  - assert (H := moves_right (exp6 (imp2exp log6 f rhs)) _ t _ RE D). cbv beta in H.
    change (dintegrate exp6 (imp2exp log6 f rhs)) with (adinv (exp6 (imp2exp log6 f rhs))).
    rewrite japp_map by (apply adinv_add || apply adinv_scale || apply adinv_0). exact H.
Qed.
End RP2.
