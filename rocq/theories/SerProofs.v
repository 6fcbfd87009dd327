From Coq Require Import Reals List Bool Arith ZArith Lia.
From Verif Require Import Geo Rigid SegModel ViewModel EcsModel EcsRhsModel ImplModel ImplSpec DistModel GTModel GTSpec GTProofs RelComModel RTModel SatModel SerModel SerSpec.
Import ListNotations.
Local Open Scope R_scope.

Lemma getw {A B} (w : A -> list tok) r (k : A -> reader B) x y rest :
  comes_back w r x y -> get r k (w x ++ rest) = k y rest.
Proof. intros H. unfold get. now rewrite H. Qed.
Lemma getw0 {A B} (w : A -> list tok) r (k : A -> reader B) x y :
  comes_back w r x y -> get r k (w x) = k y [].
Proof. intros H. pose proof (getw w r k x y [] H) as E. now rewrite app_nil_r in E. Qed.
Lemma getN {B} (k : nat -> reader B) n rest : get rN k (TN n :: rest) = k n rest. Proof. reflexivity. Qed.
Lemma getZ {B} (k : Z -> reader B) n rest : get rZ k (TZ n :: rest) = k n rest. Proof. reflexivity. Qed.
Lemma getB {B} (k : bool -> reader B) n rest : get rB k (TB n :: rest) = k n rest. Proof. reflexivity. Qed.
Lemma getR {B} (k : R -> reader B) n rest : get rR k (TR n :: rest) = k n rest. Proof. reflexivity. Qed.
Lemma getnil {A B} (a : A) (k : A -> reader B) rest : get (ret_ a) k rest = k a rest. Proof. reflexivity. Qed.

Lemma cb_list {A} (w : A -> list tok) r : (forall x, comes_back w r x x) -> forall l, comes_back (wL w) (rL r) l l.
Proof.
  intros H l rest. unfold wL, rL. rewrite <- app_comm_cons, getN.
  induction l as [|a l IH]; [reflexivity|].
  cbn [length rep flat_map]. rewrite <- app_assoc, (getw _ _ _ _ _ _ (H a)).
  unfold get at 1. now rewrite IH.
Qed.
Lemma cb_R : forall x, comes_back (fun x => [TR x]) rR x x. Proof. intros x rest; reflexivity. Qed.
Lemma cb_B : forall x, comes_back (fun x => [TB x]) rB x x. Proof. intros x rest; reflexivity. Qed.
Lemma cb_S : forall x, comes_back wS rS x x. Proof. intros [a l] rest; reflexivity. Qed.
Lemma cb_O : forall x, comes_back wO rO x x. Proof. intros [n|] rest; reflexivity. Qed.
Lemma cb_3 : forall x, comes_back w3 r3 x x. Proof. intros [a b c] rest; reflexivity. Qed.
Lemma cb_M : forall x, comes_back wM rM x x. Proof. intros [[a b c] [d e f] [g h i]] rest; reflexivity. Qed.
Lemma cb_P : forall x, comes_back wP rP x x. Proof. intros [[[a b c] [d e f] [g h i]] [j k l]] rest; reflexivity. Qed.
Lemma cb_Rs l : comes_back (wL (fun x => [TR x])) (rL rR) l l. Proof. apply cb_list, cb_R. Qed.
Lemma cb_Rss l : comes_back (wL (wL (fun x => [TR x]))) (rL (rL rR)) l l. Proof. apply cb_list, cb_Rs. Qed.
Lemma cb_Bs l : comes_back (wL (fun x => [TB x])) (rL rB) l l. Proof. apply cb_list, cb_B. Qed.
Lemma cb_Ss l : comes_back (wL wS) (rL rS) l l. Proof. apply cb_list, cb_S. Qed.
Lemma cb_K : forall x, comes_back wK rK x x.
Proof.
  intros [r c s] rest. unfold wK, rK. cbn [nbRows nbCols segs]. rewrite <- !app_comm_cons, getZ, getZ.
  now rewrite (getw _ _ _ _ _ _ (cb_Ss s)).
Qed.
Lemma cb_F : forall x, comes_back wF rF x x.
Proof.
  intros [r c s t] rest. unfold wF, rF. cbn [fRows fCols frows fcols]. rewrite <- !app_comm_cons, getZ, getZ, <- app_assoc.
  rewrite (getw _ _ _ _ _ _ (cb_Ss s)). now rewrite (getw _ _ _ _ _ _ (cb_Ss t)).
Qed.
Lemma cb_Fs l : comes_back (wL wF) (rL rF) l l. Proof. apply cb_list, cb_F. Qed.
Lemma cb_Cmp : forall x, comes_back wCmp rCmp x x. Proof. intros [] rest; reflexivity. Qed.
Lemma cb_Cmps l : comes_back (wL wCmp) (rL rCmp) l l. Proof. apply cb_list, cb_Cmp. Qed.
Lemma cb_D d : sizes_ok d -> comes_back wD rD d d.
Proof.
  destruct d as [i v s a av n c]. unfold sizes_ok; cbn. intros [Ha Hv] rest. unfold wD, rD; cbn [d_in d_inv d_space d_act d_actv d_name d_ctx].
  rewrite <- !app_assoc. cbn [app]. rewrite !getN.
  assert (Ea : forall k : list bool -> reader dfun, forall ts,
             get (if (0 <? i)%nat then rL rB else ret_ []) k ((if (0 <? i)%nat then wL (fun b => [TB b]) a else []) ++ ts) = k a ts).
  { intros k ts. destruct i; cbn [Nat.ltb Nat.leb].
    - destruct a; [reflexivity|discriminate].
    - apply (getw _ _ _ _ _ _ (cb_Bs a)). }
  assert (Ev : forall k : list bool -> reader dfun, forall ts,
             get (if (0 <? v)%nat then rL rB else ret_ []) k ((if (0 <? v)%nat then wL (fun b => [TB b]) av else []) ++ ts) = k av ts).
  { intros k ts. destruct v; cbn [Nat.ltb Nat.leb].
    - destruct av; [reflexivity|discriminate].
    - apply (getw _ _ _ _ _ _ (cb_Bs av)). }
  rewrite Ea, Ev. reflexivity.
Qed.
Ltac step := first
  [ rewrite getN | rewrite getB | rewrite getZ | rewrite getR | rewrite (getw _ _ _ _ _ _ (cb_O _)) | rewrite (getw _ _ _ _ _ _ (cb_P _))
  | rewrite (getw _ _ _ _ _ _ (cb_3 _)) | rewrite (getw _ _ _ _ _ _ (cb_K _)) | rewrite (getw _ _ _ _ _ _ (cb_Bs _))
  | rewrite (getw _ _ _ _ _ _ (cb_Rs _)) | rewrite (getw _ _ _ _ _ _ (cb_Rss _)) | rewrite (getw _ _ _ _ _ _ (cb_Fs _))
  | rewrite (getw _ _ _ _ _ _ (cb_Cmps _)) ].

Lemma affine_back f : sizes_ok (a_d f) -> comes_back wAff rAff f f.
Proof.
  destruct f as [d n J b]; cbn. intros H rest. unfold wAff, rAff; cbn [a_d a_cols a_J a_b].
  rewrite <- !app_assoc, (getw _ _ _ _ _ _ (cb_D d H)). cbn [app]. repeat step. reflexivity.
Qed.
Lemma constant_back f : sizes_ok (c_d f) -> comes_back wCst rCst f f.
Proof.
  destruct f as [d v s]; cbn. intros H rest. unfold wCst, rCst; cbn [c_d c_vec c_space].
  rewrite <- !app_assoc, (getw _ _ _ _ _ _ (cb_D d H)). repeat step. reflexivity.
Qed.
Lemma rcom_back f : sizes_ok (rf_d f) -> (exists j v m, rc_create j v m = Some (rf_f f)) -> comes_back wRC rRC f f.
Proof.
  destruct f as [d r c g]; cbn. intros H (j & v & m & E) rest. unfold wRC, rRC; cbn [rf_d rf_robot rf_comc rf_f].
  assert (G : g = RC j v m (rc_nominal g)).
  { unfold rc_create in E. repeat (destruct (nth_error m _) as [[]|] in E; try discriminate); now injection E as <-. }
  rewrite G in *. cbn [rc_joint rc_ref rc_mask].
  rewrite <- !app_assoc, (getw _ _ _ _ _ _ (cb_D d H)). cbn [app].
  repeat step. now rewrite E.
Qed.
Lemma rt_back f : sizes_ok (ro_d f) -> comes_back wRT rRT f f.
Proof.
  destruct f as [d r p j1 j2 f1 f2 a b c e C]; cbn. intros H rest. unfold wRT, rRT; cbn [ro_d ro_robot ro_parent ro_j1 ro_j2 ro_F1 ro_F2 ro_inConf ro_inVel ro_outConf ro_outVel ro_C].
  rewrite <- !app_assoc, (getw _ _ _ _ _ _ (cb_D _ H)). cbn [app]. repeat step. reflexivity.
Qed.
Lemma if_back insz insv outq outv spn d f a b c e oj ij : sizes_ok d ->
  comes_back wIF (rIF insz insv outq outv spn) (if_new insz insv outq outv spn d f a b c e oj ij) (if_new insz insv outq outv spn d f a b c e oj ij).
Proof.
  intros H rest. unfold wIF, rIF, if_new; cbn [if_d if_f if_inC if_outC if_inV if_outV if_outJ if_inJ].
  rewrite <- !app_assoc, (getw _ _ _ _ _ _ (cb_D _ H)). cbn [app]. repeat step. reflexivity.
Qed.

Section GT.
Variables (isId : m3 -> bool) (isZero : v3 -> bool) (quat : m3 -> list R).
Variable o : opts.
Lemma j1_none mask l : relative o = false -> g_j1 (setup isId isZero o mask l) = None.
Proof.
  intros Ho. unfold setup. enough (G : forall g, g_j1 g = None -> g_j1 (fold_left (set isId isZero o) l g) = None) by (apply G; reflexivity).
  induction l as [|s l IH]; intros g Hg; cbn [fold_left]; [exact Hg|]. apply IH. destruct s; cbn; rewrite ?Ho; auto.
Qed.
Lemma mask_setup mask l : g_mask (setup isId isZero o mask l) = mask.
Proof.
  unfold setup. enough (G : forall g, g_mask (fold_left (set isId isZero o) l g) = g_mask g) by (rewrite G; reflexivity).
  induction l as [|s l IH]; intros g; cbn [fold_left]; [reflexivity|]. rewrite IH. now destruct s.
Qed.
Lemma gt_back d robot cols r2 mask l : sizes_ok d ->
  comes_back (wGT o) (rGT o) (gt_new isId isZero o d robot cols r2 mask l) (GTF d robot cols r2 (setup isId isZero o mask l) []).
Proof.
  intros H rest. unfold wGT, rGT, gt_new; cbn [gt_d gt_robot gt_cols gt_R2 gt_m].
  rewrite <- !app_assoc, (getw _ _ _ _ _ _ (cb_D _ H)). cbn [app]. repeat step.
  cbn [app]. repeat step.
  pose proof (j1_none mask l) as J.
  destruct (setup isId isZero o mask l) as [j1 j2 R1 t1 t2 f1 f2 fp fo ro m]; cbn [g_j1 g_j2 R1isID t1isZero t2isZero F1 F2 fullPos fullOri rowOri g_mask] in *.
  assert (E : forall k : option nat -> reader gtf, forall ts, get (if relative o then rO else ret_ None) k ((if relative o then wO j1 else []) ++ ts) = k j1 ts).
  { intros k ts. destruct (relative o); [apply (getw _ _ _ _ _ _ (cb_O j1))|]. now rewrite J. }
  rewrite E. repeat step. reflexivity.
Qed.
End GT.
Section GTV.
Variables (isId : m3 -> bool) (isZero : v3 -> bool) (quat : m3 -> list R).
Hypothesis quat4 : forall m, length (quat m) = 4%nat.
Variable o : opts.
Lemma raw_len mask g k : good_mask o mask -> length (raw quat o g k) = length (mask ++ if so3 o then [true] else []).
Proof.
  intros (L & E & S). unfold raw. rewrite app_length, L.
  destruct (position o), (orientation o), (so3 o); cbn; rewrite ?quat4; auto; try discriminate E; try (destruct (S eq_refl); discriminate).
Qed.
Lemma gt_value_ok d robot cols r2 mask l k : good_mask o mask ->
  let f := gt_new isId isZero o d robot cols r2 mask l in
  gtf_value quat o f k (out_size o mask) = Some (value quat o (gt_m f) k).
Proof.
  intros G f. unfold gtf_value, f, gt_new, value; cbn [gt_m gt_V]. rewrite mask_setup.
  pose proof (raw_len mask (setup isId isZero o mask l) k G) as L.
  rewrite read_mask_small; [|exact L|].
  2:{ destruct G as (L' & _). rewrite app_length, L'. destruct (position o), (orientation o), (so3 o); cbn; lia. }
  replace (out_size o mask) with (length (select (mask ++ (if so3 o then [true] else [])) (raw quat o (setup isId isZero o mask l) k))).
  - now rewrite Nat.eqb_refl.
  - rewrite select_length by exact L. unfold out_size, count. rewrite filter_app, app_length. now destruct (so3 o).
Qed.
Lemma gt_value_lost (f : gtf) k n : gt_V f = [] -> (0 < n)%nat -> gtf_value quat o f k n = None.
Proof. intros E N. unfold gtf_value. rewrite E. cbn. destruct n; [lia|reflexivity]. Qed.
End GTV.

(** implicit constraints *)
Lemma reach_saved {F} (c : impl F) : impl_reach c -> impl_load (impl_saved c) = c.
Proof.
  induction 1 as [f n comp mask|c comp H IH|c H IH|c H IH].
  - reflexivity.
  - destruct c; cbn in *. injection IH; intros; subst. reflexivity.
  - destruct c; cbn in *. exact IH.
  - rewrite IH. exact IH.
Qed.
Lemma implicit_back c : impl_reach (i_i c) -> length (i_rhs c) = m_rhs (i_i c) ->
  comes_back wI rI c (IMO (i_i c) (i_rhs c) (i_rhsf c) [] 0).
Proof.
  intros H L rest. pose proof (reach_saved _ H) as E. unfold wI, rI.
  rewrite <- !app_assoc. cbn [app]. repeat step. unfold ret_. rewrite L.
  change (m_cmp (i_i c), m_rhs (i_i c), m_fun (i_i c), m_mask (i_i c)) with (impl_saved (i_i c)). now rewrite E.
Qed.
Lemma bounds_back b : comes_back wBnd rBnd b (Bnd (b_lb b) (b_ub b) []).
Proof. intros rest. unfold wBnd, rBnd. rewrite <- app_assoc. repeat step. reflexivity. Qed.
Lemma bounds_new_sat leb lb ub q : length lb = length ub -> (length q <= length ub)%nat -> bnd_sat leb (bnd_new lb ub) q <> None.
Proof.
  intros L Q. unfold bnd_sat, bnd_new, zrange; cbn [b_lb b_ub b_iv]. rewrite map_length, seq_length, Nat2Z.id, L.
  replace (length q <=? length ub)%nat with true by (symmetry; now apply Nat.leb_le). discriminate.
Qed.
Lemma bounds_lost leb lb ub q : q <> [] -> bnd_sat leb (Bnd lb ub []) q = None.
Proof.
  intros Q. unfold bnd_sat; cbn [b_lb b_ub b_iv length]. destruct q; [congruence|]. cbn [length Nat.leb].
  now rewrite andb_false_r.
Qed.

(** statements of the properties *)
Lemma functions_restored :
  (forall f, sizes_ok (a_d f) -> exists f', comes_back wAff rAff f f' /\ a_d f' = a_d f /\
     (forall x, aff_value f' x = aff_value f x) /\ aff_jacobian f' = aff_jacobian f) /\
  (forall f, sizes_ok (c_d f) -> exists f', comes_back wCst rCst f f' /\ c_d f' = c_d f /\ (forall x, cst_value f' x = cst_value f x)) /\
  (forall d, sizes_ok d -> comes_back wD rD d d) /\
  (forall d r c j v m f, sizes_ok d -> rc_create j v m = Some f -> exists f', comes_back wRC rRC (RCF d r c f) f' /\
     rf_d f' = d /\ (forall k old, rc_value (rf_f f') k old = rc_value f k old) /\ (forall k old, rc_jacobian (rf_f f') k old = rc_jacobian f k old)) /\
  (forall f, sizes_ok (ro_d f) -> exists f', comes_back wRT rRT f f' /\ ro_d f' = ro_d f /\
     forall pos k, rt_value (ro_f pos f') k = rt_value (ro_f pos f) k /\ rt_jacobian (ro_f pos f') k = rt_jacobian (ro_f pos f) k).
Proof.
  split; [|split; [|split; [|split]]].
  - intros f H. exists f. split; [now apply affine_back|auto].
  - intros f H. exists f. split; [now apply constant_back|auto].
  - exact cb_D.
  - intros d r c j v m f H E. exists (RCF d r c f). split; [|auto]. apply rcom_back; cbn; eauto.
  - intros f H. exists f. split; [now apply rt_back|auto].
Qed.
Lemma transformation_restored isId isZero o d robot cols r2 mask l : sizes_ok d ->
  let f := gt_new isId isZero o d robot cols r2 mask l in
  exists f', comes_back (wGT o) (rGT o) f f' /\ gt_d f' = d /\ gt_m f' = gt_m f /\
    (forall k junk old, gtf_jacobian o f' k junk old = gtf_jacobian o f k junk old).
Proof.
  intros H f. exists (GTF d robot cols r2 (setup isId isZero o mask l) []). split; [|split; [reflexivity|split; reflexivity]].
  apply gt_back, H.
Qed.
Lemma transformation_lost isId isZero quat : (forall m, length (quat m) = 4%nat) ->
  forall o d robot cols r2 mask l, sizes_ok d -> good_mask o mask -> existsb (fun b => b) mask = true ->
  let f := gt_new isId isZero o d robot cols r2 mask l in let n := out_size o mask in
  (0 < n)%nat /\ (forall k, gtf_value quat o f k n = Some (value quat o (gt_m f) k)) /\
  exists f', comes_back (wGT o) (rGT o) f f' /\ forall k, gtf_value quat o f' k n = None.
Proof.
  intros Q o d robot cols r2 mask l H G M f n.
  assert (N : (0 < n)%nat).
  { unfold n, out_size, count. apply existsb_exists in M. destruct M as (b & I & ->).
    assert (K : In true (filter (fun b => b) mask)) by (apply filter_In; auto).
    destruct (filter (fun b => b) mask); [destruct K|cbn; lia]. }
  split; [exact N|split; [intros k; now apply gt_value_ok|]].
  exists (GTF d robot cols r2 (setup isId isZero o mask l) []). split; [apply gt_back, H|].
  intros k. now apply gt_value_lost.
Qed.
Lemma constraint_restored c : impl_reach (i_i c) -> length (i_rhs c) = m_rhs (i_i c) ->
  exists c', comes_back wI rI c c' /\ i_i c' = i_i c /\ i_rhs c' = i_rhs c /\ i_rhsf c' = i_rhsf c.
Proof. intros H L. eexists. split; [now apply implicit_back|auto]. Qed.
Lemma constraint_lost nq nv val logq expq c : impl_reach (i_i c) -> length (i_rhs c) = m_rhs (i_i c) ->
  (0 < nq (m_fun (i_i c)))%nat -> length (i_out c) = nq (m_fun (i_i c)) -> i_logn c = nv (m_fun (i_i c)) ->
  (forall q, im_from_config nq nv val logq expq c q <> None) /\
  exists c', comes_back wI rI c c' /\ (forall q, im_from_config nq nv val logq expq c' q = None) /\
  match i_rhsf c with
  | None => forall t, im_at nq val c t = Some (i_out c) /\ im_at nq val c' t = Some []
  | Some g => nq g = nq (m_fun (i_i c)) -> forall t, im_at nq val c t = Some (val g [t]) /\ im_at nq val c' t = None
  end.
Proof.
  intros H L N O G. split.
  - intros q. unfold im_from_config. rewrite O, G, !Nat.eqb_refl. discriminate.
  - eexists. split; [now apply implicit_back|]. split.
    + intros q. unfold im_from_config; cbn [i_i i_out length]. destruct (nq (m_fun (i_i c))); [lia|reflexivity].
    + destruct (i_rhsf c) as [g|] eqn:Eg.
      * intros Hg t. unfold im_at; rewrite Eg; cbn [i_rhsf i_out length]. rewrite O, Hg, Nat.eqb_refl.
        destruct (nq (m_fun (i_i c))); [lia|auto].
      * intros t. unfold im_at; rewrite Eg; auto.
Qed.
Lemma bounds_lost_all leb lb ub : length lb = length ub ->
  exists b', comes_back wBnd rBnd (bnd_new lb ub) b' /\ b_lb b' = lb /\ b_ub b' = ub /\
  forall q, q <> [] -> (length q <= length ub)%nat -> bnd_sat leb (bnd_new lb ub) q <> None /\ bnd_sat leb b' q = None.
Proof.
  intros L. exists (Bnd lb ub []). split; [exact (bounds_back (bnd_new lb ub))|]. do 2 (split; [reflexivity|]).
  intros q Q Hq. split; [now apply bounds_new_sat|now apply bounds_lost].
Qed.
