(** Real numbers and concrete solvers for C22, C23 and C27-C32. *)
From Coq Require Import ZArith List Bool Lia Reals Lra Floats.SpecFloat.
From Verif Require Import SegModel SegSpec EcsModel EcsRhsModel EcsRhsSpec EcsRhsProofs EcsRhsExamples NanModel ImplModel ImplSpec ImplProofs
  HierModel HierSpec HierProofs HierRhsProofs HierErrProofs.
Import ListNotations.
Local Open Scope nat_scope.

(** real scalars *)
Definition Rltb (x y : R) : bool := if Rlt_dec x y then true else false.
Lemma Rltb_true x y : Rltb x y = true <-> (x < y)%R.
Proof. unfold Rltb. destruct (Rlt_dec x y); split; auto; discriminate. Qed.
Lemma Rltb_false x y : Rltb x y = false <-> (y <= x)%R.
Proof. unfold Rltb. destruct (Rlt_dec x y); split; auto; intros; try discriminate; lra. Qed.

(** what the comparison must do to one row: x before, y after, z: Jacobian row zeroed *)
Definition compared (thr : R) (t : cmp) (x y : R) (z : Prop) : Prop :=
  match t with
  | Superior => ((thr <= x)%R -> y = 0%R /\ z) /\ ((x < thr)%R -> y = (x - thr)%R /\ (y < 0)%R /\ ~ z)
  | Inferior => ((x <= - thr)%R -> y = 0%R /\ z) /\ ((- thr < x)%R -> y = (x + thr)%R /\ (0 < y)%R /\ ~ z)
  | _ => y = x /\ ~ z
  end.

Section R.
Context {F : Type}.
Variable feq : F -> F -> bool.
Variable mem : imp R -> list R -> Prop.
Variable okq : (Z -> R) -> Prop.

Lemma zero_jac_nth (zs : list nat) (J : list (list R)) j row : nth_error J j = Some row ->
  nth_error (zero_jac 0%R zs J) j = Some (if existsb (Nat.eqb j) zs then repeat 0%R (length row) else row).
Proof.
  intros H. unfold zero_jac. rewrite nth_error_map.
  assert (G : forall i (L : list (list R)) k, nth_error (combine (seq i (length L)) L) k = option_map (fun r => (i + k, r)) (nth_error L k)).
  { clear. intros i L. revert i. induction L as [|a L IH]; intros i [|k]; cbn; try reflexivity.
    - rewrite Nat.add_0_r. reflexivity.
    - rewrite IH. destruct (nth_error L k); cbn; [|reflexivity]. do 2 f_equal. lia. }
  rewrite G, H. cbn. reflexivity.
Qed.
Lemma compare_rows (s : hs F R) adds p l thr (e : list R) (J : list (list R)) :
  hreach feq 0%R mem okq s adds -> nth_error (lvls s) p = Some l -> length e = l_nv l ->
  exists e' zs, apply_cmp 0%R Rplus Rminus Ropp Rltb (l_cmp l) (l_ineq l) thr e = Some (e', zs) /\ length e' = length e /\
  forall j x, nth_error e j = Some x -> exists t y, nth_error (l_cmp l) j = Some t /\ nth_error e' j = Some y /\
    compared thr t x y (In j zs) /\
    (forall row, nth_error J j = Some row ->
       (In j zs -> nth_error (zero_jac 0%R zs J) j = Some (repeat 0%R (length row))) /\
       (~ In j zs -> nth_error (zero_jac 0%R zs J) j = Some row)).
Proof.
  intros R0 Hp Le. assert (I := hreach_inv _ _ _ _ _ _ R0). destruct (inv_lvl _ _ _ _ _ _ I _ _ Hp) as (A1 & A2 & A3 & A4 & A5 & A6 & A7 & A8 & A9).
  assert (W : forall c, In c (at_level adds p) -> wf_ic 0%R mem okq c).
  { intros c Hc. apply at_level_In in Hc. eapply (inv_wf _ _ _ _ _ _ I), Hc. }
  assert (Lc : length (l_cmp l) = length e).
  { rewrite Le, A3, A4. clear -W. induction (at_level adds p) as [|c cs IH]; [reflexivity|]. cbn [map concat]. rewrite app_length.
    rewrite IH by (intros d Hd; apply W; right; exact Hd). destruct (W c (or_introl eq_refl)) as (W1 & _ & _ & W4 & _). rewrite W1, (proj1 W4). reflexivity. }
  assert (H := apply_cmp_rows 0%R Rplus Rminus Ropp Rltb thr (l_cmp l) [] e [] eq_refl (eq_sym Lc)). cbn [app length] in H. rewrite <- A5 in H.
  do 2 eexists. split; [exact H|]. split.
  { clear -Lc. revert e Lc. induction (l_cmp l) as [|t ts IH]; intros [|x e] L; try discriminate; [reflexivity|]. cbn. f_equal. apply IH. cbn in L. lia. }
  intros j x Hx. assert (Hj : j < length (l_cmp l)) by (rewrite Lc; apply nth_error_Some; congruence).
  destruct (nth_error (l_cmp l) j) as [t|] eqn:Et; [|apply nth_error_None in Et; lia].
  exists t, (row_error 0%R Rplus Rminus Ropp Rltb thr t true x). split; [reflexivity|].
  split; [rewrite cmp_rows_nth by auto; rewrite Et, Hx; reflexivity|].
  assert (Hs : In j (sat_rows Ropp Rltb 0 thr (l_cmp l) e) <-> satisfied_row Ropp Rltb thr t x = true).
  { rewrite sat_rows_spec by auto. rewrite Nat.sub_0_r, Et, Hx. split.
    - intros (_ & t' & x' & B1 & B2 & B3). congruence.
    - intros B. split; [lia|]. eauto. }
  split.
  - destruct t; cbn [compared satisfied_row row_error] in *.
    + split; [reflexivity | rewrite Hs; discriminate].
    + split; [reflexivity | rewrite Hs; discriminate].
    + split; intros C; rewrite Hs.
      * rewrite (proj2 (Rltb_false _ _) C). auto.
      * rewrite (proj2 (Rltb_true _ _) C). split; [reflexivity|]. split; [lra|discriminate].
    + split; intros C; rewrite Hs.
      * rewrite (proj2 (Rltb_false _ _) C). auto.
      * rewrite (proj2 (Rltb_true _ _) C). split; [reflexivity|]. split; [lra|discriminate].
  - intros row Hrow. rewrite (zero_jac_nth _ _ _ _ Hrow). split; intros C.
    + replace (existsb (Nat.eqb j) (sat_rows Ropp Rltb 0 thr (l_cmp l) e)) with true; [reflexivity|]. symmetry. apply existsb_exists. exists j. split; [exact C|apply Nat.eqb_refl].
    + destruct (existsb _ _) eqn:Ex; [|reflexivity]. apply existsb_exists in Ex as (k & K1 & K2). apply Nat.eqb_eq in K2. subst. contradiction.
Qed.

(** masked rows *)
Lemma rows_error_nth thr ts : forall ms xs k t m x, nth_error ts k = Some t -> nth_error ms k = Some m -> nth_error xs k = Some x ->
  nth_error (rows_error 0%R Rplus Rminus Ropp Rltb thr ts ms xs) k = Some (row_error 0%R Rplus Rminus Ropp Rltb thr t m x).
Proof.
  induction ts as [|t0 ts IH]; intros [|m0 ms] [|x0 xs] [|k] t m x H1 H2 H3; try discriminate; cbn in *; [congruence|]. eapply IH; eassumption.
Qed.
Lemma masked_rows thr (c : ic F R) q r k t : wf_ic 0%R mem okq c -> length r = s_nq (ic_s c) ->
  nth_error (m_mask (ic_i c)) k = Some false -> nth_error (s_cmp (ic_s c)) k = Some t ->
  exists v, nth_error (con_error 0%R Rplus Rminus Ropp Rltb thr c q r) k = Some v /\
    (t <> Superior -> t <> Inferior -> v = 0%R) /\ (thr = 0%R -> v = 0%R) /\
    (t = Superior \/ t = Inferior -> (0 < thr)%R -> Rabs v = thr).
Proof.
  intros (W1 & W2 & W3 & W4 & W5 & W6) Lr Hm Ht.
  assert (L := W6 (s_fun (ic_s c) q) r (W5 q) Lr).
  assert (Hk : k < length (s_minus (ic_s c) (s_fun (ic_s c) q) r)) by (rewrite L, <- W2; apply nth_error_Some; congruence).
  destruct (nth_error (s_minus (ic_s c) (s_fun (ic_s c) q) r) k) as [x|] eqn:Ex; [|apply nth_error_None in Ex; lia].
  exists (row_error 0%R Rplus Rminus Ropp Rltb thr t false x). split; [apply rows_error_nth; assumption|].
  unfold row_error. split; [|split].
  - intros N1 N2. destruct t; congruence.
  - intros ->. destruct t; try reflexivity; unfold Rltb; destruct (Rlt_dec _ _); try reflexivity; lra.
  - intros [-> | ->] Hp; unfold Rltb; destruct (Rlt_dec _ _); try lra.
    + rewrite Rabs_left; lra.
    + rewrite Rabs_right; lra.
Qed.
End R.

Lemma reach_level_error (F V : Type) (feq : F -> F -> bool) (zero : V) (mem : imp V -> list V -> Prop) (okq : (Z -> V) -> Prop)
  (add sub : V -> V -> V) (neg : V -> V) (ltb : V -> V -> bool) thr q (s : hs F V) adds p l :
  hreach feq zero mem okq s adds -> nth_error (lvls s) p = Some l ->
  exists zs, level_error zero add sub neg ltb thr l q
    = Some (concat (map (fun x => con_error zero add sub neg ltb thr (fst x) q (snd x)) (combine (at_level adds p) (pieces (map ic_s (at_level adds p)) (l_rhs l)))), zs).
Proof.
  intros R0 Hp. assert (I := hreach_inv _ _ _ _ _ _ R0).
  destruct (level_error_spec zero mem okq add sub neg ltb thr q l (at_level adds p)) as (zs & H & _).
  - intros c Hc. apply at_level_In in Hc. eapply (inv_wf _ _ _ _ _ _ I), Hc.
  - exact (inv_lvl _ _ _ _ _ _ I _ _ Hp).
  - exists zs. exact H.
Qed.

(** building solvers *)
Section B.
Context {F V : Type}.
Variable feq : F -> F -> bool.
Fixpoint build (s : hs F V) (l : list (ic F V * nat)) : option (hs F V) :=
  match l with [] => Some s | (c, p) :: t => match hadd feq s c p with Some s' => build s' t | None => None end end.
Lemma build_reach zero mem okq l : forall s adds s', hreach feq zero mem okq s adds -> (forall c p, In (c, p) l -> wf_ic zero mem okq c) ->
  build s l = Some s' -> hreach feq zero mem okq s' (adds ++ l).
Proof.
  induction l as [|[c p] l IH]; intros s adds s' R W H; cbn in H.
  - injection H as <-. rewrite app_nil_r. exact R.
  - destruct (hadd feq s c p) as [s1|] eqn:E; [|discriminate].
    replace (adds ++ (c, p) :: l) with ((adds ++ [(c, p)]) ++ l) by (rewrite <- app_assoc; reflexivity).
    eapply IH; [|intros d r Hd; eapply W; right; exact Hd|exact H].
    eapply hr_add; [exact R| |exact E]. eapply W. left; reflexivity.
Qed.
End B.
Lemma nat_equiv : equivalence Nat.eqb.
Proof.
  split; [apply Nat.eqb_refl|]. split; [intros f g H; rewrite Nat.eqb_sym; exact H|].
  intros f g h H1 H2. apply Nat.eqb_eq in H1, H2. apply Nat.eqb_eq. congruence.
Qed.

(** clock constraints *)
Definition cic (f : nat) (i j : Z) (t1 t2 : cmp) (m1 m2 : bool) : ic nat Z :=
  mkic (impl_new f 2 [t1; t2] [m1; m2]) (clk i j t1 t2) [true; true; true; true].
Lemma cic_wf f i j t1 t2 m1 m2 : wf_ic 0%Z clk_mem clk_ok (cic f i j t1 t2 m1 m2).
Proof.
  unfold wf_ic, cic; cbn. split; [reflexivity|]. split; [reflexivity|]. split; [constructor|]. split; [apply clk_wf, clk_ok0|].
  split; [reflexivity|]. intros [|a [|b [|? ?]]] [|c [|d [|? ?]]] H1 H2; try discriminate; reflexivity.
Qed.
Definition ex_adds : list (ic nat Z * nat) :=
  [(cic 1 2 0 Equality Superior true true, 1); (cic 2 4 2 Equality Equality true false, 0); (cic 3 4 0 Inferior Equality true true, 1)].
Definition ex_hs : hs nat Z := match build Nat.eqb hs_init ex_adds with Some s => s | None => hs_init end.
Lemma ex_hreach : hreach Nat.eqb 0%Z clk_mem clk_ok ex_hs ex_adds.
Proof.
  apply (build_reach Nat.eqb 0%Z clk_mem clk_ok ex_adds hs_init [] ex_hs); [constructor| |reflexivity].
  intros c p [H|[H|[H|[]]]]; injection H as <- <-; apply cic_wf.
Qed.
Definition set_hs : hs nat Z := match set_rhs_of Nat.eqb ex_hs 1 [5; 0]%Z with Some (s, _) => s | None => ex_hs end.
Lemma set_hreach : hreach Nat.eqb 0%Z clk_mem clk_ok set_hs ex_adds.
Proof.
  unfold set_hs. destruct (set_rhs_of Nat.eqb ex_hs 1 [5; 0]%Z) as [[s b]|] eqn:E; [|exact ex_hreach].
  eapply hr_rhs; [exact ex_hreach|exact E].
Qed.
Definition added_hs : hs nat Z := match hadd Nat.eqb set_hs (cic 9 0 2 Equality Equality true true) 0 with Some s => s | None => ex_hs end.
Lemma added_eq : hadd Nat.eqb set_hs (cic 9 0 2 Equality Equality true true) 0 = Some added_hs.
Proof.
  unfold added_hs. destruct (hadd Nat.eqb set_hs (cic 9 0 2 Equality Equality true true) 0) eqn:E; [reflexivity|].
  exfalso. assert (H : (match hadd Nat.eqb set_hs (cic 9 0 2 Equality Equality true true) 0 with Some _ => true | None => false end) = true) by (vm_compute; reflexivity).
  rewrite E in H. discriminate.
Qed.
Definition one_adds : list (ic nat Z * nat) :=
  [(cic 1 2 0 Equality Equality true true, 0); (cic 2 4 2 Equality Equality true false, 0)].
Definition one_hs : hs nat Z := match build Nat.eqb hs_init one_adds with Some s => s | None => hs_init end.
Lemma one_hreach : hreach Nat.eqb 0%Z clk_mem clk_ok one_hs one_adds.
Proof.
  apply (build_reach Nat.eqb 0%Z clk_mem clk_ok one_adds hs_init [] one_hs); [constructor| |reflexivity].
  intros c p [H|[H|[]]]; injection H as <- <-; apply cic_wf.
Qed.

(** floating point constraints q_i = r *)
Definition flc (i : Z) (t : cmp) : imp spec_float :=
  mkimp 1 1 [fzero] (fun x => x) (fun x => x)
    (fun x y => map (fun p => fsub (fst p) (snd p)) (combine x y)) (fun q => [q i]) [t].
Definition fic (f : nat) (i : Z) (t : cmp) (m : bool) : ic nat spec_float := mkic (impl_new f 1 [t] [m]) (flc i t) [true].
Definition fmem (c : imp spec_float) (x : list spec_float) : Prop := length x = 1.
Definition fok (q : Z -> spec_float) : Prop := True.
Definition fadd (a b : spec_float) : spec_float := SFadd 53 1024 a b.
Lemma fic_wf f i t m : wf_ic fzero fmem fok (fic f i t m).
Proof.
  assert (K : forall x : list spec_float, length x = 1 -> exists y, x = [y]).
  { intros [|y [|z x]] H; try discriminate H. exists y; reflexivity. }
  unfold wf_ic, fic; cbn [ic_i ic_s]. split; [reflexivity|]. split; [reflexivity|]. split; [constructor|]. split.
  - unfold wf_imp. split; [reflexivity|]. split; [intros x H; exact H|]. split; [intros x H; exact H|].
    split; [intros w H; exact H|]. split; [intros q _; reflexivity|]. split; [|split; [reflexivity|]].
    + intros x H. destruct (K x H) as [y ->]. destruct t; reflexivity.
    + destruct t; reflexivity.
  - split; [reflexivity|]. intros x y H1 H2. destruct (K x H1) as [a ->], (K y H2) as [b ->]. reflexivity.
Qed.
Definition fl_build (l : list (ic nat spec_float * nat)) : hs nat spec_float :=
  match build Nat.eqb hs_init l with Some s => s | None => hs_init end.
Lemma fl_reach l : (exists s, build Nat.eqb hs_init l = Some s) ->
  (forall c p, In (c, p) l -> exists f i t m, c = fic f i t m) -> hreach Nat.eqb fzero fmem fok (fl_build l) l.
Proof.
  intros [s H] W. apply (build_reach Nat.eqb fzero fmem fok l hs_init [] _); [constructor| |unfold fl_build; rewrite H; reflexivity].
  intros c p Hc. destruct (W c p Hc) as (f & i & t & m & ->). apply fic_wf.
Qed.
