From Coq Require Import ZArith List Bool Lia.
From Verif Require Import SegSpec SegModel SegProofs EcsModel EcsSpec EcsRhsModel EcsRhsSpec EcsRhsProofs EcsMainProofs EcsFinalProofs.
From Verif Require Import ImplModel ImplSpec ImplProofs HierModel HierSpec HierProofs HierRhsProofs BySubModel BySubSpec BySubProofs.
Import ListNotations.
Local Open Scope nat_scope.

Section Save.
Context {F V T : Type}.
Variables (feq : F -> F -> bool) (zero : V) (iadd : Z -> Z -> Z) (mem : imp V -> list V -> Prop) (okq : (Z -> V) -> Prop).
Hypothesis EQ : equivalence feq.
Variables (P : con V (list V) -> Prop) (n m : Z).
Hypothesis HF : family n m P.
Notation breach := (breach feq zero iadd mem okq P n m).
Notation bc := (bc F V).
Notation bs := (bs F V).
Notation hs := (hs F V).

(** all right hand sides neutral, flag o *)
Definition canon (o : bool) (h : hs) : hs := mkhs (map upd_lvl (lvls h)) (prio h) (iqm h) (ivm h) (hcons h) o.
Definition neutrals (cs : list bc) : list (list V) := map (fun c => s_neutral (ic_s (bc_c c))) cs.
Definition canon_bs (o : bool) (s : bs) : bs :=
  mkbs (canon o (bs_h s)) (with_rhs (bs_e s) (neutrals (bs_ex s))) (bs_ex s) (bs_cons s) (bs_free s).

Lemma upd_twice (l : lvl F V) : upd_lvl (upd_lvl l) = upd_lvl l.
Proof. reflexivity. Qed.
Lemma upd_rhs_lvl (l : lvl F V) r : upd_lvl (lvl_rhs l r) = upd_lvl l.
Proof. reflexivity. Qed.
Lemma canon_update o h : canon o (update h) = canon o h.
Proof. unfold canon, update. cbn. rewrite map_map. f_equal. Qed.
Lemma map_set_nth {A B} (f : A -> B) l : forall i a, map f (set_nth l i a) = set_nth (map f l) i (f a).
Proof. induction l as [|x l IH]; intros [|i] a; cbn; try reflexivity. rewrite IH. reflexivity. Qed.
Lemma set_nth_id {A} (l : list A) : forall i a, nth_error l i = Some a -> set_nth l i a = l.
Proof. induction l as [|x l IH]; intros [|i] a H; try discriminate; cbn in *; [congruence|]. rewrite IH by exact H. reflexivity. Qed.
Lemma canon_set o (h : hs) f x h' b : set_rhs_of feq h f x = Some (h', b) -> canon o h' = canon o h.
Proof.
  unfold set_rhs_of, upd_rhs. destruct (find_f feq f (iqm h)), (find_f feq f (prio h)) as [p|]; try (intros H; injection H as <- <-; reflexivity).
  destruct (nth_error (lvls h) p) as [l|] eqn:El; [|discriminate]. destruct (set_segment _ _ _) as [r|]; [|discriminate].
  intros H. injection H as <- <-. unfold canon. cbn. rewrite map_set_nth. f_equal. apply set_nth_id. rewrite nth_error_map, El. reflexivity.
Qed.
Lemma canon_whole o (h : hs) v h' : set_rhs_whole h v = Some h' -> canon o h' = canon o h.
Proof.
  unfold set_rhs_whole. destruct (set_whole (lvls h) 0 v) as [ls|] eqn:E; [|discriminate]. intros H. injection H as <-.
  unfold canon. cbn. f_equal. revert E. generalize 0. revert ls. induction (lvls h) as [|l t IH]; intros ls k E; cbn in E.
  - destruct (Nat.eqb k (length v)); [|discriminate]. injection E as <-. reflexivity.
  - destruct (segment v k (l_nq l)); [|discriminate]. destruct (segment (l_rhs l) k (l_nq l)); [|discriminate].
    destruct (set_segment _ _ _); [|discriminate]. destruct (set_whole t _ v) as [t'|] eqn:Et; [|discriminate]. injection E as <-.
    cbn. rewrite upd_rhs_lvl, (IH _ _ Et). reflexivity.
Qed.
Lemma canon_config o (h : hs) q h' : rhs_config zero h q = Some h' -> canon o h' = canon o h.
Proof.
  unfold rhs_config. destruct (rhs_config_lvls zero (lvls h) q) as [ls|] eqn:E; [|discriminate]. intros H. injection H as <-.
  unfold canon. cbn. f_equal. revert ls E. induction (lvls h) as [|l t IH]; intros ls E; cbn in E; [injection E as <-; reflexivity|].
  destruct (level_rhs_config zero (l_cons l) q); [|discriminate]. destruct (rhs_config_lvls zero t q) as [t'|]; [|discriminate]. injection E as <-.
  cbn. rewrite upd_rhs_lvl, (IH _ eq_refl). reflexivity.
Qed.
Lemma push_upd (l : lvl F V) c : upd_lvl (push_con (upd_lvl l) c) = upd_lvl (push_con l c).
Proof. unfold push_con. cbn. destruct (push_cmp _ _ _ _) as [[a b] d]. reflexivity. Qed.
Lemma hadd_canon o (h : hs) c p h' : hadd feq h c p = Some h' -> hadd feq (canon o h) c p = Some (canon o h').
Proof.
  unfold hadd. cbn [canon prio lvls]. destruct (existsb _ _); [discriminate|].
  assert (Er : resize (map upd_lvl (lvls h)) (p + 1) = map upd_lvl (resize (lvls h) (p + 1))).
  { unfold resize. rewrite map_app, map_length. f_equal. induction (p + 1 - length (lvls h)) as [|k IH]; [reflexivity|]. cbn. rewrite <- IH. reflexivity. }
  rewrite Er, nth_error_map. destruct (nth_error (resize (lvls h) (p + 1)) p) as [l|] eqn:El; [|discriminate]. cbn [option_map].
  intros H. injection H as <-. unfold update, canon. cbn [lvls prio iqm ivm hcons last_optional]. do 2 f_equal.
  rewrite !map_set_nth, !map_map. f_equal. rewrite push_upd. reflexivity.
Qed.

(** a list of constraints with priorities that gives back l *)
Definition same_list (lp : list (bc * nat)) (l : list (bc * how)) : Prop :=
  Forall2 (fun a b => fst a = fst b /\ forall p, snd b = Numerically p -> snd a = p) lp l.
Lemma load_loop_app fuel l1 : forall (s : bs) l2, load_loop feq iadd fuel s (l1 ++ l2) =
  match load_loop feq iadd fuel s l1 with Some s' => load_loop feq iadd fuel s' l2 | None => None end.
Proof.
  induction l1 as [|[c p] l1 IH]; intros s l2; [reflexivity|]. cbn. destruct (badd feq iadd fuel s c p) as [s' []]; try reflexivity; apply IH.
Qed.
Lemma same_list_snoc lp l a : same_list lp (l ++ [a]) -> exists lp' p, lp = lp' ++ [(fst a, p)] /\ same_list lp' l /\ (forall q, snd a = Numerically q -> p = q).
Proof.
  intros H. apply Forall2_app_inv_r in H as (l1 & l2 & H1 & H2 & ->). inversion H2 as [|x y ? ? [X1 X2] X3]; subst. inversion X3; subst.
  exists l1, (snd x). split; [destruct x; cbn in *; subst; reflexivity|]. auto.
Qed.
Lemma badd_mono fuel fuel' (s : bs) c p s' r : fuel <= fuel' -> r <> BFuel -> badd feq iadd fuel s c p = (s', r) -> badd feq iadd fuel' s c p = (s', r).
Proof.
  intros Hf Nf E. unfold badd in *. destruct (bcontains feq s c); [exact E|]. destruct (bc_con c) as [x|]; [|exact E].
  destruct (add iadd fuel (bs_e s) x) as [e r0] eqn:Ea. assert (r0 <> NoFuel) by (intros ->; injection E as _ <-; contradiction).
  rewrite (@add_mono _ _ iadd (bs_e s) x fuel fuel' _ _ Hf Ea); [exact E|assumption].
Qed.

Definition start (o : bool) : bs := mkbs (mkhs [] [] [] [] [] o) (init n m) [] [] [(0%Z, m)].
Lemma badd_canon o (s : bs) c p q fuel s' : badd feq iadd fuel s c p = (s', BYes) ->
  (bs_ex s' = bs_ex s -> p = q) -> badd feq iadd fuel (canon_bs o s) c q = (canon_bs o s', BYes).
Proof.
  intros E Hpq. unfold badd in *. change (bcontains feq (canon_bs o s) c) with (bcontains feq s c). destruct (bcontains feq s c); [discriminate|].
  assert (Num : badd_num feq s c p = (s', BYes) -> badd_num feq (canon_bs o s) c q = (canon_bs o s', BYes)).
  { unfold badd_num. intros N. destruct (hadd feq (bs_h s) (bc_c c) p) as [h|] eqn:Eh; [|discriminate]. injection N as <-. cbn in Hpq. rewrite <- (Hpq eq_refl).
    cbn [canon_bs bs_h]. rewrite (hadd_canon o _ _ _ _ Eh). reflexivity. }
  destruct (bc_con c) as [x|] eqn:Ec; [|apply Num, E]. cbn [canon_bs bs_e]. rewrite add_with_rhs.
  destruct (add iadd fuel (bs_e s) x) as [e r]. destruct r; try discriminate; [|apply Num, E].
  injection E as <-. unfold changed, canon_bs. cbn. f_equal. f_equal.
  unfold neutrals. rewrite map_app. cbn. unfold bc_con in Ec. destruct (as_explicit (bc_k c)); [|discriminate]. injection Ec as <-. reflexivity.
Qed.
Lemma canon_bs_rhs o (s : bs) h rl : canon o h = canon o (bs_h s) -> canon_bs o (bs_rhs s h rl) = canon_bs o s.
Proof. intros H. unfold canon_bs, bs_rhs. cbn. rewrite H. reflexivity. Qed.

Lemma reload (s : bs) l : breach s l -> forall o lp, same_list lp l ->
  exists fuel0, forall fuel, fuel0 <= fuel -> load_loop feq iadd fuel (start o) lp = Some (canon_bs o s).
Proof.
  induction 1 as [|s l c p fuel s' R IH W A E|s l c p fuel s' R IH W A E|s l c x s' b R IH M H|s l v s' R IH M H|s l q s' R IH M H|s l b R IH h]; intros o lp SL.
  - inversion SL; subst. exists 0. intros fuel _. reflexivity.
  - apply same_list_snoc in SL as (lp' & q & -> & SL & _). destruct (IH o lp' SL) as (f0 & IH').
    exists (Nat.max f0 fuel). intros k Hk. rewrite load_loop_app, IH' by lia. cbn [load_loop fst].
    rewrite (badd_mono fuel k (canon_bs o s) c q (canon_bs o s') BYes); [reflexivity|lia|discriminate|].
    eapply badd_canon; [exact A|]. intros Hx. rewrite E in Hx. exfalso. apply (f_equal (@length _)) in Hx. rewrite app_length in Hx. cbn in Hx. lia.
  - apply same_list_snoc in SL as (lp' & q & -> & SL & Hq). destruct (IH o lp' SL) as (f0 & IH').
    exists (Nat.max f0 fuel). intros k Hk. rewrite load_loop_app, IH' by lia. cbn [load_loop fst].
    rewrite (badd_mono fuel k (canon_bs o s) c q (canon_bs o s') BYes); [reflexivity|lia|discriminate|].
    eapply badd_canon; [exact A|]. intros _. symmetry. apply Hq. reflexivity.
  - assert (canon_bs o s' = canon_bs o s) as ->; [|apply IH, SL]. unfold bset_of in H.
    destruct (set_rhs_of feq (bs_h s) (bc_f c) x) as [[h []]|] eqn:Eh; [| |discriminate].
    + injection H as <- <-. apply canon_bs_rhs. eapply canon_set, Eh.
    + destruct (as_explicit (bc_k c)); [|injection H as <- <-; reflexivity].
      destruct (set_rhs_con _ _ _ _ _) as [[rl b']|]; [|discriminate]. injection H as <- <-. apply canon_bs_rhs. reflexivity.
  - assert (canon_bs o s' = canon_bs o s) as ->; [|apply IH, SL]. unfold bset_whole in H.
    destruct (_ && _); [|discriminate]. destruct (set_rhs_whole _ _) as [h|] eqn:Eh; [|discriminate]. destruct (set_all _ _ _); [|discriminate].
    injection H as <-. apply canon_bs_rhs. eapply canon_whole, Eh.
  - assert (canon_bs o s' = canon_bs o s) as ->; [|apply IH, SL]. unfold bconfig in H.
    destruct (rhs_config zero (bs_h s) q) as [h|] eqn:Eh; [|discriminate]. destruct (from_input_all _ _ _ _); [|discriminate].
    injection H as <-. apply canon_bs_rhs. eapply canon_config, Eh.
  - exact (IH o lp SL).
Qed.

Lemma saved_list (s : bs) l : breach s l ->
  same_list (map (fun c => (c, prio_of feq (prio (bs_h s)) (bc_f c))) (bs_cons s)) l.
Proof.
  intros R. pose proof (breach_inv feq zero iadd mem okq P n m HF _ _ R) as I. rewrite (bi_cons _ _ _ _ _ _ _ _ _ _ I).
  destruct (layout feq zero mem okq EQ _ _ (bi_h _ _ _ _ _ _ _ _ _ _ I)) as (_ & _ & _ & Lp & _).
  assert (G : forall c p, In (c, Numerically p) l -> prio_of feq (prio (bs_h s)) (bc_f c) = p).
  { intros c p Hc. assert (Hn : In (bc_c c, p) (numeric_ones l)) by (apply numeric_In; exists c; auto).
    apply In_nth_error in Hn as [k Hk]. destruct (Lp k _ _ Hk) as (Lf & _). unfold prio_of, bc_f. rewrite Lf. reflexivity. }
  clear -G. unfold same_list. induction l as [|[c h] l IH]; [constructor|]. cbn. constructor; [|apply IH; intros; apply G; right; assumption].
  split; [reflexivity|]. cbn. intros p ->. apply G. left. reflexivity.
Qed.

Lemma save_load (eps : T) (x : full F V T) l : breach (f_s x) l ->
  exists fuel0, forall fuel, fuel0 <= fuel ->
  bload feq iadd eps fuel (bsave feq x) =
    Some (mkfull (canon_bs (last_optional (bs_h (f_s x))) (f_s x)) (f_sq x) (f_ineq x) (f_maxit x) None eps 0).
Proof.
  intros R. pose proof (breach_inv feq zero iadd mem okq P n m HF _ _ R) as I.
  destruct (bi_e _ _ _ _ _ _ _ _ _ _ I) as (st & Rst & Es). pose proof (reach_inv iadd P n m st HF Rst) as Iv.
  assert (En : nq (bs_e (f_s x)) = n) by (rewrite Es; apply (i_nq _ _ _ _ _ Iv)).
  assert (Em : nv (bs_e (f_s x)) = m) by (rewrite Es; apply (i_nv _ _ _ _ _ Iv)).
  destruct (reload _ _ R (last_optional (bs_h (f_s x))) _ (saved_list _ _ R)) as (f0 & H). exists f0. intros fuel Hf.
  unfold bload, bsave. cbn [a_opt a_nq a_nv a_cons a_sq a_ineq a_maxit]. rewrite En, Em. fold (start (last_optional (bs_h (f_s x)))).
  change (mkbs _ (init n m) [] [] [(0%Z, m)]) with (start (last_optional (bs_h (f_s x)))). rewrite H by exact Hf. reflexivity.
Qed.

Lemma card0 s : nonneg s -> cardinal s = 0%Z -> forall i, ~ covers s i.
Proof.
  intros N E i C. rewrite cardinal_indices in E by exact N. apply In_indices in C.
  destruct (indices s); [exact C|cbn in E; lia].
Qed.
Lemma nocover_card s : nonneg s -> (forall i, ~ covers s i) -> cardinal s = 0%Z.
Proof.
  intros N E. rewrite cardinal_indices by exact N. destruct (indices s) as [|a l] eqn:Q; [reflexivity|].
  exfalso. apply (E a). apply In_indices. rewrite Q. left. reflexivity.
Qed.
Lemma load_fits (eps : T) (x : full F V T) l : breach (f_s x) l ->
  exists fuel0, forall fuel, fuel0 <= fuel -> exists y, bload feq iadd eps fuel (bsave feq x) = Some y /\
  (je_fits y = true <-> forall i, inputv (excons l) i -> outputv (excons l) i).
Proof.
  intros R. destruct (save_load eps x l R) as (f0 & H). exists f0. intros fuel Hf. eexists. split; [exact (H fuel Hf)|].
  pose proof (breach_inv feq zero iadd mem okq P n m HF _ _ R) as I.
  destruct (bi_e _ _ _ _ _ _ _ _ _ _ I) as (st & Rst & Es). pose proof (bi_data _ _ _ _ _ _ _ _ _ _ I) as D.
  destruct (index_sets iadd P n m HF st Rst) as (_ & _ & _ & _ & S2 & S3 & S4).
  assert (D' : data st = excons l) by (rewrite <- D, Es; reflexivity). rewrite D' in S2, S3.
  unfold je_fits, canon_bs. cbn [f_s f_je bs_e]. rewrite Es. cbn [with_rhs inDers notOutDers].
  pose proof (reach_inv iadd P n m st HF Rst) as Iv. destruct (i_invn _ _ _ _ _ Iv) as [SS _].
  split.
  - intros E i Hi. apply orb_true_iff in E as [E|E].
    + destruct (covers_dec (inDers st) i) as [C|C].
      * exfalso. apply Z.eqb_eq in E. apply (card0 _ SS E i C).
      * destruct (outputv_dec (excons l) i) as [O|O]; [exact O|]. exfalso. apply C, S3. auto.
    + destruct (outputv_dec (excons l) i) as [O|O]; [exact O|]. exfalso.
      assert (B : (0 <= i < m)%Z) .
      { destruct Hi as (c & Hc & sg & Hs & Hc'). rewrite <- D' in Hc. apply (i_P _ _ _ _ _ Iv) in Hc.
        destruct HF as (_ & _ & W & _). destruct (W c Hc) as (_ & _ & _ & _ & W1 & _). specialize (W1 sg Hs). unfold in_seg in Hc'. lia. }
      assert (C : covers (notOutDers st) i) by (apply S2; auto). destruct C as (sg & Hs & Hc).
      rewrite forallb_forall in E. specialize (E sg Hs). unfold seg_inb, send in E. destruct sg as [a b]. unfold in_seg in Hc. cbn in E, Hc. lia.
  - intros A. apply orb_true_iff. left. apply Z.eqb_eq. apply (nocover_card _ SS). intros i C. apply S3 in C as [C1 C2]. apply C2, A, C1.
Qed.
Lemma canon_keeps o (s : bs) :
  let s' := canon_bs o s in
  bs_cons s' = bs_cons s /\ bs_ex s' = bs_ex s /\ bs_free s' = bs_free s /\ data (bs_e s') = data (bs_e s) /\ order (bs_e s') = order (bs_e s) /\
  hcons (bs_h s') = hcons (bs_h s) /\ prio (bs_h s') = prio (bs_h s) /\ iqm (bs_h s') = iqm (bs_h s) /\ ivm (bs_h s') = ivm (bs_h s) /\
  map l_cons (lvls (bs_h s')) = map l_cons (lvls (bs_h s)) /\ last_optional (bs_h s') = o /\
  rhsl (bs_e s') = map (fun c => s_neutral (ic_s (bc_c c))) (bs_ex s) /\
  (forall lv, In lv (lvls (bs_h s')) -> l_rhs lv = concat (map (fun c => s_neutral (ic_s c)) (l_cons lv))).
Proof.
  cbv zeta. cbn. repeat split. { rewrite map_map. reflexivity. }
  intros lv H. apply in_map_iff in H as (l0 & <- & _). reflexivity.
Qed.
End Save.
