From Coq Require Import List Bool Arith Lia.
From Verif Require Import HeapModel HeapSpec HeapProofs HeapMain HeapInv.
Import ListNotations.
Local Open Scope nat_scope.

Section M.
Context {F K R I : Type}.
Variables (feq : F -> F -> bool) (extract_ : R -> I -> R).
Notation world := (world F K R).
Notation slv := (slv F).
Notation cell := (cell F K R).
Notation step := (@step F K R I feq extract_).
Notation reach := (@reach F K R I feq extract_).
Implicit Types (w : world) (s : slv) (l : list slv).

(** Adding to a solver. *)
Lemma add_own w l i c p w' l' s : reach (w, l) -> step (w, l) (Add i c p) = Some (w', l') -> nth_error l i = Some s ->
  exists s' x, nth_error l' i = Some s' /\ nth_error (cells w) c = Some x /\ cells w' = cells w /\
    (forall j, j <> i -> nth_error l' j = nth_error l j) /\
    sound w' s' /\ settled s' /\ sv_cons s' = sv_cons s ++ [c] /\ sv_ex s' = sv_ex s /\
    (forall k, k <> p -> option_map lv_cons (nth_error (sv_levels s') k) =
       match nth_error (sv_levels s) k with Some lv => Some (lv_cons lv) | None => if k <? p then Some [] else None end) /\
    option_map lv_cons (nth_error (sv_levels s') p) = Some (match nth_error (sv_levels s) p with Some lv => lv_cons lv | None => [] end ++ [c]) /\
    (sound w s -> sv_iq s' = sv_iq s ++ [(cl_f x, match nth_error (sv_levels s) p with Some lv => total w (lv_cons lv) | None => (0, 0) end)]).
Proof.
  intros Rc E Hi. pose proof (reach_inv _ _ _ Rc) as (I1 & I2 & _). cbn in E. rewrite Hi in E.
  destruct (hadd feq w s c p) as [[w1 s1]|] eqn:Eh; [|discriminate]. injection E as <- <-.
  destruct (hadd_spec feq w s c p w1 s1 (I1 s (nth_error_In _ _ Hi)) (nodup_owns l i s I2 Hi) Eh) as (A & B & C & D & St & So & _ & Hc & E1 & E2 & (x & X1 & X2) & L1 & L2).
  exists s1, x. split; [eapply upd_nth_ex; eauto|]. split; [exact X1|]. split; [exact A|]. split; [intros j Hj; now apply nth_upd_other|].
  split; [exact So|]. split; [exact St|]. split; [exact E1|]. split; [exact E2|]. split; [exact L1|]. split; [exact L2|].
  intros S. rewrite X2. do 3 f_equal. unfold offset. destruct (nth_error (sv_levels s) p) as [lv|] eqn:Ev; [|reflexivity].
  destruct (S lv (nth_error_In _ _ Ev)) as [S1 _]. now rewrite S1.
Qed.
Lemma addx_own w l i c w' l' s : reach (w, l) -> step (w, l) (AddExplicit i c) = Some (w', l') -> nth_error l i = Some s ->
  exists s', nth_error l' i = Some s' /\ w' = w /\ (forall j, j <> i -> nth_error l' j = nth_error l j) /\
    sound w' s' /\ settled s' /\ sv_cons s' = sv_cons s ++ [c] /\ sv_ex s' = sv_ex s ++ [c] /\ sv_iq s' = sv_iq s /\
    map lv_cons (sv_levels s') = map lv_cons (sv_levels s).
Proof.
  intros Rc E Hi. pose proof (reach_inv _ _ _ Rc) as (I1 & I2 & _). cbn in E. rewrite Hi in E.
  destruct (xadd w s c) as [s1|] eqn:Eh; [|discriminate]. injection E as <- <-.
  destruct (xadd_spec w s c s1 (I1 s (nth_error_In _ _ Hi)) Eh) as (_ & _ & St & So & _ & E1 & E2 & E3 & E4).
  exists s1. split; [eapply upd_nth_ex; eauto|]. split; [reflexivity|]. split; [intros j Hj; now apply nth_upd_other|]. auto 10.
Qed.

Lemma frame_sound w w' s s' : good w s -> grows w w' -> sv_levels s' = sv_levels s ->
  (forall lv, In lv (sv_levels s) -> nth_error (spaces w') (lv_out lv) = nth_error (spaces w) (lv_out lv)) -> sound w s -> sound w' s'.
Proof.
  intros (_ & _ & G) Gr E H S lv Hv. rewrite E in Hv. destruct (S lv Hv) as [S1 S2]. destruct (G lv Hv) as [G1 _].
  rewrite (total_grows w w' _ Gr G1), (H lv Hv). auto.
Qed.

(** Solvers with their own spaces are not disturbed. *)
Lemma settled_keeps w l o w' l' i s : reach (w, l) -> step (w, l) o = Some (w', l') -> nth_error l i = Some s -> ~ touches o i ->
  settled s -> sound w s -> exists s', nth_error l' i = Some s' /\ sv_levels s' = sv_levels s /\ sv_cons s' = sv_cons s /\ sv_iq s' = sv_iq s /\ settled s' /\ sound w' s'.
Proof.
  intros Rc E Hi T St So. pose proof (reach_inv _ _ _ Rc) as Iv. pose proof Iv as (I1 & I2 & _).
  destruct (step_frame _ _ w l o w' l' i s Iv E Hi) as (G & Sp & s' & Hs & L & _).
  assert (L' : sv_levels s' = sv_levels s /\ sv_cons s' = sv_cons s /\ sv_iq s' = sv_iq s) by (apply L; [intros c p Q; apply T; left; eauto|intros c Q; apply T; right; eauto]). clear L. destruct L' as (L & L2 & L3).
  exists s'. split; [exact Hs|]. split; [exact L|]. split; [exact L2|]. split; [exact L3|]. split; [intros lv Hv; rewrite L in Hv; auto|].
  apply (frame_sound w w' s s' (I1 s (nth_error_In _ _ Hi)) G L); [|exact So]. intros lv Hv. apply Sp.
  - rewrite (St lv Hv). eapply owns_lt; [apply I1; eapply nth_error_In, Hi|now apply in_map].
  - intros j c p sj lj -> Hj Hl Q. apply T. left. exists c, p. f_equal. apply (owner_unique l j i sj s (lv_own lj)); auto.
    + apply in_map. eapply nth_error_In, Hl.
    + rewrite <- Q, (St lv Hv). now apply in_map.
Qed.
(** Only adding to an older solver may spoil a solver. *)
Lemma sound_keeps w l o w' l' i s : reach (w, l) -> step (w, l) o = Some (w', l') -> nth_error l i = Some s ->
  (forall k c p, o = Add k c p -> i <= k) -> sound w s -> exists s', nth_error l' i = Some s' /\ sound w' s'.
Proof.
  intros Rc E Hi T So. pose proof (reach_inv _ _ _ Rc) as Iv. pose proof Iv as (I1 & I2 & I3).
  assert (D : touches o i \/ ~ touches o i).
  { destruct o as [c| |j|j r|j r|j c p|j c|c k]; try (right; intros [(? & ? & ?)|(? & ?)]; discriminate).
    - destruct (Nat.eq_dec j i) as [->|N]; [left; left; eauto|right]. intros [(? & ? & Q)|(? & ?)]; [injection Q as ->; auto|discriminate].
    - destruct (Nat.eq_dec j i) as [->|N]; [left; right; eauto|right]. intros [(? & ? & Q)|(? & Q)]; [discriminate|injection Q as ->; auto]. }
  destruct D as [[(c & p & ->)|(c & ->)]|D].
  - destruct (add_own _ _ _ _ _ _ _ _ Rc E Hi) as (s' & x & A & _ & _ & _ & B & _). eauto.
  - destruct (addx_own _ _ _ _ _ _ _ Rc E Hi) as (s' & A & _ & _ & B & _). eauto.
  - destruct (step_frame _ _ w l o w' l' i s Iv E Hi) as (G & Sp & s' & Hs & L & _).
    assert (L' : sv_levels s' = sv_levels s /\ sv_cons s' = sv_cons s /\ sv_iq s' = sv_iq s) by (apply L; [intros c p Q; apply D; left; eauto|intros c Q; apply D; right; eauto]). clear L. destruct L' as (L & _).
    exists s'. split; [exact Hs|]. apply (frame_sound w w' s s' (I1 s (nth_error_In _ _ Hi)) G L); [|exact So]. intros lv Hv.
    destruct (I3 i s lv Hi Hv) as (j & sj & J1 & J2 & J3). apply Sp.
    + eapply owns_lt; [apply I1; eapply nth_error_In, J2|exact J3].
    + intros k c p sk lk -> Hk Hl Q. pose proof (T k c p eq_refl). assert (j = k).
      { apply (owner_unique l j k sj sk (lv_own lk)); auto; [congruence|]. apply in_map. eapply nth_error_In, Hl. }
      apply D. left. exists c, p. f_equal. lia.
Qed.

(** copies *)
Lemma get_len w q cs : get_cells w q = Some cs -> length cs = length q.
Proof.
  revert cs. induction q as [|a q IH]; intros cs H; cbn in H; [now injection H as <-|].
  destruct (nth_error (cells w) a); [|discriminate]. destruct (get_cells w q); [|discriminate]. injection H as <-. cbn. f_equal. auto.
Qed.
Lemma map_nth_all {A B C} (f : A -> C) (g : B -> C) (l1 : list A) (l2 : list B) : length l1 = length l2 ->
  (forall k x, nth_error l2 k = Some x -> exists y, nth_error l1 k = Some y /\ f y = g x) -> map f l1 = map g l2.
Proof.
  revert l2. induction l1 as [|a l1 IH]; intros [|b l2] L H; cbn in L; try discriminate; [reflexivity|]. cbn. f_equal.
  - destruct (H 0 b eq_refl) as (y & E & Q). cbn in E. injection E as ->. exact Q.
  - apply IH; [lia|]. intros k x Hk. exact (H (S k) x Hk).
Qed.
Lemma hcopy_copies w s w' r m : good w s -> hcopy w s = Some (w', r, m) -> copies w w' s r (repl m) /\ sv_ex r = sv_ex s /\
  (forall p, p < length (cells w) -> nth_error (cells w') (repl m p) = nth_error (cells w) p).
Proof.
  intros G H. destruct (hcopy_spec w s w' r m H) as (cs & sp & Hg & -> & Hsp & Hc & Hm & Hq & Hx & Ho & Hn & Hl).
  pose proof (get_len w _ _ Hg) as Hlen. split; [|split; [exact Hx|]].
  - split; [intros p Hp; cbn; now rewrite nth_error_app1|]. split; [intros a Ha; cbn; now rewrite nth_error_app1|].
    split; [now rewrite Hc, Hlen|]. split; [cbn; rewrite app_length; lia|]. split; [|split; [|split; [|exact Hq]]].
    + intros p Hp. unfold repl. destruct (lookup m p) as [q|] eqn:El.
      * apply lookup_in in El. rewrite Hm in El. now apply in_combine_r in El.
      * exfalso. apply lookup_none in El. apply El. rewrite Hm. clear -Hp Hc Hlen.
        assert (L : length (sv_cons r) = length (sv_cons s)) by (rewrite Hc, seq_length; exact Hlen). clear Hc Hlen. revert Hp L. generalize (sv_cons r).
        induction (sv_cons s) as [|a t IH]; intros [|b u] H L; cbn in *; try discriminate; [destruct H|]. destruct H as [->|H]; [now left|right]. apply IH; auto.
    + intros p Hp. unfold repl. destruct (lookup m p) as [q|] eqn:El; [|reflexivity]. apply lookup_in in El. rewrite Hm in El. apply in_combine_l in El. contradiction.
    + apply map_nth_all; [exact Hn|]. intros k lv Hk. destruct (Hl k lv Hk) as (_ & E & _). eexists. split; [exact E|reflexivity].
  - intros p Hp. rewrite Hm, Hc. cbn. apply (repl_copy w cs (sv_cons s) p Hg Hp).
Qed.
Lemma copy_spec w l i w' l' s : reach (w, l) -> step (w, l) (Copy i) = Some (w', l') -> nth_error l i = Some s ->
  exists r g, l' = l ++ [r] /\ copies w w' s r g /\ sv_ex r = map g (sv_ex s) /\
    (forall p, p < length (cells w) -> nth_error (cells w') (g p) = nth_error (cells w) p) /\ (sound w s -> sound w' r).
Proof.
  intros Rc E Hi. pose proof (reach_inv _ _ _ Rc) as Iv. pose proof Iv as (I1 & I2 & I3). pose proof (I1 s (nth_error_In _ _ Hi)) as Gs.
  cbn in E. rewrite Hi in E. unfold bcopy in E. destruct (hcopy w s) as [[[w1 r] m]|] eqn:Ec; [|discriminate]. injection E as <- <-.
  destruct (hcopy_copies w s w1 r m Gs Ec) as (A & B & C). exists (mkslv (sv_cons r) (sv_levels r) (sv_iq r) (map (repl m) (sv_ex r))), (repl m).
  split; [reflexivity|]. split; [exact A|]. split; [cbn; now rewrite B|]. split; [exact C|].
  intros S lv Hv. cbn in Hv. destruct (hcopy_all w s w1 r m Gs Ec) as (_ & Sp & _ & _ & _ & _ & _ & _ & L). destruct (L lv Hv) as (l0 & L1 & L2 & L3 & L4).
  destruct (S l0 L1) as [S1 S2]. rewrite L2, L3, L4. split; [|exact S2]. rewrite Sp; [exact S1|]. apply nth_error_Some. congruence.
Qed.

(** extract *)
Lemma extract_common w w1 s r (m : list (nat * nat)) i0 cs : good w s -> hcopy w s = Some (w1, r, m) -> extract_all extract_ i0 (cells w1) (sv_cons r) = Some cs ->
  let w' := mkworld cs (spaces w1) in copies w w' s r (repl m) /\ sv_ex r = sv_ex s /\
  (forall p, In p (sv_cons s) -> nth_error cs (repl m p) = option_map (extracted extract_ i0) (nth_error (cells w) p)) /\ (sound w s -> sound w' r).
Proof.
  intros Gs Ec Ee w'. destruct (hcopy_copies w s w1 r m Gs Ec) as ((A1 & A2 & A3 & A4 & A5 & A6 & A7 & A8) & B & C).
  destruct (hcopy_all w s w1 r m Gs Ec) as (_ & Sp & Gr & _ & _ & _ & N & _ & L).
  destruct (extract_all_spec extract_ i0 _ _ _ N Ee) as (X1 & X2 & X3).
  assert (V : forall p, In p (sv_cons s) -> p < length (cells w)) by (apply Forall_forall, Gs).
  split; [|split; [exact B|split]].
  - split; [|split; [exact A2|split; [exact A3|split; [cbn; lia|auto]]]]. intros p Hp. cbn. rewrite X2; [apply A1; exact Hp|]. rewrite A3. intros Q. apply in_seq in Q. lia.
  - intros p Hp. rewrite X3 by (apply A5; exact Hp). now rewrite C by auto.
  - intros S lv Hv. destruct (L lv Hv) as (l0 & L1 & L2 & L3 & L4). destruct (S l0 L1) as [S1 S2]. destruct (extract_grows extract_ i0 w1 _ _ N Ee) as [G1 G2].
    rewrite (total_grows w1 w' _ G1) by (apply Gr; exact Hv). rewrite L2, L3, L4. split; [|exact S2]. cbn. rewrite Sp; [exact S1|]. apply nth_error_Some. congruence.
Qed.
Lemma hextract_spec w l i r0 w' l' s : reach (w, l) -> step (w, l) (HExtract i r0) = Some (w', l') -> nth_error l i = Some s ->
  exists r g, l' = l ++ [r] /\ copies w w' s r g /\
    (forall p, In p (sv_cons s) -> nth_error (cells w') (g p) = option_map (extracted extract_ r0) (nth_error (cells w) p)) /\ (sound w s -> sound w' r).
Proof.
  intros Rc E Hi. pose proof (reach_inv _ _ _ Rc) as (I1 & _). pose proof (I1 s (nth_error_In _ _ Hi)) as Gs.
  cbn in E. rewrite Hi in E. unfold hextract in E. destruct (hcopy w s) as [[[w1 r] m]|] eqn:Ec; [|discriminate].
  destruct (extract_all _ _ _ _) as [cs|] eqn:Ee; [|discriminate]. injection E as <- <-.
  destruct (extract_common w w1 s r m r0 cs Gs Ec Ee) as (A & B & C & D). exists r, (repl m). auto.
Qed.
Lemma bextract_spec w l i r0 w' l' s : reach (w, l) -> step (w, l) (BExtract i r0) = Some (w', l') -> nth_error l i = Some s ->
  exists r g s', l' = upd l i s' ++ [r] /\ copies w w' s r g /\ sv_ex r = map g (sv_ex s) /\
    (forall p, In p (sv_cons s) -> nth_error (cells w') (g p) = option_map (extracted extract_ r0) (nth_error (cells w) p)) /\ (sound w s -> sound w' r) /\
    sv_cons s' = sv_cons s /\ sv_levels s' = sv_levels s /\ sv_iq s' = sv_iq s /\ sv_ex s' = sv_ex r /\
    ex_data w' s' = ex_data w s.
Proof.
  intros Rc E Hi. pose proof (reach_inv _ _ _ Rc) as (I1 & _). pose proof (I1 s (nth_error_In _ _ Hi)) as Gs.
  cbn in E. rewrite Hi in E. unfold bextract, bcopy in E. destruct (hcopy w s) as [[[w1 r] m]|] eqn:Ec; [|discriminate].
  cbn [sv_cons] in E. destruct (extract_all _ _ _ _) as [cs|] eqn:Ee; [|discriminate]. injection E as <- <-.
  destruct (extract_common w w1 s r m r0 cs Gs Ec Ee) as (A & B & C & D).
  exists (mkslv (sv_cons r) (sv_levels r) (sv_iq r) (map (repl m) (sv_ex r))), (repl m), (mkslv (sv_cons s) (sv_levels s) (sv_iq s) (map (repl m) (sv_ex s))).
  split; [reflexivity|]. split; [exact A|]. split; [cbn; now rewrite B|]. split; [exact C|]. split; [exact D|]. cbn [sv_cons sv_levels sv_iq sv_ex]. rewrite B.
  do 4 (split; [reflexivity|]). unfold ex_data. cbn [sv_ex]. rewrite map_map. apply map_ext_in. intros p Hp. assert (Vp : p < length (cells w)) by (destruct Gs as (_ & Gx & _); rewrite Forall_forall in Gx; auto).
  destruct A as (A1 & _ & _ & _ & _ & A6 & _). destruct (in_dec Nat.eq_dec p (sv_cons s)) as [H|H].
  - cbn. rewrite (C p H). now destruct (nth_error (cells w) p).
  - rewrite (A6 p H). cbn. f_equal. apply A1. exact Vp.
Qed.

Lemma sound_readable w s : sound w s -> readable w s = true.
Proof.
  intros S. apply forallb_forall. intros lv Hv. destruct (S lv Hv) as [-> ->]. now rewrite !Nat.eqb_refl.
Qed.
Lemma reach_trans w l ops st : reach (w, l) -> run feq extract_ (w, l) ops = Some st -> reach st.
Proof.
  intros (o & E) H. exists (o ++ ops). revert E. generalize (@start F K R). induction o as [|a o IH]; intros st0 E; cbn in E; cbn [app HeapModel.run]; [injection E as ->; exact H|].
  destruct (HeapModel.step feq extract_ st0 a) as [st1|]; [|discriminate]. apply IH. exact E.
Qed.
(** Through a whole program. *)
Lemma run_keeps w l ops w' l' i s : reach (w, l) -> run feq extract_ (w, l) ops = Some (w', l') -> nth_error l i = Some s ->
  (forall k c p, In (Add k c p) ops -> i <= k) -> sound w s -> exists s', nth_error l' i = Some s' /\ sound w' s' /\ readable w' s' = true.
Proof.
  revert w l s. induction ops as [|o t IH]; intros w l s Rc E Hi T S; cbn [HeapModel.run] in E.
  - injection E as <- <-. exists s. auto using sound_readable.
  - destruct (step (w, l) o) as [[w1 l1]|] eqn:Es; [|discriminate].
    destruct (sound_keeps w l o w1 l1 i s Rc Es Hi) as (s1 & H1 & S1); auto; [intros k c p ->; eapply T; left; eauto|].
    apply (IH w1 l1 s1); auto; [|intros k c p H; eapply T; right; eauto].
    apply (reach_trans w l [o]); auto. cbn [HeapModel.run]. now rewrite Es.
Qed.
End M.
