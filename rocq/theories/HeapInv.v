From Coq Require Import List Bool Arith Lia Permutation.
From Verif Require Import HeapModel HeapSpec HeapProofs HeapMain.
Import ListNotations.
Local Open Scope nat_scope.

Section M.
Context {F K R I : Type}.
Variables (feq : F -> F -> bool) (extract_ : R -> I -> R).
Notation world := (world F K R).
Notation slv := (slv F).
Notation cell := (cell F K R).
Notation step := (@step F K R I feq extract_).
Notation run := (@run F K R I feq extract_).
Notation reach := (@reach F K R I feq extract_).
Implicit Types (w : world) (s : slv) (l : list slv).

Lemma upd_perm l : forall i s s' fr, nth_error l i = Some s -> owns s' = owns s ++ fr -> Permutation (flat_map owns (upd l i s')) (flat_map owns l ++ fr).
Proof.
  induction l as [|a l IH]; intros [|i] s s' fr H E; try discriminate.
  - injection H as ->. cbn. rewrite E, <- !app_assoc. apply Permutation_app_head. apply Permutation_app_comm.
  - change (upd (a :: l) (S i) s') with (a :: upd l i s'). cbn. rewrite <- app_assoc. apply Permutation_app_head. eapply IH; eauto.
Qed.
Lemma nodup_l {A} (a b : list A) : NoDup (a ++ b) -> NoDup a.
Proof. induction a as [|x a IH]; cbn; intros N; [constructor|]. inversion N; subst. constructor; [|auto]. intros H. apply H1, in_app_iff. auto. Qed.
Lemma nodup_r {A} (a b : list A) : NoDup (a ++ b) -> NoDup b.
Proof. induction a as [|x a IH]; cbn; intros N; [exact N|]. inversion N; subst. auto. Qed.
Lemma nodup_owns l i s : NoDup (flat_map owns l) -> nth_error l i = Some s -> NoDup (owns s).
Proof.
  revert i. induction l as [|a l IH]; intros [|i] N H; try discriminate; cbn in N.
  - injection H as ->. apply nodup_l in N. exact N.
  - apply (IH i); auto. now apply nodup_r in N.
Qed.
Lemma owner_unique l i j s s' a : NoDup (flat_map owns l) -> nth_error l i = Some s -> nth_error l j = Some s' -> In a (owns s) -> In a (owns s') -> i = j.
Proof.
  revert i j. induction l as [|b l IH]; intros i j N Hi Hj H1 H2; [destruct i; discriminate|]. cbn in N.
  assert (X : forall k x, nth_error l k = Some x -> In a (owns b) -> In a (owns x) -> False).
  { intros k x Hk A B. clear -N Hk A B. induction (owns b) as [|c t IHt]; [exact A|]. cbn in N. inversion N; subst. destruct A as [->|A]; [|auto].
    apply H1, in_app_iff. right. apply in_flat_map. exists x. split; [eapply nth_error_In, Hk|exact B]. }
  destruct i as [|i], j as [|j]; cbn in Hi, Hj; auto.
  - injection Hi as ->. exfalso. eapply X; eauto.
  - injection Hj as ->. exfalso. eapply X; eauto.
  - f_equal. apply (IH i j); auto. now apply nodup_r in N.
Qed.

(** links *)
Definition linked l i (lv : level) : Prop := exists j s', j <= i /\ nth_error l j = Some s' /\ In (lv_out lv) (owns s').

Lemma inv_upd w w' l i s s' fr : inv (w, l) -> nth_error l i = Some s -> grows w w' -> owns s' = owns s ++ fr -> NoDup fr ->
  (forall a, In a fr -> length (spaces w) <= a) -> good w' s' ->
  (forall a, a < length (spaces w) -> ~ In a (owns s) -> nth_error (spaces w') a = nth_error (spaces w) a) ->
  (forall lv, In lv (sv_levels s') -> linked (upd l i s') i lv) -> inv (w', upd l i s').
Proof.
  intros (I1 & I2 & I3) Hi G O N Fr G' Sp Lk. split; [|split].
  - intros x Hx. apply In_nth_error in Hx as [k Hk]. apply nth_upd in Hk as [[-> ->]|[Nk Hk]]; [exact G'|].
    pose proof (I1 x (nth_error_In _ _ Hk)) as Gx. eapply good_ext; [exact G| |exact Gx]. intros a Ha. apply Sp; [eapply owns_lt; eauto|].
    intros Hb. apply Nk. eapply owner_unique; eauto.
  - eapply Permutation_NoDup; [apply Permutation_sym; eapply upd_perm; eauto|]. apply nodup_app; auto.
    intros a Ha Hb. apply in_flat_map in Ha as (x & Hx & Ha). apply (owns_lt w) in Ha; [|apply I1; exact Hx]. apply Fr in Hb. lia.
  - intros k x lv Hk Hlv. apply nth_upd in Hk as [[-> ->]|[Nk Hk]]; [apply Lk; exact Hlv|].
    destruct (I3 k x lv Hk Hlv) as (j & y & J1 & J2 & J3). destruct (Nat.eq_dec j i) as [->|Nj].
    + exists i, s'. split; [exact J1|]. split; [apply nth_upd_same; apply nth_error_Some; congruence|]. rewrite O. apply in_app_iff. left. congruence.
    + exists j, y. split; [exact J1|]. split; [rewrite nth_upd_other by auto; exact J2|exact J3].
Qed.
Lemma inv_app w w' l r : inv (w, l) -> grows w w' -> (forall a, a < length (spaces w) -> nth_error (spaces w') a = nth_error (spaces w) a) ->
  good w' r -> NoDup (owns r) -> (forall a, In a (owns r) -> length (spaces w) <= a) ->
  (forall lv, In lv (sv_levels r) -> exists j s', nth_error l j = Some s' /\ In (lv_out lv) (owns s')) -> inv (w', l ++ [r]).
Proof.
  intros (I1 & I2 & I3) G Sp Gr N Fr Lk. split; [|split].
  - intros x Hx. apply in_app_iff in Hx as [Hx|[<-|[]]]; [|exact Gr]. eapply good_ext; [exact G| |apply I1; exact Hx].
    intros a Ha. apply Sp. eapply owns_lt; eauto.
  - rewrite flat_map_app. cbn. rewrite app_nil_r. apply nodup_app; auto. intros a Ha Hb. apply in_flat_map in Ha as (x & Hx & Ha).
    apply (owns_lt w) in Ha; [|apply I1; exact Hx]. apply Fr in Hb. lia.
  - intros k x lv Hk Hlv. destruct (lt_dec k (length l)) as [H|H].
    + rewrite nth_error_app1 in Hk by exact H. destruct (I3 k x lv Hk Hlv) as (j & y & J1 & J2 & J3). exists j, y.
      rewrite nth_error_app1 by lia. auto.
    + rewrite nth_error_app2 in Hk by lia. destruct (k - length l) as [|d] eqn:Q; [|destruct d; discriminate]. injection Hk as <-.
      destruct (Lk lv Hlv) as (j & y & J1 & J2). assert (j < length l) by (apply nth_error_Some; congruence). exists j, y. rewrite nth_error_app1 by lia. split; [lia|auto].
Qed.

(** facts on copies *)
Lemma hcopy_all w s w' r m : good w s -> hcopy w s = Some (w', r, m) ->
  grows w w' /\ (forall a, a < length (spaces w) -> nth_error (spaces w') a = nth_error (spaces w) a) /\ good w' r /\
  good w' (mkslv (sv_cons r) (sv_levels r) (sv_iq r) (map (repl m) (sv_ex r))) /\
  NoDup (owns r) /\ (forall a, In a (owns r) -> length (spaces w) <= a) /\ NoDup (sv_cons r) /\ (forall p, In p (sv_cons r) -> length (cells w) <= p < length (cells w')) /\
  (forall lv, In lv (sv_levels r) -> exists l0 : level, In l0 (sv_levels s) /\ lv_out lv = lv_out l0 /\ lv_len lv = lv_len l0 /\ total w' (lv_cons lv) = total w (lv_cons l0)).
Proof.
  intros G H. destruct (hcopy_good w s w' r m G H) as (A & B & C & D & E & L).
  destruct (hcopy_spec w s w' r m H) as (cs & sp & Hg & -> & Hsp & Hc & Hm & Hq & Hx & Ho & Hn & Hl).
  split; [exact A|]. split; [exact B|].
  assert (LL : forall lv, In lv (sv_levels r) -> Forall (fun p => p < length (cells (mkworld (cells w ++ cs) (spaces w ++ sp) : world))) (lv_cons lv) /\
    nth_error (spaces w ++ sp) (lv_own lv) = Some (total (mkworld (cells w ++ cs) (spaces w ++ sp)) (lv_cons lv))).
  { intros lv Hv. destruct (L lv Hv) as (L1 & L2 & _). auto. }
  split; [split; [exact C|split; [exact E|exact LL]]|].
  split; [split; [exact C|split; [rewrite Hx; exact D|exact LL]]|].
  rewrite Ho. split; [apply seq_NoDup|]. split; [intros a Ha; apply in_seq in Ha; lia|].
  rewrite Hc. split; [apply seq_NoDup|]. split; [intros p Hp; apply in_seq in Hp; cbn; rewrite app_length; lia|].
  intros lv Hv. destruct (L lv Hv) as (_ & _ & l0 & L1 & L2 & L3 & L4 & _). exists l0. auto.
Qed.

Lemma inv_swap w w' l : grows w w' -> (forall a, nth_error (spaces w') a = nth_error (spaces w) a) -> inv (w, l) -> inv (w', l).
Proof.
  intros G Sp (I1 & I2 & I3). split; [|split; auto]. intros s Hs. eapply good_ext; [exact G| |apply I1; exact Hs]. auto.
Qed.

Lemma upd_nth_ex {A} (l : list A) i x y : nth_error l i = Some x -> nth_error (upd l i y) i = Some y.
Proof. intros H. apply nth_upd_same. apply nth_error_Some. congruence. Qed.

Lemma upd_app {A} (l l2 : list A) i x : i < length l -> upd (l ++ l2) i x = upd l i x ++ l2.
Proof.
  revert i. induction l as [|a l IH]; intros [|i] H; cbn in H; try lia; [reflexivity|].
  change (a :: upd (l ++ l2) i x = a :: (upd l i x ++ l2)). f_equal. apply IH. lia.
Qed.
Lemma set_grows w c x k : nth_error (cells w) c = Some x -> grows w (mkworld (upd (cells w) c (mkcell (cl_f x) (cl_nq x) (cl_nv x) k (cl_rhs x))) (spaces w)).
Proof.
  intros E. split; cbn; [rewrite upd_length; lia|]. intros p Hp. unfold size. cbn. destruct (Nat.eq_dec p c) as [->|N].
  - rewrite nth_upd_same by exact Hp. now rewrite E.
  - now rewrite nth_upd_other.
Qed.
Lemma step_inv st o st' : inv st -> step st o = Some st' -> inv st'.
Proof.
  destruct st as [w l]. intros Iv E. pose proof Iv as (I1 & I2 & I3). destruct o as [c| |i|i r|i r|i c p|i c|c k]; cbn in E.
  - injection E as <-. eapply (inv_swap w); [apply (app_grows w [c])|reflexivity|exact Iv].
  - injection E as <-. apply (inv_app w w); auto; [apply grows_refl|split; [constructor|split; [constructor|intros lv []]]|constructor|intros a []|intros lv []].
  - destruct (nth_error l i) as [s|] eqn:Ei; [|discriminate]. unfold bcopy in E. destruct (hcopy w s) as [[[w' r] m]|] eqn:Ec; [|discriminate]. injection E as <-.
    destruct (hcopy_all w s w' r m (I1 s (nth_error_In _ _ Ei)) Ec) as (A & B & _ & C & D & E & _ & _ & L).
    apply (inv_app w w'); auto. intros lv Hv. destruct (L lv Hv) as (l0 & L1 & -> & _). destruct (I3 i s l0 Ei L1) as (j & s' & _ & J). eauto.
  - destruct (nth_error l i) as [s|] eqn:Ei; [|discriminate]. unfold hextract in E. destruct (hcopy w s) as [[[w' x] m]|] eqn:Ec; [|discriminate].
    destruct (extract_all _ _ _ _) as [cs|] eqn:Ee; [|discriminate]. injection E as <-.
    destruct (hcopy_all w s w' x m (I1 s (nth_error_In _ _ Ei)) Ec) as (A & B & C & _ & D & E & N & _ & L).
    destruct (extract_grows extract_ r w' _ _ N Ee) as [X1 X2].
    apply (inv_app w); auto; [eapply grows_trans; eauto|eapply good_ext; eauto|].
    intros lv Hv. destruct (L lv Hv) as (l0 & L1 & -> & _). destruct (I3 i s l0 Ei L1) as (j & s' & _ & J). eauto.
  - destruct (nth_error l i) as [s|] eqn:Ei; [|discriminate]. unfold bextract, bcopy in E. destruct (hcopy w s) as [[[w' x] m]|] eqn:Ec; [|discriminate].
    cbn [sv_cons] in E. destruct (extract_all _ _ _ _) as [cs|] eqn:Ee; [|discriminate]. injection E as <-.
    destruct (hcopy_all w s w' x m (I1 s (nth_error_In _ _ Ei)) Ec) as (A & B & _ & C & D & E & N & _ & L).
    destruct (extract_grows extract_ r w' _ _ N Ee) as [X1 X2]. set (w2 := mkworld cs (spaces w')) in *.
    set (s2 := mkslv (sv_cons s) (sv_levels s) (sv_iq s) (map (repl m) (sv_ex s))).
    assert (G2 : good w2 s2).
    { pose proof (I1 s (nth_error_In _ _ Ei)) as Gs. assert (G1 : good w2 s).
      { eapply (good_ext w); [exact (grows_trans w w' w2 A X1)| |exact Gs]. intros a Ha. apply B. eapply owns_lt; eauto. }
      destruct G1 as (P1 & P2 & P3). split; [exact P1|]. split; [|exact P3]. destruct C as (_ & C & _). cbn [sv_ex] in C.
      destruct (hcopy_spec w s w' x m Ec) as (_ & _ & _ & _ & _ & _ & _ & _ & Hx & _). rewrite Hx in C. eapply valid_grows; [exact X1|exact C]. }
    assert (Hi : i < length l) by (apply nth_error_Some; congruence).
    assert (Eu : upd l i s2 ++ [mkslv (sv_cons x) (sv_levels x) (sv_iq x) (map (repl m) (sv_ex x))] = upd (l ++ [mkslv (sv_cons x) (sv_levels x) (sv_iq x) (map (repl m) (sv_ex x))]) i s2).
    { symmetry. apply upd_app. exact Hi. }
    rewrite Eu. assert (V : inv (w2, l ++ [mkslv (sv_cons x) (sv_levels x) (sv_iq x) (map (repl m) (sv_ex x))])).
    { apply (inv_app w); auto; [eapply grows_trans; eauto|eapply good_ext; eauto|].
      intros lv Hv. destruct (L lv Hv) as (l0 & L1 & -> & _). destruct (I3 i s l0 Ei L1) as (j & s' & _ & J). eauto. }
    eapply (inv_upd w2 w2 _ i s s2 []); eauto; [now rewrite nth_error_app1|apply grows_refl|now rewrite app_nil_r|constructor|intros a []|].
    intros lv Hv. destruct (I3 i s lv Ei Hv) as (j & y & J1 & J2 & J3). destruct (Nat.eq_dec j i) as [->|Nj].
    + exists i, s2. split; [lia|]. split; [apply nth_upd_same; rewrite app_length; lia|]. assert (y = s) by congruence. subst y. exact J3.
    + exists j, y. split; [exact J1|]. split; [rewrite nth_upd_other, nth_error_app1 by (auto; lia); auto|exact J3].
  - destruct (nth_error l i) as [s|] eqn:Ei; [|discriminate]. destruct (hadd feq w s c p) as [[w' s']|] eqn:Eh; [|discriminate]. injection E as <-.
    pose proof (I1 s (nth_error_In _ _ Ei)) as Gs.
    destruct (hadd_spec feq w s c p w' s' Gs (nodup_owns l i s I2 Ei) Eh) as (A & B & C & D & St & So & (fr & O1 & O2 & O3) & _).
    eapply (inv_upd w w' l i s s' fr); eauto.
    + split; [rewrite A; lia|]. intros q Hq. unfold size. now rewrite A.
    + intros a Ha Hb. apply C; [exact Ha|]. intros lv Hv ->. apply Hb. apply in_map. eapply nth_error_In, Hv.
    + intros lv Hv. exists i, s'. split; [lia|]. split; [eapply upd_nth_ex; eauto|]. rewrite (St lv Hv). now apply in_map.
  - destruct (nth_error l i) as [s|] eqn:Ei; [|discriminate]. destruct (xadd w s c) as [s'|] eqn:Eh; [|discriminate]. injection E as <-.
    destruct (xadd_spec w s c s' (I1 s (nth_error_In _ _ Ei)) Eh) as (_ & D & St & So & O & _).
    eapply (inv_upd w w l i s s' []); eauto; [apply grows_refl|now rewrite app_nil_r|constructor|intros a []|].
    intros lv Hv. exists i, s'. split; [lia|]. split; [eapply upd_nth_ex; eauto|]. rewrite (St lv Hv). now apply in_map.
  - destruct (nth_error (cells w) c) as [x|] eqn:Ec; [|discriminate]. injection E as <-. eapply (inv_swap w); [|reflexivity|exact Iv].
    apply set_grows. exact Ec.
Qed.
Lemma reach_inv st : reach st -> inv st.
Proof.
  intros (ops & E). assert (G : forall ops st0 st1, inv st0 -> run st0 ops = Some st1 -> inv st1).
  { intros o. induction o as [|a t IH]; intros st0 st1 H E'; cbn in E'; [now injection E' as <-|]. destruct (step st0 a) as [st2|] eqn:Es; [|discriminate].
    eapply IH; [|exact E']. eapply step_inv; eauto. }
  eapply G; [|exact E]. split; [intros s []|]. split; [constructor|]. intros [|i] s lv; discriminate.
Qed.

(** effect of a step on the solvers that exist *)
Lemma step_frame w l o w' l' i s : inv (w, l) -> step (w, l) o = Some (w', l') -> nth_error l i = Some s ->
  grows w w' /\
  (forall a, a < length (spaces w) -> (forall j c p sj lv, o = Add j c p -> nth_error l j = Some sj -> nth_error (sv_levels sj) p = Some lv -> a <> lv_own lv) ->
     nth_error (spaces w') a = nth_error (spaces w) a) /\
  exists s', nth_error l' i = Some s' /\
    ((forall c p, o <> Add i c p) -> (forall c, o <> AddExplicit i c) -> sv_levels s' = sv_levels s /\ sv_cons s' = sv_cons s /\ sv_iq s' = sv_iq s) /\
    ((forall r, o <> BExtract i r) -> (forall c p, o <> Add i c p) -> (forall c, o <> AddExplicit i c) -> s' = s).
Proof.
  intros Iv E Hi. pose proof Iv as (I1 & I2 & I3). assert (Li : i < length l) by (apply nth_error_Some; congruence).
  destruct o as [c| |j|j r|j r|j c p|j c|c k]; cbn in E.
  - injection E as <- <-. split; [apply (app_grows w [c])|]. split; [reflexivity|]. exists s. auto.
  - injection E as <- <-. split; [apply grows_refl|]. split; [reflexivity|]. exists s. rewrite nth_error_app1 by exact Li. auto.
  - destruct (nth_error l j) as [sj|] eqn:Ej; [|discriminate]. unfold bcopy in E. destruct (hcopy w sj) as [[[w1 r] m]|] eqn:Ec; [|discriminate]. injection E as <- <-.
    destruct (hcopy_all w sj w1 r m (I1 sj (nth_error_In _ _ Ej)) Ec) as (A & B & _). split; [exact A|]. split; [auto|]. exists s. rewrite nth_error_app1 by exact Li. auto.
  - destruct (nth_error l j) as [sj|] eqn:Ej; [|discriminate]. unfold hextract in E. destruct (hcopy w sj) as [[[w1 x] m]|] eqn:Ec; [|discriminate].
    destruct (extract_all _ _ _ _) as [cs|] eqn:Ee; [|discriminate]. injection E as <- <-.
    destruct (hcopy_all w sj w1 x m (I1 sj (nth_error_In _ _ Ej)) Ec) as (A & B & _ & _ & _ & _ & N & _).
    destruct (extract_grows extract_ r w1 _ _ N Ee) as [X1 X2]. split; [eapply grows_trans; eauto|]. split; [auto|]. exists s. rewrite nth_error_app1 by exact Li. auto.
  - destruct (nth_error l j) as [sj|] eqn:Ej; [|discriminate]. unfold bextract, bcopy in E. destruct (hcopy w sj) as [[[w1 x] m]|] eqn:Ec; [|discriminate].
    cbn [sv_cons] in E. destruct (extract_all _ _ _ _) as [cs|] eqn:Ee; [|discriminate]. injection E as <- <-.
    destruct (hcopy_all w sj w1 x m (I1 sj (nth_error_In _ _ Ej)) Ec) as (A & B & _ & _ & _ & _ & N & _).
    destruct (extract_grows extract_ r w1 _ _ N Ee) as [X1 X2]. split; [eapply grows_trans; eauto|]. split; [auto|].
    rewrite nth_error_app1 by (rewrite upd_length; exact Li). destruct (Nat.eq_dec i j) as [->|Nj].
    + rewrite nth_upd_same by exact Li. eexists. split; [reflexivity|]. assert (sj = s) by congruence. subst sj. cbn. split; [auto|]. intros H. exfalso. apply (H r). reflexivity.
    + rewrite nth_upd_other by auto. exists s. auto.
  - destruct (nth_error l j) as [sj|] eqn:Ej; [|discriminate]. destruct (hadd feq w sj c p) as [[w1 s1]|] eqn:Eh; [|discriminate]. injection E as <- <-.
    destruct (hadd_spec feq w sj c p w1 s1 (I1 sj (nth_error_In _ _ Ej)) (nodup_owns l j sj I2 Ej) Eh) as (A & B & C & _).
    split; [split; [rewrite A; lia|]; intros q Hq; unfold size; now rewrite A|]. split.
    { intros a Ha H. apply C; [exact Ha|]. intros lv Hv. eapply H; eauto. }
    destruct (Nat.eq_dec i j) as [->|Nj].
    + rewrite nth_upd_same by exact Li. eexists. split; [reflexivity|]. split; [intros H; exfalso; apply (H c p); reflexivity|intros _ H; exfalso; apply (H c p); reflexivity].
    + rewrite nth_upd_other by auto. exists s. auto.
  - destruct (nth_error l j) as [sj|] eqn:Ej; [|discriminate]. destruct (xadd w sj c) as [s1|] eqn:Eh; [|discriminate]. injection E as <- <-.
    split; [apply grows_refl|]. split; [reflexivity|]. destruct (Nat.eq_dec i j) as [->|Nj].
    + rewrite nth_upd_same by exact Li. eexists. split; [reflexivity|]. split; [intros _ H; exfalso; apply (H c); reflexivity|intros _ _ H; exfalso; apply (H c); reflexivity].
    + rewrite nth_upd_other by auto. exists s. auto.
  - destruct (nth_error (cells w) c) as [x|] eqn:Ec; [|discriminate]. injection E as <- <-. split; [apply set_grows; exact Ec|]. split; [reflexivity|]. exists s. auto.
Qed.
End M.
