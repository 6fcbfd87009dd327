From Coq Require Import ZArith List Bool Lia.
From Verif Require Import SegSpec SegModel EcsModel EcsSpec EcsRhsModel EcsRhsSpec EcsRhsProofs EcsMainProofs EcsFinalProofs.
From Verif Require Import ImplModel ImplSpec ImplProofs HierModel HierSpec HierProofs HierRhsProofs BySubModel BySubSpec BySubProofs.
Import ListNotations.
Local Open Scope nat_scope.

Section Sub.
Context {F : Type}.
Variable feq : F -> F -> bool.
Hypothesis EQ : equivalence feq.
Lemma submanifold_spec a b : submanifold feq a b = true <-> forall f, In f b -> exists g, In g a /\ feq g f = true.
Proof. unfold submanifold. rewrite forallb_forall. split; intros H f Hf; apply existsb_exists, H, Hf. Qed.
Lemma submanifold_refl a : submanifold feq a a = true.
Proof. apply submanifold_spec. intros f Hf. exists f. split; [exact Hf|]. destruct EQ as (E & _). apply E. Qed.
Lemma submanifold_trans a b c : submanifold feq a b = true -> submanifold feq b c = true -> submanifold feq a c = true.
Proof.
  rewrite !submanifold_spec. intros H1 H2 f Hf. destruct (H2 f Hf) as (g & G1 & G2). destruct (H1 g G1) as (k & K1 & K2).
  exists k. split; [exact K1|]. destruct EQ as (_ & _ & E). eapply E; eassumption.
Qed.
End Sub.

Section Merge.
Context {F V : Type}.
Variables (feq : F -> F -> bool) (zero : V) (iadd : Z -> Z -> Z) (mem : imp V -> list V -> Prop) (okq : (Z -> V) -> Prop).
Hypothesis EQ : equivalence feq.
Notation hreach := (HierSpec.hreach feq zero mem okq).

Lemma is_equal_fun (a b : impl F) : is_equal feq a b = true -> feq (m_fun a) (m_fun b) = true.
Proof. rewrite is_equal_spec. tauto. Qed.
Lemma is_equal_self (a : impl F) : (forall f, feq f f = true) -> is_equal feq a a = true.
Proof. intros H. apply (is_equal_equiv feq), H. Qed.
Lemma contains_fun (s : hs F V) c : contains feq s c = true -> exists d, In d (hcons s) /\ feq (ic_f d) (ic_f c) = true.
Proof.
  unfold contains. intros H. apply existsb_exists in H as (d & Hd & E). exists d. split; [exact Hd|].
  apply is_equal_fun in E. exact E.
Qed.
Lemma hadd_cons (s : hs F V) c p s' : hadd feq s c p = Some s' -> hcons s' = hcons s ++ [c].
Proof.
  unfold hadd. destruct (existsb _ _); [discriminate|]. destruct (nth_error _ _); [|discriminate]. intros H. injection H as <-. reflexivity.
Qed.

(** merging a list of constraints whose functions are pairwise different *)
Fixpoint distinct (cs : list (ic F V)) : Prop :=
  match cs with [] => True | c :: t => (forall d, In d t -> feq (ic_f c) (ic_f d) = false) /\ distinct t end.

Lemma hmerge_loop_spec pr cs : distinct cs -> (forall c, In c cs -> wf_ic zero mem okq c) -> forall (s : hs F V) adds, hreach s adds ->
  let ok c := contains feq s c = true \/ forall d, In d (hcons s) -> feq (ic_f d) (ic_f c) = false in
  exists new, hreach (fst (hmerge_loop feq s pr cs)) (adds ++ new) /\
    (forall c p, In (c, p) new -> In c cs /\ p = prio_of feq pr (ic_f c) /\ contains feq s c = false) /\
    (snd (hmerge_loop feq s pr cs) = true <-> forall c, In c cs -> ok c) /\
    (snd (hmerge_loop feq s pr cs) = true -> map fst new = filter (fun c => negb (contains feq s c)) cs).
Proof.
  induction cs as [|c cs IH]; intros D W s adds R; cbn [hmerge_loop].
  - exists []. rewrite app_nil_r. cbn. split; [exact R|]. split; [intros c p []|]. split; [split; [intros _ c []|reflexivity]|reflexivity].
  - destruct D as [D1 D2]. specialize (IH D2 (fun d Hd => W d (or_intror Hd))). cbv zeta.
    destruct (contains feq s c) eqn:Ec.
    + destruct (IH s adds R) as (new & A & B & C & E). exists new. split; [exact A|]. split; [|split].
      * intros d p Hd. destruct (B d p Hd) as (B1 & B2 & B3). split; [right; exact B1|auto].
      * rewrite C. split; [intros H d [<-|Hd]; [left; exact Ec|apply H, Hd]|intros H d Hd; apply H; right; exact Hd].
      * intros H. cbn [filter]. rewrite Ec. cbn. apply E, H.
    + destruct (hadd feq s c (prio_of feq pr (ic_f c))) as [s1|] eqn:Ea.
      * pose proof (hadd_cons _ _ _ _ Ea) as Hc1.
        assert (R1 : hreach s1 (adds ++ [(c, prio_of feq pr (ic_f c))])) by (eapply hr_add; [exact R|apply W; left; reflexivity|exact Ea]).
        assert (Hok : forall d, In d (hcons s) -> feq (ic_f d) (ic_f c) = false).
        { intros d Hd. destruct (feq (ic_f d) (ic_f c)) eqn:E; [|reflexivity]. exfalso.
          assert (Hx : hadd feq s c (prio_of feq pr (ic_f c)) = None); [|congruence].
          apply (hadd_throws feq zero mem okq s adds c _ (hreach_inv _ _ _ _ _ _ R)).
          destruct (layout feq zero mem okq EQ s adds R) as (L & _). rewrite L in Hd. apply in_map_iff in Hd as ([d' r] & <- & Hd). exists d', r. auto. }
        assert (Hsame : forall d, In d cs -> contains feq s1 d = contains feq s d).
        { intros d Hd. unfold contains. rewrite Hc1, existsb_app. cbn. rewrite orb_false_r.
          destruct (is_equal feq (ic_i c) (ic_i d)) eqn:E; [|rewrite orb_false_r; reflexivity].
          apply is_equal_fun in E. pose proof (D1 d Hd) as E'. unfold ic_f in E'. congruence. }
        destruct (IH s1 _ R1) as (new & A & B & C & E). exists ((c, prio_of feq pr (ic_f c)) :: new).
        split; [rewrite <- app_assoc in A; exact A|]. split; [|split].
        -- intros d p [Hd|Hd].
           ++ injection Hd as <- <-. split; [left; reflexivity|auto].
           ++ destruct (B d p Hd) as (B1 & B2 & B3). split; [right; exact B1|]. split; [exact B2|]. rewrite <- Hsame by exact B1. exact B3.
        -- rewrite C. split.
           ++ intros H d [<-|Hd]; [right; exact Hok|]. destruct (H d Hd) as [H1|H1]; [left; rewrite <- Hsame by exact Hd; exact H1|].
              right. intros e He. apply H1. rewrite Hc1. apply in_or_app. left. exact He.
           ++ intros H d Hd. destruct (H d (or_intror Hd)) as [H1|H1]; [left; rewrite Hsame by exact Hd; exact H1|].
              right. intros e He. rewrite Hc1 in He. apply in_app_or in He as [He|[<-|[]]]; [apply H1, He|apply D1, Hd].
        -- intros H. cbn [filter map fst]. rewrite Ec. cbn [negb]. f_equal. rewrite (E H). apply filter_ext_in. intros d Hd. rewrite Hsame by exact Hd. reflexivity.
      * exists []. cbn [fst snd]. rewrite app_nil_r. split; [exact R|]. split; [intros d p []|]. split; [|discriminate].
        split; [discriminate|]. intros H. exfalso. destruct (H c (or_introl eq_refl)) as [H1|H1]; [congruence|].
        apply (hadd_throws feq zero mem okq s adds c _ (hreach_inv _ _ _ _ _ _ R)) in Ea as (d & r & Hd & E).
        destruct (layout feq zero mem okq EQ s adds R) as (L & _). rewrite H1 in E; [discriminate|]. rewrite L. apply in_map_iff. exists (d, r). auto.
Qed.

Lemma adds_distinct (s : hs F V) adds : hreach s adds -> distinct (map fst adds).
Proof.
  intros R. induction R; try assumption; [exact I|].
  assert (G : forall l : list (ic F V), distinct l -> (forall d, In d l -> feq (ic_f d) (ic_f c) = false) -> distinct (l ++ [c])).
  { induction l as [|a l IHl]; cbn; [intros _ _; split; [intros d []|exact I]|]. intros [G1 G2] G3. split; [|apply IHl; auto].
    intros d Hd. apply in_app_or in Hd as [Hd|[<-|[]]]; [apply G1, Hd|apply G3; left; reflexivity]. }
  rewrite map_app. apply G; [exact IHR|]. intros d Hd. destruct (feq (ic_f d) (ic_f c)) eqn:E; [|reflexivity]. exfalso.
  assert (Hx : hadd feq s c p = None); [|congruence].
  apply (hadd_throws feq zero mem okq s adds c _ (hreach_inv _ _ _ _ _ _ R)).
  apply in_map_iff in Hd as ([d' r] & <- & Hd). exists d', r. auto.
Qed.
Lemma hmerge_spec (s o : hs F V) adds oadds : hreach s adds -> hreach o oadds ->
  exists new, hreach (fst (hmerge feq s o)) (adds ++ new) /\
    (forall c p, In (c, p) new -> In (c, p) oadds /\ contains feq s c = false) /\
    (snd (hmerge feq s o) = true <-> forall c p, In (c, p) oadds ->
        contains feq s c = true \/ forall d r, In (d, r) adds -> feq (ic_f d) (ic_f c) = false) /\
    (snd (hmerge feq s o) = true ->
       map fst new = filter (fun c => negb (contains feq s c)) (map fst oadds) /\
       (forall c p, In (c, p) oadds -> contains feq (fst (hmerge feq s o)) c = true) /\
       hsub feq (fst (hmerge feq s o)) o = true).
Proof.
  intros R Ro. destruct (layout feq zero mem okq EQ o oadds Ro) as (Lo & _ & _ & Lp & _).
  destruct (layout feq zero mem okq EQ s adds R) as (Ls & _). unfold hmerge. rewrite Lo.
  destruct (hmerge_loop_spec (prio o) (map fst oadds) (adds_distinct _ _ Ro)) with (s := s) (adds := adds) as (new & A & B & C & E).
  - intros c Hc. apply in_map_iff in Hc as ([d r] & <- & Hd). eapply (inv_wf _ _ _ _ _ _ (hreach_inv _ _ _ _ _ _ Ro)), Hd.
  - exact R.
  - exists new. split; [exact A|]. split; [|split; [|intros H; specialize (E H); split; [exact E|]]].
    + intros c p Hc. destruct (B c p Hc) as (B1 & B2 & B3). split; [|exact B3]. apply in_map_iff in B1 as ([d r] & <- & Hd).
      cbn in *. apply In_nth_error in Hd as [k Hk]. destruct (Lp k d r Hk) as (Lf & _). unfold prio_of in B2. rewrite Lf in B2. subst p. eapply nth_error_In, Hk.
    + rewrite C. split.
      * intros H c p Hc. destruct (H c) as [H1|H1]; [apply in_map_iff; exists (c, p); auto|left; exact H1|right].
        intros d r Hd. apply H1. rewrite Ls. apply in_map_iff. exists (d, r). auto.
      * intros H c Hc. apply in_map_iff in Hc as ([d r] & <- & Hd). destruct (H d r Hd) as [H1|H1]; [left; exact H1|right].
        intros e He. rewrite Ls in He. apply in_map_iff in He as ([e' r'] & <- & He). eapply H1, He.
    + destruct (layout feq zero mem okq EQ _ _ A) as (L1 & _).
      assert (Hall : forall c p, In (c, p) oadds -> contains feq (fst (hmerge_loop feq s (prio o) (map fst oadds))) c = true).
      { intros c p Hc. unfold contains. rewrite L1, map_app, existsb_app. destruct (contains feq s c) eqn:Ec.
        - apply orb_true_iff. left. unfold contains in Ec. rewrite Ls in Ec. exact Ec.
        - apply orb_true_iff. right. apply existsb_exists. exists c. split; [|apply is_equal_self; apply EQ].
          rewrite E. apply filter_In. split; [apply in_map_iff; exists (c, p); auto|rewrite Ec; reflexivity]. }
      split; [exact Hall|]. unfold hsub. apply submanifold_spec. intros f Hf. apply in_map_iff in Hf as (c & <- & Hc). rewrite Lo in Hc.
      apply in_map_iff in Hc as ([d r] & <- & Hd). destruct (contains_fun _ _ (Hall d r Hd)) as (e & E1 & E2). exists (ic_f e). split; [apply in_map, E1|exact E2].
Qed.

(** solver by substitution *)
Variables (P : con V (list V) -> Prop) (n m : Z).
Hypothesis HF : family n m P.
Notation breach := (breach feq zero iadd mem okq P n m).
Notation bc := (bc F V).
Notation bs := (bs F V).

Lemma bcontains_fun (s : bs) c : bcontains feq s c = true -> exists d, In d (bs_cons s) /\ feq (bc_f d) (bc_f c) = true.
Proof.
  unfold bcontains. intros H. apply existsb_exists in H as (d & Hd & E). exists d. split; [exact Hd|].
  apply eq_con_spec in E as (_ & _ & E & _). exact E.
Qed.
Lemma present_app l a c : present feq l c -> present feq (l ++ a : list (bc * how)) c.
Proof. intros (d & h & H1 & H2). exists d, h. split; [apply in_or_app; left; exact H1|exact H2]. Qed.
Lemma present_self l c h : (forall f, feq f f = true) -> In (c, h) (l : list (bc * how)) -> present feq l c.
Proof. intros Hr H. exists c, h. split; [exact H|]. apply eq_con_spec. destruct (eq_con_equiv feq) as (_ & E & _). apply E, Hr. Qed.

Lemma bmerge_loop_spec pr cs : (forall c, In c cs -> wf_bc zero mem okq P m c) -> forall (s : bs) l, breach s l ->
  exists fuel0, forall fuel, fuel0 <= fuel -> exists new s' r, bmerge_loop feq iadd fuel s pr cs = (s', r) /\ breach s' (l ++ new) /\
    (forall c h, In (c, h) new -> In c cs /\ ~ present feq l c /\ (h = Explicitly \/ h = Numerically (prio_of feq pr (bc_f c)))) /\
    (r = BYes /\ (forall c, In c cs -> present feq (l ++ new) c) \/
     r = BThrow /\ exists c, In c cs /\ ~ present feq (l ++ new) c /\
       (function_present feq (l ++ new) c \/ exists x, bc_con c = Some x /\ meet (c_in x) (c_out x))).
Proof.
  induction cs as [|c cs IH]; intros W s l R.
  - exists 0. intros fuel _. exists [], s, BYes. rewrite app_nil_r. split; [reflexivity|]. split; [exact R|]. split; [intros c h []|].
    left. split; [reflexivity|intros c []].
  - assert (Wc := W c (or_introl eq_refl)). specialize (IH (fun d Hd => W d (or_intror Hd))).
    pose proof (breach_inv feq zero iadd mem okq P n m HF _ _ R) as I. pose proof (present_spec feq zero iadd mem okq P n m _ _ c I) as Ps.
    destruct (bcontains feq s c) eqn:Ec.
    + destruct (IH s l R) as (fuel0 & H). exists fuel0. intros fuel Hf. destruct (H fuel Hf) as (new & s' & r & A & B & C & D).
      exists new, s', r. cbn [bmerge_loop]. rewrite Ec. split; [exact A|]. split; [exact B|]. split.
      * intros d h Hd. destruct (C d h Hd) as (C1 & C2). split; [right; exact C1|exact C2].
      * destruct D as [[D1 D2]|[D1 (d & D2 & D3)]].
        -- left. split; [exact D1|]. intros d [<-|Hd]; [apply present_app, Ps; reflexivity|apply D2, Hd].
        -- right. split; [exact D1|]. exists d. split; [right; exact D2|exact D3].
    + assert (Np : ~ present feq l c) by (intros Hp; apply Ps in Hp; discriminate).
      destruct (badd_spec feq zero iadd mem okq P n m HF s l c (prio_of feq pr (bc_f c)) R Wc) as (fuel1 & H1).
      (* the state reached by the addition does not depend on the fuel *)
      assert (Step : exists fuel2, 
          (exists s1 h, breach s1 (l ++ [(c, h)]) /\ (h = Explicitly \/ h = Numerically (prio_of feq pr (bc_f c))) /\
             forall fuel, fuel2 <= fuel -> badd feq iadd fuel s c (prio_of feq pr (bc_f c)) = (s1, BYes)) \/
          ((function_present feq l c \/ exists x, bc_con c = Some x /\ meet (c_in x) (c_out x)) /\
             forall fuel, fuel2 <= fuel -> badd feq iadd fuel s c (prio_of feq pr (bc_f c)) = (s, BThrow))).
      { exists fuel1. destruct (badd feq iadd fuel1 s c (prio_of feq pr (bc_f c))) as [s1 r1] eqn:E1.
        assert (Hcase : (exists h, r1 = BYes /\ breach s1 (l ++ [(c, h)]) /\ (h = Explicitly \/ h = Numerically (prio_of feq pr (bc_f c)))) \/
          (r1 = BThrow /\ s1 = s /\ (function_present feq l c \/ exists x, bc_con c = Some x /\ meet (c_in x) (c_out x)))).
        { destruct (H1 fuel1 (le_n _)) as [_ H2]. specialize (H2 Np). destruct H2 as (X1 & X2 & X3). rewrite E1 in *.
          assert (Num : numerically feq zero iadd mem okq P n m s l c (prio_of feq pr (bc_f c)) (s1, r1) ->
            (exists h, r1 = BYes /\ breach s1 (l ++ [(c, h)]) /\ (h = Explicitly \/ h = Numerically (prio_of feq pr (bc_f c)))) \/
            (r1 = BThrow /\ s1 = s /\ (function_present feq l c \/ exists x, bc_con c = Some x /\ meet (c_in x) (c_out x)))).
          { intros [N1 N2]. assert (Dec : function_present feq l c \/ ~ function_present feq l c).
            { unfold function_present. destruct (existsb (fun a => match snd a with Numerically _ => feq (bc_f (fst a)) (bc_f c) | _ => false end) l) eqn:Ex.
              - left. apply existsb_exists in Ex as ([d [|p]] & Hd & Ex); [discriminate|]. exists d, p. auto.
              - right. intros (d & p & Hd & Hfd). assert (Hx : existsb (fun a => match snd a with Numerically _ => feq (bc_f (fst a)) (bc_f c) | _ => false end) l = true); [|congruence].
                apply existsb_exists. exists (d, Numerically p). auto. }
            destruct Dec as [Hp|Hp].
            - specialize (N1 Hp). injection N1 as -> ->. right. auto.
            - destruct (N2 Hp) as (s2 & Y1 & Y2 & _). injection Y1 as -> ->. left. eexists. split; [reflexivity|]. split; [exact Y2|]. auto. }
          destruct (bc_con c) as [x|] eqn:Ex; [|apply Num, X3; reflexivity].
          pose proof (bi_e _ _ _ _ _ _ _ _ _ _ I) as (st & Rst & Es).
          destruct Wc as (_ & _ & W3). pose proof (W3 _ Ex) as Px.
          destruct (@add_iff _ _ iadd P n m HF st x Rst Px) as (f & Hadd). 
          assert (Ed : data st = excons l) by (rewrite <- (bi_data _ _ _ _ _ _ _ _ _ _ I), Es; reflexivity).
          (* decide by running with enough fuel *)
          assert (Dec : acceptable (excons l) x \/ ~ acceptable (excons l) x).
          { rewrite <- Ed. destruct (Hadd f (le_n _)) as [A1 A2].
            destruct (add iadd f st x) as [e0 r0] eqn:Ea. destruct r0 as [i| | | |].
            2,3,4,5: right; intros Acc; destruct (A1 Acc) as (st' & B1 & _); discriminate.
            left. destruct (@add_any_fuel _ _ iadd P n m HF st e0 x f _ Rst Px Ea) as (_ & G & _). apply (G i eq_refl). }
          destruct Dec as [Acc|Acc].
          - destruct (X1 x eq_refl Acc) as (s2 & Y1 & Y2 & _). injection Y1 as -> ->. left. exists Explicitly. auto.
          - destruct (X2 x eq_refl Acc) as [[Y1 Y2]|Y]; [|apply Num, Y]. injection Y1 as -> ->. right. split; [reflexivity|]. split; [reflexivity|]. right. eauto. }
        assert (Mono : forall fuel, fuel1 <= fuel -> badd feq iadd fuel s c (prio_of feq pr (bc_f c)) = (s1, r1)).
        { intros fuel Hf. assert (Nf : r1 <> BFuel) by (destruct Hcase as [(h & -> & _)|[-> _]]; discriminate).
          clear -E1 Nf Hf. unfold badd in *. destruct (bcontains feq s c); [exact E1|]. destruct (bc_con c) as [x|]; [|exact E1].
          destruct (add iadd fuel1 (bs_e s) x) as [e r] eqn:Ea. assert (r <> NoFuel) by (intros ->; injection E1 as _ <-; contradiction).
          rewrite (@add_mono _ _ iadd (bs_e s) x fuel1 fuel _ _ Hf Ea); [exact E1|assumption]. }
        destruct Hcase as [(h & -> & B1 & B2)|(-> & -> & B)]; [left; exists s1, h; auto|right; auto]. }
      destruct Step as (fuel2 & [(s1 & h & B1 & B2 & B3)|[B1 B2]]).
      * destruct (IH s1 _ B1) as (fuel3 & H). exists (Nat.max fuel2 fuel3). intros fuel Hf.
        destruct (H fuel ltac:(lia)) as (new & s' & r & A & B & C & D). exists ((c, h) :: new), s', r.
        cbn [bmerge_loop]. rewrite Ec, B3 by lia. split; [exact A|]. rewrite <- app_assoc in B, D. cbn [app] in B, D. split; [exact B|]. split.
        -- intros d hd [Hd|Hd].
           ++ injection Hd as <- <-. split; [left; reflexivity|auto].
           ++ destruct (C d hd Hd) as (C1 & C2 & C3). split; [right; exact C1|]. split; [|exact C3]. intros Hp. apply C2, present_app, Hp.
        -- destruct D as [[D1 D2]|[D1 (d & D2 & D3)]].
           ++ left. split; [exact D1|]. intros d [<-|Hd]; [|apply D2, Hd]. apply (present_self _ _ h); [destruct EQ as (E1 & _); apply E1|]. apply in_or_app. right. left. reflexivity.
           ++ right. split; [exact D1|]. exists d. split; [right; exact D2|exact D3].
      * exists fuel2. intros fuel Hf. exists [], s, BThrow. cbn [bmerge_loop]. rewrite Ec, B2 by lia. rewrite app_nil_r. split; [reflexivity|].
        split; [exact R|]. split; [intros d h []|]. right. split; [reflexivity|]. exists c. split; [left; reflexivity|]. auto.
Qed.

Lemma bmerge_spec (s o : bs) l lo : breach s l -> breach o lo ->
  exists fuel0, forall fuel, fuel0 <= fuel -> exists new s' r, bmerge feq iadd fuel s o = (s', r) /\ breach s' (l ++ new) /\
    (forall c h, In (c, h) new -> ~ present feq l c /\ exists ho, In (c, ho) lo) /\
    (r = BYes /\ (forall c h, In (c, h) lo -> bcontains feq s' c = true) /\ bsub feq s' o = true \/
     r = BThrow /\ exists c h, In (c, h) lo /\ ~ present feq (l ++ new) c /\
       (function_present feq (l ++ new) c \/ exists x, bc_con c = Some x /\ meet (c_in x) (c_out x))).
Proof.
  intros R Ro. pose proof (breach_inv feq zero iadd mem okq P n m HF _ _ Ro) as Io. unfold bmerge.
  rewrite (bi_cons _ _ _ _ _ _ _ _ _ _ Io).
  destruct (bmerge_loop_spec (prio (bs_h o)) (map fst lo)) with (s := s) (l := l) as (fuel0 & H); [|exact R|].
  - intros c Hc. apply in_map_iff in Hc as ([d h] & <- & Hd). eapply (bi_wf _ _ _ _ _ _ _ _ _ _ Io), Hd.
  - exists fuel0. intros fuel Hf. destruct (H fuel Hf) as (new & s' & r & A & B & C & D). exists new, s', r. split; [exact A|]. split; [exact B|]. split.
    + intros c h Hc. destruct (C c h Hc) as (C1 & C2 & _). split; [exact C2|]. apply in_map_iff in C1 as ([d hd] & <- & Hd). eauto.
    + destruct D as [[D1 D2]|[D1 (c & D2 & D3)]].
      * left. split; [exact D1|]. pose proof (breach_inv feq zero iadd mem okq P n m HF _ _ B) as I'.
        assert (Hall : forall c h, In (c, h) lo -> bcontains feq s' c = true).
        { intros c h Hc. apply (present_spec feq zero iadd mem okq P n m _ _ c I'). apply D2. apply in_map_iff. exists (c, h). auto. }
        split; [exact Hall|]. apply submanifold_spec. intros f Hfn. apply in_map_iff in Hfn as (c & <- & Hc).
        rewrite (bi_cons _ _ _ _ _ _ _ _ _ _ Io) in Hc. apply in_map_iff in Hc as ([d h] & <- & Hd).
        destruct (bcontains_fun _ _ (Hall d h Hd)) as (e & E1 & E2). exists (bc_f e). split; [apply in_map, E1|exact E2].
      * right. split; [exact D1|]. apply in_map_iff in D2 as ([d h] & <- & Hd). exists d, h. auto.
Qed.
End Merge.
