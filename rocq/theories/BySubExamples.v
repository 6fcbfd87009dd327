(** Concrete solvers by substitution: three clocks (an integer and a residue modulo
    10) at 0, 2 and 4. *)
From Coq Require Import ZArith List Bool Lia.
From Verif Require Import SegModel SegSpec EcsModel EcsSpec EcsRhsModel EcsRhsSpec EcsRhsExamples ImplModel ImplSpec
  HierModel HierSpec HierExamples BySubModel BySubSpec BySubProofs SaveProofs EcsMainProofs EcsFinalProofs SegProofs.
Import ListNotations.
Local Open Scope nat_scope.

Definition clk_val (r x : list Z) : list Z := match r, x with [a; b], [c; d] => [a + c; (b + d) mod 10]%Z | _, _ => [0; 0]%Z end.
(** the 6 velocity variables a function depends on: clocks i and j *)
Definition dep2 (i j : Z) : list bool := map (fun k => (Z.eqb k i || Z.eqb k (i + 1) || Z.eqb k j || Z.eqb k (j + 1))%Z) [0; 1; 2; 3; 4; 5]%Z.
(** explicit constraint: output i, input j; function number f, explicit function number ptr *)
Definition bx (f ptr : nat) (i j : Z) (t1 t2 : cmp) : bc nat Z :=
  mkbc (mkic (impl_new f 2 [t1; t2] [true; true]) (clk i j t1 t2) (dep2 i j))
       (KExplicit (mkexpl ptr [(j, 2%Z)] [(i, 2%Z)] [(j, 2%Z)] [(i, 2%Z)])) clk_val.
(** implicit constraint between clocks i and j *)
Definition bn (f : nat) (i j : Z) (t1 t2 : cmp) (m1 m2 : bool) : bc nat Z :=
  mkbc (mkic (impl_new f 2 [t1; t2] [m1; m2]) (clk i j t1 t2) (dep2 i j)) KImplicit clk_val.

Definition clkP (c : con Z (list Z)) : Prop :=
  exists i j t1 t2, In i [0; 2; 4]%Z /\ In j [0; 2; 4]%Z /\ c = clk_con i j t1 t2.
Lemma clkP_family : family 6 6 clkP.
Proof.
  split; [lia|]. split; [lia|]. split.
  - intros c (i & j & t1 & t2 & Hi & Hj & ->). unfold wf_con, clk_con. cbn [c_in c_out c_inv c_outv].
    split; [eexists; reflexivity|]. split; [eexists; reflexivity|].
    assert (0 <= i <= 4)%Z by (cbn in Hi; lia). assert (0 <= j <= 4)%Z by (cbn in Hj; lia).
    repeat split; try (destruct H1 as [<-|[]]; cbn; lia); intros u [].
  - intros c d (i & j & t1 & t2 & Hi & Hj & ->) (i' & j' & t1' & t2' & Hi' & Hj' & ->). unfold consistent, clk_con. cbn [c_in c_out c_inv c_outv]. tauto.
Qed.
Definition okc (i j : Z) : bool := existsb (Z.eqb i) [0; 2; 4]%Z && existsb (Z.eqb j) [0; 2; 4]%Z.
Lemma bx_wf f ptr i j t1 t2 : okc i j = true -> wf_bc 0%Z clk_mem clk_ok clkP 6 (bx f ptr i j t1 t2).
Proof.
  intros H. split; [apply (cic_wf f i j t1 t2 true true)|]. split; [reflexivity|]. intros x Hx. injection Hx as <-.
  exists i, j, t1, t2. unfold okc in H. apply andb_true_iff in H as [H1 H2]. apply existsb_exists in H1 as (a & A1 & A2). apply existsb_exists in H2 as (b & B1 & B2).
  apply Z.eqb_eq in A2, B2. subst. auto.
Qed.
Lemma bn_wf f i j t1 t2 m1 m2 : wf_bc 0%Z clk_mem clk_ok clkP 6 (bn f i j t1 t2 m1 m2).
Proof. split; [apply (cic_wf f i j t1 t2 m1 m2)|]. split; [reflexivity|]. intros x Hx. discriminate. Qed.

(** successive additions *)
Fixpoint bbuild (s : bs nat Z) (l : list (bc nat Z * nat)) : option (bs nat Z * list (bc nat Z * how)) :=
  match l with
  | [] => Some (s, [])
  | (c, p) :: t =>
      match badd Nat.eqb Z.add 20 s c p with
      | (s', BYes) =>
          match bbuild s' t with
          | Some (r, hs) => Some (r, (c, if Nat.eqb (length (bs_ex s')) (length (bs_ex s)) then Numerically p else Explicitly) :: hs)
          | None => None
          end
      | _ => None
      end
  end.
Notation cbreach := (breach Nat.eqb 0%Z Z.add clk_mem clk_ok clkP 6 6).
Lemma badd_ex (s : bs nat Z) c p fuel s' : badd Nat.eqb Z.add fuel s c p = (s', BYes) ->
  bs_ex s' = bs_ex s \/ bs_ex s' = bs_ex s ++ [c].
Proof.
  unfold badd, badd_num. destruct (bcontains _ s c); [discriminate|]. destruct (bc_con c).
  - destruct (add _ _ _ _) as [e []]; try discriminate; [intros H; injection H as <-; auto|]. destruct (hadd _ _ _ _); [|discriminate]. intros H; injection H as <-; auto.
  - destruct (hadd _ _ _ _); [|discriminate]. intros H; injection H as <-; auto.
Qed.
Lemma bbuild_breach l : forall s l0 s' hs, cbreach s l0 -> (forall c p, In (c, p) l -> wf_bc 0%Z clk_mem clk_ok clkP 6 c) ->
  bbuild s l = Some (s', hs) -> cbreach s' (l0 ++ hs).
Proof.
  induction l as [|[c p] l IH]; intros s l0 s' hs R W E; cbn in E.
  - injection E as <- <-. rewrite app_nil_r. exact R.
  - destruct (badd Nat.eqb Z.add 20 s c p) as [s1 []] eqn:E1; try discriminate.
    destruct (bbuild s1 l) as [[r h]|] eqn:E2; [|discriminate]. injection E as <- <-.
    change (cbreach r (l0 ++ ([(c, if Nat.eqb (length (bs_ex s1)) (length (bs_ex s)) then Numerically p else Explicitly)] ++ h))). rewrite app_assoc.
    apply (IH s1); [|intros; eapply W; right; eassumption|exact E2].
    assert (Wc : wf_bc 0%Z clk_mem clk_ok clkP 6 c) by (eapply W; left; reflexivity).
    destruct (badd_ex _ _ _ _ _ E1) as [Hx|Hx]; rewrite Hx.
    + rewrite Nat.eqb_refl. eapply br_numeric; eassumption.
    + rewrite app_length. cbn [length]. replace (Nat.eqb _ _) with false by (symmetry; apply Nat.eqb_neq; lia). eapply br_explicit; eassumption.
Qed.
Definition built (l : list (bc nat Z * nat)) : bs nat Z * list (bc nat Z * how) :=
  match bbuild (bs_init 6 6) l with Some x => x | None => (bs_init 6 6, []) end.
Lemma built_breach l : (forall c p, In (c, p) l -> wf_bc 0%Z clk_mem clk_ok clkP 6 c) -> cbreach (fst (built l)) (snd (built l)).
Proof.
  intros W. unfold built. destruct (bbuild (bs_init 6 6) l) as [[s h]|] eqn:E; [|constructor].
  apply (bbuild_breach l (bs_init 6 6) [] s h); [constructor|exact W|exact E].
Qed.
Lemma wf_list (l : list (bc nat Z * nat)) : Forall (fun a => wf_bc 0%Z clk_mem clk_ok clkP 6 (fst a)) l ->
  forall c p, In (c, p) l -> wf_bc 0%Z clk_mem clk_ok clkP 6 c.
Proof. intros H c p Hc. rewrite Forall_forall in H. apply (H (c, p) Hc). Qed.
Ltac wfs := apply wf_list; repeat constructor; first [apply bx_wf; reflexivity | apply bn_wf].

(** clock 4 from clock 2, clock 2 from clock 0, and two numerical constraints *)
Definition e4 := bx 1 10 4 2 Equality Equality.
Definition e2 := bx 2 11 2 0 Equality EqualToZero.
Definition n40 := bn 3 4 0 Equality Equality true false.
Definition n44 := bn 4 4 4 Superior Equality false true.
Definition bl : list (bc nat Z * nat) := [(e4, 7); (n40, 0); (e2, 0); (n44, 1)].
Definition bst := fst (built bl).
Definition bhow := snd (built bl).
Lemma bst_breach : cbreach bst bhow.
Proof. apply built_breach. unfold bl. wfs. Qed.
Lemma bhow_eq : bhow = [(e4, Explicitly); (n40, Numerically 0); (e2, Explicitly); (n44, Numerically 1)].
Proof. vm_compute. reflexivity. Qed.

(** the second constraint has the function of the first, but another explicit function:
    its output being taken, it is treated numerically *)
Definition e4' := bx 1 12 4 0 Equality Equality.
Definition shadow := built [(e4, 0); (e4', 0)].
Lemma shadow_breach : cbreach (fst shadow) (snd shadow).
Proof. apply built_breach. wfs. Qed.

(** one level, explicit and numerical *)
Definition mixed := built [(e4, 0); (n40, 0)].
Lemma mixed_breach : cbreach (fst mixed) (snd mixed).
Proof. apply built_breach. wfs. Qed.
Definition mixed_set : bs nat Z := match bset_of Nat.eqb 0%Z (fst mixed) e4 [7; 3]%Z with Some (s, _) => s | None => fst mixed end.
Lemma mixed_set_breach : cbreach mixed_set (snd mixed).
Proof.
  eapply (br_set _ _ _ _ _ _ _ _ (fst mixed) (snd mixed) e4 [7; 3]%Z mixed_set true); [exact mixed_breach| |vm_compute; reflexivity].
  intros d h _ _. exists 7%Z, 3%Z. split; [reflexivity|lia].
Qed.

(** no constraint of priority 0 *)
Definition gap := built [(n40, 1)].
Lemma gap_breach : cbreach (fst gap) (snd gap).
Proof. apply built_breach. wfs. Qed.
