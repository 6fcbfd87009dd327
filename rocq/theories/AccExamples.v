(** Concrete solvers for C80. *)
From Coq Require Import ZArith List Bool Lia Floats.SpecFloat.
From Verif Require Import SegModel SegSpec ViewModel EcsModel EcsSpec EcsRhsModel EcsRhsSpec EcsRhsExamples NanModel ImplModel ImplSpec
  HierModel HierSpec HierExamples BySubModel BySubSpec BySubExamples AccModel AccProofs AccSpec.
Import ListNotations.
Local Open Scope nat_scope.

(** Quarter turns, as unit complex numbers: 2 coordinates, 1 velocity variable. *)
Definition turn_exp (w : list Z) : list Z :=
  match w with
  | [a] => match Z.to_nat (a mod 4) with 0 => [1; 0]%Z | 1 => [0; 1]%Z | 2 => [-1; 0]%Z | _ => [0; -1]%Z end
  | _ => [1; 0]%Z
  end.
Definition turn_log (x : list Z) : list Z :=
  match x with
  | [a; b] => if Z.eqb b 0 then if Z.eqb a 1 then [0]%Z else [-2]%Z else [b]
  | _ => [0]%Z
  end.
Definition turn_minus (x y : list Z) : list Z :=
  turn_log (turn_exp [hd 0%Z (turn_log x) - hd 0%Z (turn_log y)]%Z).
Definition turn : imp Z := mkimp 2 1 [1; 0]%Z turn_log turn_exp turn_minus (fun q => turn_exp [q 0%Z]) [Equality].
Definition turn_mem (c : imp Z) (x : list Z) : Prop := exists w, x = turn_exp [w].
Definition turn_ok (q : Z -> Z) : Prop := True.
Definition tic (f : nat) : ic nat Z := mkic (impl_new f 1 [Equality] [true]) turn [true].
Lemma turn_cases w : In (turn_exp [w]) [[1; 0]; [0; 1]; [-1; 0]; [0; -1]]%Z.
Proof. unfold turn_exp. destruct (Z.to_nat (w mod 4)) as [|[|[|?]]]; cbn; auto. Qed.
Lemma turn_log_len x : length (turn_log x) = 1.
Proof. unfold turn_log. destruct x as [|a [|b [|]]]; try reflexivity. destruct (Z.eqb b 0); [destruct (Z.eqb a 1)|]; reflexivity. Qed.
Lemma tic_wf f : wf_ic 0%Z turn_mem turn_ok (tic f).
Proof.
  unfold wf_ic, tic; cbn. split; [reflexivity|]. split; [reflexivity|]. split; [constructor|]. split.
  - unfold wf_imp, turn; cbn. split; [reflexivity|].
    split; [intros x (w & ->); destruct (turn_cases w) as [<-|[<-|[<-|[<-|[]]]]]; reflexivity|].
    split; [intros x _; apply turn_log_len|].
    split; [intros [|a [|? ?]] L; try discriminate; exists a; reflexivity|].
    split; [intros q _; exists (q 0%Z); reflexivity|].
    split; [intros x (w & ->); destruct (turn_cases w) as [<-|[<-|[<-|[<-|[]]]]]; reflexivity|].
    split; [exists 0%Z; reflexivity|reflexivity].
  - split; [intros q; change (length (turn_exp [q 0%Z]) = 2); destruct (turn_cases (q 0%Z)) as [<-|[<-|[<-|[<-|[]]]]]; reflexivity|].
    intros x y _ _. apply turn_log_len.
Qed.
Definition turn_adds : list (ic nat Z * nat) := [(tic 1, 0); (tic 2, 1)].
Definition turn_hs : hs nat Z := match build Nat.eqb hs_init turn_adds with Some s => s | None => hs_init end.
Lemma turn_hreach : hreach Nat.eqb 0%Z turn_mem turn_ok turn_hs turn_adds.
Proof.
  apply (build_reach Nat.eqb 0%Z turn_mem turn_ok turn_adds hs_init [] turn_hs); [constructor| |reflexivity].
  intros c p [H|[H|[]]]; injection H as <- <-; apply tic_wf.
Qed.

(** An explicit constraint with one output variable whose implicit formulation has two
    rows (as explicit::ConvexShapeContact: 6 output variables and 8 rows). *)
Definition wide : bc nat Z :=
  mkbc (mkic (impl_new 1 2 [Equality; Equality] [true; true]) (clk 4 2 Equality Equality) (dep2 4 2))
       (KExplicit (mkexpl 1 [(2, 2)] [(4, 1)] [(2, 2)] [(4, 1)])%Z) clk_val.
Definition wideP (c : con Z (list Z)) : Prop :=
  c_in c = [(2, 2)]%Z /\ c_out c = [(4, 1)]%Z /\ c_inv c = [(2, 2)]%Z /\ c_outv c = [(4, 1)]%Z.
Lemma wideP_family : family 6 6 wideP.
Proof.
  split; [lia|]. split; [lia|]. split.
  - intros c (A & B & C & D). unfold wf_con. rewrite A, B, C, D.
    split; [eexists; reflexivity|]. split; [eexists; reflexivity|].
    repeat split; try (destruct H as [<-|[]]; cbn; lia); intros u [].
  - intros c d (A & B & C & D) (A' & B' & C' & D'). unfold consistent. rewrite A, B, C, D, B', D'. tauto.
Qed.
Definition wide_s : bs nat Z := fst (badd Nat.eqb Z.add 20 (bs_init 6 6) wide 0).
Lemma wide_breach : breach Nat.eqb 0%Z Z.add clk_mem clk_ok wideP 6 6 wide_s [(wide, Explicitly)].
Proof.
  apply (br_explicit Nat.eqb 0%Z Z.add clk_mem clk_ok wideP 6 6 (bs_init 6 6) [] wide 0 20 wide_s); [constructor| |vm_compute; reflexivity|vm_compute; reflexivity].
  split; [apply (cic_wf 1 4 2 Equality Equality true true)|]. split; [reflexivity|]. intros x Hx. injection Hx as <-. repeat split.
Qed.

(** squared norm of integers, as a double *)
Definition zsqn (l : list Z) : spec_float := binary_normalize 53 1024 (fold_left (fun s x => s + x * x)%Z l 0%Z) 0 false.
Definition fl (x : Z) : spec_float := binary_normalize 53 1024 x 0 (Z.ltb x 0).

Lemma value_size_refuted : exists (s : hs nat Z) adds q, hreach Nat.eqb 0%Z turn_mem turn_ok s adds /\
  dimension s = 2 /\ (forall v, length v = dimension s -> get_value s q v = None).
Proof.
  exists turn_hs, turn_adds, (fun _ => 0%Z). split; [exact turn_hreach|]. split; [vm_compute; reflexivity|].
  intros v L. destruct (get_value turn_hs (fun _ => 0%Z) v) as [w|] eqn:X; [|reflexivity].
  apply (get_value_spec _ _ _ _ _ _ _ _ _ turn_hreach) in X as [X _]. rewrite X in L. vm_compute in L. discriminate.
Qed.

Lemma minus_one_refuted : exists (s : bs nat Z) l d q, breach Nat.eqb 0%Z Z.add clk_mem clk_ok clkP 6 6 s l /\
  bsat_thr 0%Z Z.add Z.sub Z.opp Z.ltb zsqn d 0%Z s q (fl (-1)) = Some true /\
  bsat_thr 0%Z Z.add Z.sub Z.opp Z.ltb zsqn d 0%Z s q (fl 1) = Some false.
Proof.
  exists (fst (built [(e4, 0)])), (snd (built [(e4, 0)])), (fl 3), (fun i => if Z.eqb i 4 then 2%Z else 0%Z).
  split; [apply built_breach; apply wf_list; repeat constructor; apply bx_wf; reflexivity|]. vm_compute. auto.
Qed.

Lemma error_size_refuted : exists (s : bs nat Z) l, breach Nat.eqb 0%Z Z.add clk_mem clk_ok wideP 6 6 s l /\
  forall sqthr d q error, Z.of_nat (length error) = error_size s ->
  bsat_err 0%Z Z.add Z.sub Z.opp Z.ltb zsqn sqthr d 0%Z s q error = None.
Proof.
  exists wide_s, [(wide, Explicitly)]. split; [exact wide_breach|]. intros sqthr d q error L.
  destruct error as [|a [|b error]]; try reflexivity.
  exfalso. assert (X : error_size wide_s = 1%Z) by (vm_compute; reflexivity). rewrite X in L. cbn [length] in L. lia.
Qed.
