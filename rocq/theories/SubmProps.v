(** C39: definesSubmanifoldOf (hierarchical-iterative.cc:730-742) and the configurations
    accepted by isSatisfied of the two solvers.

    [hreach s adds]: solver s is reached through the interface, [adds] being the constraints
    added with their priorities; [counted s adds]: number of levels that are not optional. *)
From Coq Require Import ZArith List Bool Floats.SpecFloat.
From Verif Require Import SegModel EcsModel EcsSpec EcsRhsModel EcsRhsSpec EcsRhsExamples NanModel ImplModel ImplSpec HierModel HierSpec HierErrProofs HierExamples
  BySubModel BySubSpec BySubExamples AccModel AccExamples SubmProofs.
Import ListNotations.
Local Open Scope nat_scope.

(** the test compares the functions of the constraints *)
Theorem C39_submanifold_functions : forall (F V : Type) (feq : F -> F -> bool) (zero : V) (mem : imp V -> list V -> Prop)
  (okq : (Z -> V) -> Prop) (s o : hs F V) adds oadds, hreach feq zero mem okq s adds -> hreach feq zero mem okq o oadds ->
  (hsub feq s o = true <-> forall c p, In (c, p) oadds -> exists d r, In (d, r) adds /\ feq (ic_f d) (ic_f c) = true).
Proof. exact @hsub_iff. Qed.
Print Assumptions C39_submanifold_functions.

(** constraints with the same function have the same implicit formulation, mask and right
    hand side, and are not at an optional level: a configuration accepted by s is accepted by o *)
Theorem C39_submanifold_solutions : forall (F V : Type) (feq : F -> F -> bool) (zero : V) (mem : imp V -> list V -> Prop)
  (okq : (Z -> V) -> Prop) (add sub : V -> V -> V) (neg : V -> V) (ltb : V -> V -> bool) (sqn : list V -> spec_float),
  equivalence feq -> forall (s o : hs F V) adds oadds thr sqthr q,
  hreach feq zero mem okq s adds -> hreach feq zero mem okq o oadds ->
  (last_optional o = true -> oadds <> []) -> (last_optional s = true -> adds <> []) ->
  hsub feq s o = true ->
  (forall d r c p, In (d, r) adds -> In (c, p) oadds -> p < counted o oadds -> feq (ic_f d) (ic_f c) = true ->
     r < counted s adds /\ ic_s d = ic_s c /\ m_mask (ic_i d) = m_mask (ic_i c) /\
     get_rhs_of feq s (ic_f d) (s_nq (ic_s d)) = get_rhs_of feq o (ic_f c) (s_nq (ic_s c))) ->
  hsat zero add sub neg ltb sqn s thr sqthr q = Some true -> hsat zero add sub neg ltb sqn o thr sqthr q = Some true.
Proof. exact @hsub_sat. Qed.
Print Assumptions C39_submanifold_solutions.

(** The header (hierarchical-iterative.hh:477-480) states the inclusion the other way round:
    the solutions of the argument need not be solutions of the receiver. *)
Theorem C39_submanifold_direction_refuted : exists (s o : hs nat spec_float) adds oadds q,
  hreach Nat.eqb fzero fmem fok s adds /\ hreach Nat.eqb fzero fmem fok o oadds /\ hsub Nat.eqb s o = true /\
  hsat fzero fadd fsub SFopp flt fsqn o fzero fone q = Some true /\ hsat fzero fadd fsub SFopp flt fsqn s fzero fone q = Some false.
Proof.
  exists (fl_build [(fic 1 0 Equality true, 0); (fic 2 1 Equality true, 0)]), (fl_build [(fic 1 0 Equality true, 0)]),
    [(fic 1 0 Equality true, 0); (fic 2 1 Equality true, 0)], [(fic 1 0 Equality true, 0)], (fun i => if Z.eqb i 0 then fzero else fone).
  split; [apply fl_reach; [eexists; reflexivity | intros c p [H|[H|[]]]; injection H as <- <-; eauto]|].
  split; [apply fl_reach; [eexists; reflexivity | intros c p [H|[]]; injection H as <- <-; eauto]|].
  repeat (split; [vm_compute; reflexivity|]); vm_compute; reflexivity.
Qed.
Print Assumptions C39_submanifold_direction_refuted.

(** Nor is a solution of the receiver always a solution of the argument: the comparison types
    may differ, *)
Theorem C39_submanifold_comparison_refuted : exists (s o : hs nat spec_float) adds oadds q,
  hreach Nat.eqb fzero fmem fok s adds /\ hreach Nat.eqb fzero fmem fok o oadds /\ hsub Nat.eqb s o = true /\ hsub Nat.eqb o s = true /\
  hsat fzero fadd fsub SFopp flt fsqn s fzero fone q = Some true /\ hsat fzero fadd fsub SFopp flt fsqn o fzero fone q = Some false.
Proof.
  exists (fl_build [(fic 1 0 Superior true, 0)]), (fl_build [(fic 1 0 EqualToZero true, 0)]),
    [(fic 1 0 Superior true, 0)], [(fic 1 0 EqualToZero true, 0)], (fun _ => fone).
  split; [apply fl_reach; [eexists; reflexivity | intros c p [H|[]]; injection H as <- <-; eauto]|].
  split; [apply fl_reach; [eexists; reflexivity | intros c p [H|[]]; injection H as <- <-; eauto]|].
  repeat (split; [vm_compute; reflexivity|]); vm_compute; reflexivity.
Qed.
Print Assumptions C39_submanifold_comparison_refuted.

(** the right hand sides may differ, although the constraints added are the same, *)
Theorem C39_submanifold_rhs_refuted : exists (s o : hs nat spec_float) adds q,
  hreach Nat.eqb fzero fmem fok s adds /\ hreach Nat.eqb fzero fmem fok o adds /\ hsub Nat.eqb s o = true /\ hsub Nat.eqb o s = true /\
  hsat fzero fadd fsub SFopp flt fsqn s fzero fone q = Some true /\ hsat fzero fadd fsub SFopp flt fsqn o fzero fone q = Some false.
Proof.
  assert (R : hreach Nat.eqb fzero fmem fok (fl_build [(fic 1 0 Equality true, 0)]) [(fic 1 0 Equality true, 0)])
    by (apply fl_reach; [eexists; reflexivity | intros c p [H|[]]; injection H as <- <-; eauto]).
  exists (match set_rhs_of Nat.eqb (fl_build [(fic 1 0 Equality true, 0)]) 1 [fone] with Some (s, _) => s | None => hs_init end),
    (fl_build [(fic 1 0 Equality true, 0)]), [(fic 1 0 Equality true, 0)], (fun _ => fone).
  split.
  { destruct (set_rhs_of Nat.eqb (fl_build [(fic 1 0 Equality true, 0)]) 1 [fone]) as [[s b]|] eqn:X; [exact (hr_rhs _ _ _ _ _ _ _ _ _ _ R X)|].
    exfalso. assert (H : (match set_rhs_of Nat.eqb (fl_build [(fic 1 0 Equality true, 0)]) 1 [fone] with Some _ => true | None => false end) = true)
      by (vm_compute; reflexivity).
    rewrite X in H. discriminate H. }
  split; [exact R|].
  repeat (split; [vm_compute; reflexivity|]); vm_compute; reflexivity.
Qed.
Print Assumptions C39_submanifold_rhs_refuted.

(** the constraint may be at the optional level of the receiver *)
Theorem C39_submanifold_optional_refuted : exists (s o : hs nat spec_float) adds q,
  hreach Nat.eqb fzero fmem fok s adds /\ hreach Nat.eqb fzero fmem fok o adds /\ hsub Nat.eqb s o = true /\ hsub Nat.eqb o s = true /\
  last_optional s = true /\
  hsat fzero fadd fsub SFopp flt fsqn s fzero fone q = Some true /\ hsat fzero fadd fsub SFopp flt fsqn o fzero fone q = Some false.
Proof.
  pose (o := fl_build [(fic 1 0 Equality true, 0)]).
  assert (R : hreach Nat.eqb fzero fmem fok o [(fic 1 0 Equality true, 0)])
    by (apply fl_reach; [eexists; reflexivity | intros c p [H|[]]; injection H as <- <-; eauto]).
  exists (mkhs (lvls o) (prio o) (iqm o) (ivm o) (hcons o) true), o, [(fic 1 0 Equality true, 0)], (fun _ => fone).
  split; [apply hr_optional; exact R|]. split; [exact R|].
  repeat (split; [vm_compute; reflexivity|]); vm_compute; reflexivity.
Qed.
Print Assumptions C39_submanifold_optional_refuted.

Example C39_submanifold_case :
  let l := [(fic 1 0 Equality true, 0); (fic 2 1 Superior true, 1)] in
  let lo := [(fic 2 1 Superior true, 0)] in
  let s := fl_build l in let o := fl_build lo in
  let q := fun i => if Z.eqb i 0 then fzero else fone in
  hreach Nat.eqb fzero fmem fok s l /\ hreach Nat.eqb fzero fmem fok o lo /\ hsub Nat.eqb s o = true /\ hsub Nat.eqb o s = false /\
  (forall d r c p, In (d, r) l -> In (c, p) lo -> p < counted o lo -> Nat.eqb (ic_f d) (ic_f c) = true ->
     r < counted s l /\ ic_s d = ic_s c /\ m_mask (ic_i d) = m_mask (ic_i c) /\
     get_rhs_of Nat.eqb s (ic_f d) (s_nq (ic_s d)) = get_rhs_of Nat.eqb o (ic_f c) (s_nq (ic_s c))) /\
  hsat fzero fadd fsub SFopp flt fsqn s fzero fone q = Some true /\
  hsat fzero fadd fsub SFopp flt fsqn o fzero fone q = Some true.
Proof.
  cbv zeta. split; [apply fl_reach; [eexists; reflexivity | intros c p [H|[H|[]]]; injection H as <- <-; eauto]|].
  split; [apply fl_reach; [eexists; reflexivity | intros c p [H|[]]; injection H as <- <-; eauto]|].
  split; [vm_compute; reflexivity|]. split; [vm_compute; reflexivity|]. split; [|split; [vm_compute; reflexivity|vm_compute; reflexivity]].
  intros d r c p [H|[H|[]]] [K|[]] _ Q; injection H as <- <-; injection K as <- <-; [discriminate Q|].
  split; [vm_compute; auto|]. repeat (split; [vm_compute; reflexivity|]); vm_compute; reflexivity.
Qed.

(** Solver by substitution; [breach s l]: s is reached through the interface, l being the
    constraints accepted, each with the way it is treated. *)
Theorem C39_submanifold_substitution : forall (F V : Type) (feq : F -> F -> bool) (zero : V) (iadd : Z -> Z -> Z) (mem : imp V -> list V -> Prop)
  (okq : (Z -> V) -> Prop), equivalence feq -> forall (P : con V (list V) -> Prop) (n m : Z), family n m P ->
  forall (add sub : V -> V -> V) (neg : V -> V) (ltb : V -> V -> bool) (sqn : list V -> spec_float) (s o : bs F V) l lo ineq d sqthr q,
  breach feq zero iadd mem okq P n m s l -> breach feq zero iadd mem okq P n m o lo ->
  (last_optional (bs_h s) = true -> numeric_ones l <> []) -> (last_optional (bs_h o) = true -> numeric_ones lo <> []) ->
  bsub feq s o = true ->
  (forall b h c k, In (b, h) l -> In (c, k) lo -> feq (bc_f b) (bc_f c) = true ->
     match k with
     | Explicitly => h = Explicitly /\ ic_s (bc_c b) = ic_s (bc_c c)
     | Numerically p => p < counted (bs_h o) (numeric_ones lo) ->
         (exists r, h = Numerically r /\ r < counted (bs_h s) (numeric_ones l)) /\
         ic_s (bc_c b) = ic_s (bc_c c) /\ m_mask (ic_i (bc_c b)) = m_mask (ic_i (bc_c c)) /\
         get_rhs_of feq (bs_h s) (bc_f b) (s_nq (ic_s (bc_c b))) = get_rhs_of feq (bs_h o) (bc_f c) (s_nq (ic_s (bc_c c)))
     end) ->
  (forall i b j c, nth_error (explicit_ones l) i = Some b -> nth_error (explicit_ones lo) j = Some c -> feq (bc_f b) (bc_f c) = true ->
     nth_error (rhsl (bs_e s)) i = nth_error (rhsl (bs_e o)) j) ->
  bsat zero add sub neg ltb sqn sqthr d ineq s q = Some true -> bsat zero add sub neg ltb sqn sqthr d ineq o q = Some true.
Proof. exact @bsub_sat. Qed.
Print Assumptions C39_submanifold_substitution.

(** [mixed]: an explicit and a numerical constraint; [mixed_set]: another right hand side of the explicit one *)
Example C39_submanifold_substitution_case :
  let x := built [(e4, 1)] in
  let q := fun i : Z => i in
  let sat := bsat 0%Z Z.add Z.sub Z.opp Z.ltb zsqn (fl 30) (fl 6) 0%Z in
  breach Nat.eqb 0%Z Z.add clk_mem clk_ok clkP 6 6 (fst mixed) (snd mixed) /\
  breach Nat.eqb 0%Z Z.add clk_mem clk_ok clkP 6 6 (fst x) (snd x) /\
  snd mixed = [(e4, Explicitly); (n40, Numerically 0)] /\ snd x = [(e4, Explicitly)] /\
  bsub Nat.eqb (fst mixed) (fst x) = true /\ bsub Nat.eqb (fst x) (fst mixed) = false /\
  rhsl (bs_e (fst mixed)) = rhsl (bs_e (fst x)) /\
  sat (fst mixed) q = Some true /\ sat (fst x) q = Some true /\
  bsub Nat.eqb (fst mixed) mixed_set = true /\ rhsl (bs_e (fst mixed)) <> rhsl (bs_e mixed_set) /\
  bsat 0%Z Z.add Z.sub Z.opp Z.ltb zsqn (fl 30) (fl 3) 0%Z (fst mixed) q = Some true /\
  bsat 0%Z Z.add Z.sub Z.opp Z.ltb zsqn (fl 30) (fl 3) 0%Z mixed_set q = Some false.
Proof.
  cbv zeta. split; [exact mixed_breach|]. split; [apply built_breach; wfs|].
  repeat (split; [vm_compute; first [reflexivity|discriminate]|]). vm_compute; reflexivity.
Qed.
