(** Properties C22, C23, C27-C32 of the hierarchical solver.

    [hreach s adds]: solver s is reached by additions, updates and right hand side
    settings, [adds] being the accepted additions (constraint, priority) in order.
    [at_level adds p]: constraints of priority p in order; [sum_nq]: total size. *)
From Coq Require Import ZArith List Bool Reals Floats.SpecFloat.
From Verif Require Import SegSpec EcsModel EcsRhsModel EcsRhsSpec EcsRhsExamples NanModel ImplModel ImplSpec
  HierModel HierSpec HierProofs HierRhsProofs HierErrProofs HierExamples.
Import ListNotations.
Local Open Scope nat_scope.

(** C22: real scalars; [compared thr t x y z]: y is the error after comparison of
    value x with type t, z: the Jacobian row is zeroed. *)
Theorem C22_comparison : forall (F : Type) (feq : F -> F -> bool) (mem : imp R -> list R -> Prop) (okq : (Z -> R) -> Prop)
  (s : hs F R) adds p l thr (e : list R) (J : list (list R)),
  hreach feq 0%R mem okq s adds -> nth_error (lvls s) p = Some l -> length e = l_nv l ->
  exists e' zs, apply_cmp 0%R Rplus Rminus Ropp Rltb (l_cmp l) (l_ineq l) thr e = Some (e', zs) /\ length e' = length e /\
  forall j x, nth_error e j = Some x -> exists t y, nth_error (l_cmp l) j = Some t /\ nth_error e' j = Some y /\
    compared thr t x y (In j zs) /\
    (forall row, nth_error J j = Some row ->
       (In j zs -> nth_error (zero_jac 0%R zs J) j = Some (repeat 0%R (length row))) /\
       (~ In j zs -> nth_error (zero_jac 0%R zs J) j = Some row)).
Proof. exact @compare_rows. Qed.
Print Assumptions C22_comparison.

(** A NaN value of an inequality row is taken for satisfied. *)
Theorem C22_nan_refuted : exists v, isnan v = true /\
  apply_cmp fzero fadd fsub SFopp flt [Superior; Inferior] [0; 1] fone [v; v] = Some ([fzero; fzero], [0; 1]).
Proof. exists S754_nan. vm_compute. auto. Qed.
Print Assumptions C22_nan_refuted.

Example C22_case :
  hreach Nat.eqb 0%Z clk_mem clk_ok ex_hs ex_adds /\
  option_map (fun l => (l_cmp l, l_ineq l)) (nth_error (lvls ex_hs) 1) = Some ([Equality; Superior; Inferior; Equality], [1; 2]) /\
  apply_cmp 0%Z Z.add Z.sub Z.opp Z.ltb [Equality; Superior; Inferior; Equality] [1; 2] 3%Z [7; 2; 5; -4]%Z = Some ([7; -1; 8; -4]%Z, []) /\
  apply_cmp 0%Z Z.add Z.sub Z.opp Z.ltb [Equality; Superior; Inferior; Equality] [1; 2] 3%Z [7; 3; -3; -4]%Z = Some ([7; 0; 0; -4]%Z, [1; 2]).
Proof. split; [exact ex_hreach|]. vm_compute. auto. Qed.

(** C23: [con_error thr c q r]: error of constraint c at q with right hand side r *)
Theorem C23_masked_rows : forall (F : Type) (mem : imp R -> list R -> Prop) (okq : (Z -> R) -> Prop) thr (c : ic F R) q r k t,
  wf_ic 0%R mem okq c -> length r = s_nq (ic_s c) ->
  nth_error (m_mask (ic_i c)) k = Some false -> nth_error (s_cmp (ic_s c)) k = Some t ->
  exists v, nth_error (con_error 0%R Rplus Rminus Ropp Rltb thr c q r) k = Some v /\
    (t <> Superior -> t <> Inferior -> v = 0%R) /\ (thr = 0%R -> v = 0%R) /\
    (t = Superior \/ t = Inferior -> (0 < thr)%R -> Rabs v = thr).
Proof. exact @masked_rows. Qed.
Print Assumptions C23_masked_rows.

(** the error of a level is the concatenation of the errors of its constraints, each
    with its own right hand side *)
Theorem C23_level_error : forall (F V : Type) (feq : F -> F -> bool) (zero : V) (mem : imp V -> list V -> Prop) (okq : (Z -> V) -> Prop)
  (add sub : V -> V -> V) (neg : V -> V) (ltb : V -> V -> bool) thr q (s : hs F V) adds p l,
  hreach feq zero mem okq s adds -> nth_error (lvls s) p = Some l ->
  exists zs, level_error zero add sub neg ltb thr l q
    = Some (concat (map (fun x => con_error zero add sub neg ltb thr (fst x) q (snd x)) (combine (at_level adds p) (pieces (map ic_s (at_level adds p)) (l_rhs l)))), zs).
Proof. exact @reach_level_error. Qed.
Print Assumptions C23_level_error.

(** A constraint whose only row is masked can never be satisfied with a positive
    inequality threshold. *)
Theorem C23_unsatisfiable_refuted : exists (s : hs nat spec_float) adds thr sqthr,
  hreach Nat.eqb fzero fmem fok s adds /\ (forall c p, In (c, p) adds -> m_mask (ic_i c) = [false]) /\ adds <> [] /\
  flt fzero thr = true /\ flt fzero sqthr = true /\
  forall q, hsat fzero fadd fsub SFopp flt fsqn s thr sqthr q = Some false.
Proof.
  exists (fl_build [(fic 1 0 Superior false, 0)]), [(fic 1 0 Superior false, 0)], fone, ftiny.
  split; [apply fl_reach; [eexists; reflexivity | intros c p [H|[]]; injection H as <- <-; eauto]|].
  split; [intros c p [H|[]]; injection H as <- <-; reflexivity|]. split; [discriminate|].
  split; [reflexivity|]. split; [reflexivity|]. intros q. vm_compute. reflexivity.
Qed.
Print Assumptions C23_unsatisfiable_refuted.

Example C23_case :
  let c := cic 2 4 2 Equality Superior false false in
  wf_ic 0%Z clk_mem clk_ok c /\
  con_error 0%Z Z.add Z.sub Z.opp Z.ltb 0%Z c (fun i => i) [0; 0]%Z = [0; 0]%Z /\
  con_error 0%Z Z.add Z.sub Z.opp Z.ltb 3%Z c (fun i => i) [0; 0]%Z = [0; -3]%Z.
Proof. split; [apply cic_wf|]. vm_compute. auto. Qed.

(** C27 *)
Theorem C27_layout : forall (F V : Type) (feq : F -> F -> bool) (zero : V) (mem : imp V -> list V -> Prop) (okq : (Z -> V) -> Prop),
  equivalence feq -> forall (s : hs F V) adds, hreach feq zero mem okq s adds ->
  hcons s = map fst adds /\ length (lvls s) = nlevels adds /\
  (forall p l, nth_error (lvls s) p = Some l ->
     l_cons l = at_level adds p /\ l_nq l = sum_nq (at_level adds p) /\ l_nv l = sum_nv (at_level adds p) /\
     length (l_rhs l) = sum_nq (at_level adds p) /\ l_cmp l = concat (map (fun c => m_cmp (ic_i c)) (at_level adds p))) /\
  (forall k c p, nth_error adds k = Some (c, p) ->
     find_f feq (ic_f c) (prio s) = Some p /\
     find_f feq (ic_f c) (iqm s) = Some (sum_nq (at_level (firstn k adds) p)) /\
     find_f feq (ic_f c) (ivm s) = Some (sum_nv (at_level (firstn k adds) p)) /\
     sum_nq (at_level (firstn k adds) p) + s_nq (ic_s c) <= sum_nq (at_level adds p)) /\
  (forall j k c d p, j < k -> nth_error adds j = Some (c, p) -> nth_error adds k = Some (d, p) ->
     sum_nq (at_level (firstn j adds) p) + s_nq (ic_s c) <= sum_nq (at_level (firstn k adds) p)) /\
  (forall c p, hadd feq s c p = None <-> exists d r, In (d, r) adds /\ feq (ic_f d) (ic_f c) = true).
Proof. exact @layout. Qed.
Print Assumptions C27_layout.

Example C27_case :
  hreach Nat.eqb 0%Z clk_mem clk_ok ex_hs ex_adds /\ nlevels ex_adds = 2 /\
  iqm ex_hs = [(1, 0); (2, 0); (3, 2)] /\ map l_nq (lvls ex_hs) = [2; 4] /\
  hadd Nat.eqb ex_hs (cic 3 0 0 Equality Equality true true) 0 = None.
Proof. split; [exact ex_hreach|]. vm_compute. auto 6. Qed.

(** C28: f is any function equal to that of the k-th constraint *)
Theorem C28_set_get : forall (F V : Type) (feq : F -> F -> bool) (zero : V) (mem : imp V -> list V -> Prop) (okq : (Z -> V) -> Prop),
  equivalence feq -> forall (s : hs F V) adds k c p f x, hreach feq zero mem okq s adds ->
  nth_error adds k = Some (c, p) -> feq (ic_f c) f = true -> length x = s_nq (ic_s c) ->
  exists s', set_rhs_of feq s f x = Some (s', true) /\ hreach feq zero mem okq s' adds /\
    get_rhs_of feq s' f (s_nq (ic_s c)) = Some (Some x) /\
    (forall j d r, j <> k -> nth_error adds j = Some (d, r) ->
       get_rhs_of feq s' (ic_f d) (s_nq (ic_s d)) = get_rhs_of feq s (ic_f d) (s_nq (ic_s d))) /\
    hcons s' = hcons s /\ prio s' = prio s /\ iqm s' = iqm s /\ ivm s' = ivm s /\ last_optional s' = last_optional s /\
    map l_cons (lvls s') = map l_cons (lvls s) /\ map l_cmp (lvls s') = map l_cmp (lvls s).
Proof. exact @set_get. Qed.
Print Assumptions C28_set_get.

Theorem C28_unknown : forall (F V : Type) (feq : F -> F -> bool) (zero : V) (mem : imp V -> list V -> Prop) (okq : (Z -> V) -> Prop)
  (s : hs F V) adds f x nq, hreach feq zero mem okq s adds ->
  (forall c p, In (c, p) adds -> feq (ic_f c) f = false) ->
  set_rhs_of feq s f x = Some (s, false) /\ get_rhs_of feq s f nq = Some None.
Proof. exact @set_unknown. Qed.
Print Assumptions C28_unknown.

Example C28_case :
  match set_rhs_of Nat.eqb ex_hs 3 [0; 7]%Z with
  | Some (s, true) => get_rhs_of Nat.eqb s 3 2 = Some (Some [0; 7]%Z) /\ get_rhs_of Nat.eqb s 1 2 = Some (Some [0; 0]%Z) /\
      map l_rhs (lvls s) = [[0; 0]; [0; 0; 0; 7]]%Z
  | _ => False
  end.
Proof. vm_compute. auto. Qed.

(** C29: writing the whole vector: with one level it is what reading returns, and
    writing back what was read changes nothing *)
Theorem C29_one_level : forall (F V : Type) (feq : F -> F -> bool) (zero : V) (mem : imp V -> list V -> Prop) (okq : (Z -> V) -> Prop)
  (s : hs F V) adds v, hreach feq zero mem okq s adds -> nlevels adds = 1 ->
  length v = sum_nq (at_level adds 0) ->
  Forall2 (fun c y => s_exp c (s_log c y) = y) (map ic_s (at_level adds 0)) (pieces (map ic_s (at_level adds 0)) v) ->
  exists s', set_rhs_whole s v = Some s' /\ get_rhs_whole s' = v /\ (v = get_rhs_whole s -> s' = s).
Proof. exact @whole_one_level. Qed.
Print Assumptions C29_one_level.

(** otherwise the write is only defined if all levels but the last have no output *)
Theorem C29_levels : forall (F V : Type) (feq : F -> F -> bool) (zero : V) (mem : imp V -> list V -> Prop) (okq : (Z -> V) -> Prop)
  (s : hs F V) adds v, hreach feq zero mem okq s adds -> set_rhs_whole s v <> None ->
  forall p, S p < nlevels adds -> sum_nq (at_level adds p) = 0.
Proof. exact @whole_needs_empty. Qed.
Print Assumptions C29_levels.

Theorem C29_refuted : exists (s : hs nat Z) adds, hreach Nat.eqb 0%Z clk_mem clk_ok s adds /\
  set_rhs_whole s (get_rhs_whole s) = None.
Proof. exists ex_hs, ex_adds. split; [exact ex_hreach|]. vm_compute. reflexivity. Qed.
Print Assumptions C29_refuted.

Example C29_case :
  hreach Nat.eqb 0%Z clk_mem clk_ok one_hs one_adds /\ nlevels one_adds = 1 /\
  option_map get_rhs_whole (set_rhs_whole one_hs [1; 2; 3; 4]%Z) = Some [1; 2; 3; 4]%Z /\
  Forall2 (fun c y => s_exp c (s_log c y) = y) (map ic_s (at_level one_adds 0)) (pieces (map ic_s (at_level one_adds 0)) [1; 2; 3; 4]%Z).
Proof. split; [exact one_hreach|]. split; [reflexivity|]. split; [vm_compute; reflexivity|]. repeat constructor. Qed.

(** C30: after an addition, or an update (change of free variables), all right hand
    sides are neutral *)
Theorem C30_add_resets : forall (F V : Type) (feq : F -> F -> bool) (zero : V) (mem : imp V -> list V -> Prop) (okq : (Z -> V) -> Prop),
  equivalence feq -> forall (s : hs F V) adds c p s', hreach feq zero mem okq s adds -> wf_ic zero mem okq c ->
  hadd feq s c p = Some s' ->
  forall d r, In (d, r) (adds ++ [(c, p)]) -> get_rhs_of feq s' (ic_f d) (s_nq (ic_s d)) = Some (Some (s_neutral (ic_s d))).
Proof. exact @add_resets. Qed.
Print Assumptions C30_add_resets.

Theorem C30_update_resets : forall (F V : Type) (feq : F -> F -> bool) (zero : V) (mem : imp V -> list V -> Prop) (okq : (Z -> V) -> Prop),
  equivalence feq -> forall (s : hs F V) adds, hreach feq zero mem okq s adds ->
  forall d r, In (d, r) adds -> get_rhs_of feq (update s) (ic_f d) (s_nq (ic_s d)) = Some (Some (s_neutral (ic_s d))).
Proof. exact @update_resets. Qed.
Print Assumptions C30_update_resets.

(** right hand sides do not survive an addition *)
Theorem C30_survive_refuted : exists (s s' : hs nat Z) adds c p x,
  hreach Nat.eqb 0%Z clk_mem clk_ok s adds /\ wf_ic 0%Z clk_mem clk_ok c /\ hadd Nat.eqb s c p = Some s' /\
  get_rhs_of Nat.eqb s 1 2 = Some (Some x) /\ get_rhs_of Nat.eqb s' 1 2 <> Some (Some x).
Proof.
  exists set_hs, added_hs, ex_adds, (cic 9 0 2 Equality Equality true true), 0, [5; 0]%Z.
  split; [exact set_hreach|]. split; [apply cic_wf|]. split; [exact added_eq|]. split; [vm_compute; reflexivity | vm_compute; discriminate].
Qed.
Print Assumptions C30_survive_refuted.

(** C31: [counted s adds]: number of levels that are not optional *)
Theorem C31_satisfied : forall (F V : Type) (feq : F -> F -> bool) (zero : V) (mem : imp V -> list V -> Prop) (okq : (Z -> V) -> Prop)
  (add sub : V -> V -> V) (neg : V -> V) (ltb : V -> V -> bool) (sqn : list V -> spec_float),
  equivalence feq -> forall (s : hs F V) adds thr sqthr q, hreach feq zero mem okq s adds -> (last_optional s = true -> adds <> []) ->
  exists b, hsat zero add sub neg ltb sqn s thr sqthr q = Some b /\
  (b = true <-> flt fzero sqthr = true /\
     forall c p r, In (c, p) adds -> p < counted s adds -> get_rhs_of feq s (ic_f c) (s_nq (ic_s c)) = Some (Some r) ->
       isnan (sqn (con_error zero add sub neg ltb thr c q r)) = true \/ flt (sqn (con_error zero add sub neg ltb thr c q r)) sqthr = true).
Proof. exact @hsat_spec. Qed.
Print Assumptions C31_satisfied.

(** a configuration with NaN residuals is reported satisfied; an optional last level
    without any level leaves the arrays *)
Theorem C31_nan_refuted : exists (s : hs nat spec_float) adds q,
  hreach Nat.eqb fzero fmem fok s adds /\ last_optional s = false /\ adds = [(fic 1 0 Equality true, 0)] /\
  hsat fzero fadd fsub SFopp flt fsqn s fzero fone q = Some true /\ isnan (q 0%Z) = true.
Proof.
  exists (fl_build [(fic 1 0 Equality true, 0)]), [(fic 1 0 Equality true, 0)], (fun _ => S754_nan).
  split; [apply fl_reach; [eexists; reflexivity | intros c p [H|[]]; injection H as <- <-; eauto]|].
  split; [reflexivity|]. split; [reflexivity|]. split; [vm_compute; reflexivity|reflexivity].
Qed.
Print Assumptions C31_nan_refuted.

Theorem C31_underflow_refuted : exists s : hs nat spec_float,
  hreach Nat.eqb fzero fmem fok s [] /\ forall thr sqthr q, hsat fzero fadd fsub SFopp flt fsqn s thr sqthr q = None.
Proof. exists (mkhs [] [] [] [] [] true). split; [apply (hr_optional Nat.eqb fzero fmem fok hs_init []); constructor|]. reflexivity. Qed.
Print Assumptions C31_underflow_refuted.

Example C31_case :
  let l := [(fic 1 0 Equality true, 0); (fic 2 1 Superior true, 1)] in
  let s := fl_build l in
  let q := fun i => if Z.eqb i 0 then fzero else fone in
  hreach Nat.eqb fzero fmem fok s l /\ counted s l = 2 /\
  hsat fzero fadd fsub SFopp flt fsqn s fzero fone q = Some true /\
  hsat fzero fadd fsub SFopp flt fsqn s fzero fone (fun _ => fone) = Some false /\
  (let o := mkhs (lvls s) (prio s) (iqm s) (ivm s) (hcons s) true in
   counted o l = 1 /\ hsat fzero fadd fsub SFopp flt fsqn o fzero fone (fun i => if Z.eqb i 0 then fzero else SFopp fone) = Some true).
Proof.
  cbv zeta. split; [apply fl_reach; [eexists; reflexivity | intros c p [H|[H|[]]]; injection H as <- <-; eauto]|].
  repeat (split; [vm_compute; reflexivity|]). vm_compute; reflexivity.
Qed.

(** C32 *)
Theorem C32_per_constraint : forall (F V : Type) (feq : F -> F -> bool) (zero : V) (mem : imp V -> list V -> Prop) (okq : (Z -> V) -> Prop)
  (add sub : V -> V -> V) (neg : V -> V) (ltb : V -> V -> bool) (sqn : list V -> spec_float),
  equivalence feq -> forall (s : hs F V) adds thr sqthr q, hreach feq zero mem okq s adds -> (last_optional s = true -> adds <> []) ->
  flt fzero sqthr = true ->
  (forall c p, In (c, p) adds -> forall t, In t (s_cmp (ic_s c)) -> t <> Superior /\ t <> Inferior) ->
  (forall c p b e, In (c, p) adds -> hcon_sat feq zero sqn s c sqthr q = Some (b, true, e) -> isnan (sqn e) = false) ->
  (hsat zero add sub neg ltb sqn s thr sqthr q = Some true <->
   forall c p, In (c, p) adds -> p < counted s adds -> exists e, hcon_sat feq zero sqn s c sqthr q = Some (true, true, e)).
Proof. exact @per_constraint. Qed.
Print Assumptions C32_per_constraint.

(** what the per-constraint test computes: the masked residual, without comparison *)
Theorem C32_test : forall (F V : Type) (feq : F -> F -> bool) (zero : V) (mem : imp V -> list V -> Prop) (okq : (Z -> V) -> Prop)
  (sqn : list V -> spec_float), equivalence feq ->
  forall (s : hs F V) adds c p q sqthr, hreach feq zero mem okq s adds -> In (c, p) adds ->
  exists r, get_rhs_of feq s (ic_f c) (s_nq (ic_s c)) = Some (Some r) /\ length r = s_nq (ic_s c) /\
  let e := masked zero (m_mask (ic_i c)) (s_minus (ic_s c) (s_fun (ic_s c) q) r) in
  hcon_sat feq zero sqn s c sqthr q = Some (flt (sqn e) sqthr, true, e).
Proof.
  intros F V feq zero mem okq sqn.
  exact (@hcon_sat_spec F V feq zero mem okq (fun a _ => a) (fun a _ => a) (fun a => a) (fun _ _ => true) sqn).
Qed.
Print Assumptions C32_test.

(** A constraint the function of which is not in the solver: not found, not satisfied. *)
Theorem C32_unknown : forall (F V : Type) (feq : F -> F -> bool) (zero : V) (mem : imp V -> list V -> Prop) (okq : (Z -> V) -> Prop)
  (sqn : list V -> spec_float)
  (s : hs F V) adds c q sqthr, hreach feq zero mem okq s adds -> (forall d p, In (d, p) adds -> feq (ic_f d) (ic_f c) = false) ->
  hcon_sat feq zero sqn s c sqthr q = Some (false, false, []).
Proof. exact @hcon_sat_unknown. Qed.
Print Assumptions C32_unknown.
Example C32_unknown_case : hcon_sat Nat.eqb fzero fsqn (fl_build [(fic 1 0 Equality true, 0)]) (fic 2 0 Equality true) fone (fun _ => fzero) = Some (false, false, []).
Proof. vm_compute; reflexivity. Qed.

Theorem C32_inequality_refuted : exists (s : hs nat spec_float) c q,
  hreach Nat.eqb fzero fmem fok s [(c, 0)] /\ s_cmp (ic_s c) = [Superior] /\ flt fzero (q 0%Z) = true /\
  hsat fzero fadd fsub SFopp flt fsqn s fzero fone q = Some true /\
  hcon_sat Nat.eqb fzero fsqn s c fone q = Some (false, true, [q 0%Z]).
Proof.
  exists (fl_build [(fic 1 0 Superior true, 0)]), (fic 1 0 Superior true), (fun _ => fadd fone fone).
  split; [apply fl_reach; [eexists; reflexivity | intros c p [H|[]]; injection H as <- <-; eauto]|].
  repeat (split; [vm_compute; reflexivity|]). vm_compute; reflexivity.
Qed.
Print Assumptions C32_inequality_refuted.

Example C32_case :
  let l := [(fic 1 0 Equality true, 0); (fic 2 1 EqualToZero true, 1)] in
  let s := fl_build l in
  let q := fun i => if Z.eqb i 0 then fzero else fone in
  hreach Nat.eqb fzero fmem fok s l /\
  hcon_sat Nat.eqb fzero fsqn s (fic 1 0 Equality true) fone q = Some (true, true, [fzero]) /\
  hcon_sat Nat.eqb fzero fsqn s (fic 2 1 EqualToZero true) fone q = Some (false, true, [fone]) /\
  hsat fzero fadd fsub SFopp flt fsqn s fzero fone q = Some false /\
  hsat fzero fadd fsub SFopp flt fsqn s fzero fone (fun _ => fzero) = Some true.
Proof.
  cbv zeta. split; [apply fl_reach; [eexists; reflexivity | intros c p [H|[H|[]]]; injection H as <- <-; eauto]|].
  repeat (split; [vm_compute; reflexivity|]). vm_compute; reflexivity.
Qed.
