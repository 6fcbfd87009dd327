(** Properties C18-C21: Jacobian, right hand sides and satisfaction of sets of
    explicit constraints.

    [imp]: implicit formulation of a constraint (Lie group output space, function,
    comparison types).  [mem c x]: x is an element of the output space of c; [okq]:
    valid configurations; [wf_imp]: sizes and the laws of exp and log. *)
From Coq Require Import ZArith List Reals Floats.SpecFloat.
From Verif Require Import SegModel SegSpec ViewModel EcsModel EcsSpec EcsFinalProofs EcsJacModel EcsJacSpec EcsJacProofs
  EcsDerivProofs EcsRhsModel EcsRhsSpec EcsRhsProofs EcsRhsExamples NanModel RhsAssertModel RhsAssertProofs.
Import ListNotations.
Open Scope Z_scope.

(** C18 *)
Theorem C18_jacobian : forall (V Rh K : Type) (zero one : K) (kadd kmul : K -> K -> K),
  kadd zero zero = zero -> (forall x, kmul x zero = zero) ->
  forall iadd (P : con V Rh -> Prop) n m, family n m P ->
  forall (st : ecs V Rh) (Fs : list (mat K)), reach iadd P n m st -> jac_sizes (data st) Fs ->
  exists J, jacobian zero one kadd kmul st Fs = Some J /\ nr J = m /\ nc J = m /\
    total_jacobian zero one kadd kmul m (data st) Fs (at_ J) /\
    (forall i j, 0 <= i < m -> 0 <= j < m -> outputv (data st) i ->
       ~ (inputv (data st) j /\ ~ outputv (data st) j) -> at_ J i j = zero) /\
    (forall J2, total_jacobian zero one kadd kmul m (data st) Fs J2 ->
       forall i j, 0 <= i < m -> 0 <= j < m -> J2 i j = at_ J i j).
Proof. exact @jacobian_spec. Qed.
Print Assumptions C18_jacobian.

Theorem C18_jacobian_is_derivative : forall (Rh : Type) iadd (P : con R Rh -> Prop) m, family m m P ->
  (forall c, P c -> c_in c = c_inv c /\ c_out c = c_outv c) ->
  forall (st : ecs R Rh) rl (Fs : list (mat R)) J (q r : R -> Z -> R) (dq : Z -> R),
  reach iadd P m m st -> length rl = length (data st) -> (forall c, In c (data st) -> sized c) ->
  jac_sizes (data st) Fs -> jacobian 0%R 1%R Rplus Rmult st Fs = Some J ->
  (forall t, solve (with_rhs st rl) (q t) = Some (r t)) ->
  (forall k c F rh, nth_error (data st) k = Some c -> nth_error Fs k = Some F -> nth_error rl k = Some rh ->
     diff_along (c_val c rh) (map (r 0%R) (indices (c_in c))) F (length (indices (c_out c)))) ->
  (forall i, 0 <= i < m -> derivable_pt_lim (fun t => q t i) 0 (dq i)) ->
  forall i, 0 <= i < m ->
    derivable_pt_lim (fun t => r t i) 0 (ksum 0%R Rplus (Z.to_nat m) (fun j => (at_ J i j * dq j)%R)).
Proof. exact @jacobian_is_derivative. Qed.
Print Assumptions C18_jacobian_is_derivative.

Example C18_case :
  let Fs := [mkmat 1 2 (fun _ j => 2 + j); mkmat 1 2 (fun _ j => 5 + j)] in
  reach Z.add (fun c => In c exs) 6 6 ex_st /\ jac_sizes (data ex_st) Fs /\ data ex_st = [exB; exA] /\
  match jacobian 0 1 Z.add Z.mul ex_st Fs with
  | Some J => map (fun i => map (at_ J i) [0; 1; 2; 3; 4; 5]) [3; 4; 5]
  | None => []
  end = [[0; 0; 0; 1; 0; 0]; [5; 6; 0; 0; 0; 0]; [15; 18; 2; 0; 0; 0]].
Proof.
  split; [exact ex_reach|]. split; [|split; [reflexivity | vm_compute; reflexivity]].
  split; [reflexivity|]. intros [|[|[|k]]] c F Hc HF; try discriminate Hc; vm_compute in Hc; cbn in HF;
  injection Hc as <-; injection HF as <-; vm_compute; auto.
Qed.

(** C19 *)
Theorem C19_set_one : forall (V : Type) (zero : V) (mem : imp V -> list V -> Prop) (okq : (Z -> V) -> Prop) (cs : list (imp V)) rl i c x,
  length rl = length cs -> nth_error cs i = Some c -> wf_imp zero mem okq c -> mem c x ->
  exists rl', set_rhs zero cs rl i x = Some rl' /\ length rl' = length cs /\
    nth_error rl' i = Some (proj zero c x) /\
    (forall k, k <> i -> nth_error rl' k = nth_error rl k) /\
    set_rhs zero cs rl' i (proj zero c x) = Some rl'.
Proof. exact @set_rhs_spec. Qed.
Print Assumptions C19_set_one.

Theorem C19_set_get_by_constraint : forall (V : Type) (zero : V) (mem : imp V -> list V -> Prop) (okq : (Z -> V) -> Prop) same (cs : list (imp V)) rl x i c,
  length rl = length cs -> nth_error cs i = Some c ->
  same i = true -> (forall j, (j < i)%nat -> same j = false) -> wf_imp zero mem okq c -> mem c x ->
  exists rl', set_rhs_con zero same cs rl x = Some (rl', true) /\
    get_rhs_con same cs rl' = Some (proj zero c x) /\
    (forall k, k <> i -> nth_error rl' k = nth_error rl k).
Proof. exact @set_get_con. Qed.
Print Assumptions C19_set_get_by_constraint.

Theorem C19_unknown_constraint : forall (V : Type) (zero : V) same (cs : list (imp V)) rl x,
  (forall j, (j < length cs)%nat -> same j = false) ->
  set_rhs_con zero same cs rl x = Some (rl, false) /\ get_rhs_con same cs rl = None.
Proof. exact @set_con_missing. Qed.
Print Assumptions C19_unknown_constraint.

Theorem C19_set_all : forall (V : Type) (zero : V) (mem : imp V -> list V -> Prop) (okq : (Z -> V) -> Prop) (cs : list (imp V)),
  (forall c, In c cs -> wf_imp zero mem okq c) -> forall v, rhs_vector mem cs v ->
  set_all zero cs v = Some (projs zero cs (pieces cs v)) /\
  length (projs zero cs (pieces cs v)) = length cs /\
  length (concat (projs zero cs (pieces cs v))) = total_size cs /\
  set_all zero cs (concat (projs zero cs (pieces cs v))) = Some (projs zero cs (pieces cs v)) /\
  (forall i c r, nth_error cs i = Some c -> nth_error (projs zero cs (pieces cs v)) i = Some r ->
     mem c r /\ proj zero c r = r).
Proof. exact @set_all_spec. Qed.
Print Assumptions C19_set_all.

Theorem C19_write_back : forall (V : Type) (zero : V) (mem : imp V -> list V -> Prop) (okq : (Z -> V) -> Prop) (cs : list (imp V)) rl,
  (forall c, In c cs -> wf_imp zero mem okq c) -> rhs_reach zero mem okq cs rl ->
  set_all zero cs (get_all rl) = Some rl /\
  (forall i c r, nth_error cs i = Some c -> nth_error rl i = Some r -> set_rhs zero cs rl i r = Some rl).
Proof. exact @write_back. Qed.
Print Assumptions C19_write_back.

(** Assertions on the values.  One constraint: the components of the logarithm that are not
    parameterised must be below the threshold. *)
Theorem C19_assertion_one : forall (V : Type) (zero : V) (mem : imp V -> list V -> Prop) (okq : (Z -> V) -> Prop) (small : V -> bool) (cs : list (imp V)) rl i c x,
  length rl = length cs -> nth_error cs i = Some c -> wf_imp zero mem okq c -> mem c x ->
  ((forall k t y, nth_error (s_cmp c) k = Some t -> nth_error (s_log c x) k = Some y -> t <> Equality -> small y = true) ->
   set_rhs_chk zero small cs rl i x = set_rhs zero cs rl i x) /\
  ((exists k t y, nth_error (s_cmp c) k = Some t /\ nth_error (s_log c x) k = Some y /\ t <> Equality /\ small y = false) ->
   set_rhs_chk zero small cs rl i x = None).
Proof. exact @set_chk_spec. Qed.
Print Assumptions C19_assertion_one.

(** The whole vector: never false.  What is read can be written back. *)
Theorem C19_assertion_all : forall (V : Type) (zero : V) (mem : imp V -> list V -> Prop) (okq : (Z -> V) -> Prop) (is0 : V -> bool), is0 zero = true ->
  forall cs, (forall c, In c cs -> wf_imp zero mem okq c) -> forall v, rhs_vector mem cs v -> set_all_chk zero is0 cs v = set_all zero cs v.
Proof. exact @all_chk_spec. Qed.
Print Assumptions C19_assertion_all.
Theorem C19_assertion_write_back : forall (V : Type) (zero : V) (mem : imp V -> list V -> Prop) (okq : (Z -> V) -> Prop) (small is0 : V -> bool) (cs : list (imp V)) rl,
  small zero = true -> is0 zero = true -> (forall c, In c cs -> wf_imp zero mem okq c) -> rhs_reach zero mem okq cs rl ->
  set_all_chk zero is0 cs (get_all rl) = Some rl /\
  forall i c r, nth_error cs i = Some c -> nth_error rl i = Some r -> set_rhs_chk zero small cs rl i r = Some rl.
Proof. exact @back_chk. Qed.
Print Assumptions C19_assertion_write_back.

(** the same value is accepted as a whole vector and not for the constraint *)
Theorem C19_assertions_agree_refuted : exists (cs : list (imp Z)) rl x, (forall c, In c cs -> wf_imp 0 clk_mem clk_ok c) /\ rhs_reach 0 clk_mem clk_ok cs rl /\ rhs_vector clk_mem cs x /\ length cs = 1%nat /\
  set_all_chk 0 (Z.eqb 0) cs x = Some [[3; 0]] /\ set_rhs_chk 0 (fun y => y * y <? 1) cs rl 0 x = None.
Proof. exact chk_differ. Qed.
Print Assumptions C19_assertions_agree_refuted.

Example C19_case :
  let cs := [clk 4 2 Equality EqualToZero; clk 2 0 Equality Equality] in
  (forall c, In c cs -> wf_imp 0 clk_mem clk_ok c) /\
  set_all 0 cs [3; 8; 4; 7] = Some [[3; 0]; [4; 7]] /\
  set_rhs 0 cs [[3; 0]; [4; 7]] 1 [1; 2] = Some [[3; 0]; [1; 2]] /\
  get_all [[3; 0]; [1; 2]] = [3; 0; 1; 2].
Proof. split; [intros c [<-|[<-|[]]]; apply clk_wf, clk_ok0 | vm_compute; auto]. Qed.

(** C20 *)
Theorem C20_configuration_solved : forall (V : Type) (zero : V) (mem : imp V -> list V -> Prop) (okq : (Z -> V) -> Prop) iadd (P : con V (list V) -> Prop) n m,
  family n m P -> forall (st : ecs V (list V)) (cs : list (imp V)) rl q,
  reach iadd P n m st -> (forall c, In c (data st) -> sized c) -> okq q ->
  Forall2 (formulations_agree mem okq) (data st) cs -> (forall c, In c cs -> wf_imp zero mem okq c) ->
  (forall c t, In c cs -> In t (s_cmp c) -> t = Equality) ->
  (forall c, In c cs -> s_exp c (s_log c (s_fun c q)) = s_fun c q) ->
  (forall c, In c cs -> minus_refl zero mem c) ->
  length rl = length cs ->
  exists rl', from_input_all zero cs rl q = Some rl' /\
    satisfies_all q (combine (data st) rl') /\ no_residual zero cs rl' q /\
    exists q', solve (with_rhs st rl') q = Some q' /\ forall i, q' i = q i.
Proof. exact @from_config_solved. Qed.
Print Assumptions C20_configuration_solved.

(** whatever the comparison types: the right hand side keeps the parameterised
    components of the logarithm of the value, the others are zero *)
Theorem C20_projected_value : forall (V : Type) (zero : V) (mem : imp V -> list V -> Prop) (okq : (Z -> V) -> Prop) (cs : list (imp V)) rl q,
  okq q -> (forall c, In c cs -> wf_imp zero mem okq c) -> length rl = length cs ->
  exists rl', from_input_all zero cs rl q = Some rl' /\ rl' = map (fun c => proj zero c (s_fun c q)) cs.
Proof. exact @from_input_all_spec. Qed.
Print Assumptions C20_projected_value.

(** in a vector space the residual left is the value of the components that are not
    parameterised *)
Theorem C20_residual_left : forall (V : Type) (zero : V) sub (c : imp V) (h : list V),
  (forall x, sub x x = zero) -> (forall x, sub x zero = x) ->
  (forall x, s_log c x = x) -> (forall x, s_exp c x = x) ->
  (forall x y, s_minus c x y = map (fun p => sub (fst p) (snd p)) (combine x y)) ->
  length h = length (s_cmp c) ->
  s_minus c h (proj zero c h) = map (fun p => match fst p with Equality => zero | _ => snd p end) (combine (s_cmp c) h).
Proof. exact @vector_residual. Qed.
Print Assumptions C20_residual_left.

Example C20_case :
  let q := fun i => nth (Z.to_nat i) [7; 8; -3; 1; 2; 6] 0 in
  family 6 6 (fun c => In c clk_exs) /\ reach Z.add (fun c => In c clk_exs) 6 6 clk_st /\ clk_ok q /\
  (forall c, In c (data clk_st) -> sized c) /\ Forall2 (formulations_agree clk_mem clk_ok) (data clk_st) clk_imps /\
  (forall c, In c clk_imps -> wf_imp 0 clk_mem clk_ok c) /\ (forall c, In c clk_imps -> minus_refl 0 clk_mem c) /\
  (forall c t, In c clk_imps -> In t (s_cmp c) -> t = Equality) /\
  (forall c q, In c clk_imps -> s_exp c (s_log c (s_fun c q)) = s_fun c q) /\
  from_input_all 0 clk_imps [[0; 0]; [0; 0]] q = Some [[5; 5]; [-10; 3]].
Proof.
  split; [exact clk_family|]. split; [exact clk_reach|]. split; [vm_compute; intuition discriminate|].
  split; [exact clk_sized|]. split; [exact clk_agree|].
  destruct clk_props as (A & B & C & D). repeat (split; [assumption|]). vm_compute. reflexivity.
Qed.

(** C21 *)
Theorem C21_is_satisfied : forall (V : Type) (sqn : list V -> spec_float) (cs : list (imp V)) rl q d thr,
  length rl = length cs ->
  let t := eff_thr d thr in
  (fst (is_satisfied sqn cs rl q d thr) = true <->
    flt fzero (fmul t t) = true /\
    forall i c r, nth_error cs i = Some c -> nth_error rl i = Some r ->
      isnan (sqn (s_minus c (s_fun c q) r)) = true \/
      flt (sqn (s_minus c (s_fun c q) r)) (fmul t t) = true) /\
  snd (is_satisfied sqn cs rl q d thr)
    = concat (map (fun p => s_minus (fst p) (s_fun (fst p) q) (snd p)) (combine cs rl)).
Proof. exact @is_satisfied_spec. Qed.
Print Assumptions C21_is_satisfied.

Theorem C21_one_constraint : forall (V : Type) (sqn : list V -> spec_float) same (cs : list (imp V)) rl q d i c r,
  length rl = length cs -> nth_error cs i = Some c -> nth_error rl i = Some r ->
  same i = true -> (forall j, (j < i)%nat -> same j = false) ->
  con_satisfied sqn same cs rl q d =
    (flt (sqn (s_minus c (s_fun c q) r)) (fmul d d), true, Some (s_minus c (s_fun c q) r)).
Proof. exact @con_satisfied_spec. Qed.
Print Assumptions C21_one_constraint.

Theorem C21_no_residual_after_solve : forall (V : Type) (zero : V) (mem : imp V -> list V -> Prop) (okq : (Z -> V) -> Prop) iadd (P : con V (list V) -> Prop) n m,
  family n m P -> forall (st : ecs V (list V)) (cs : list (imp V)) rl q q',
  reach iadd P n m st -> (forall c, In c (data st) -> sized c) ->
  Forall2 (formulations_agree mem okq) (data st) cs -> (forall c, In c cs -> minus_refl zero mem c) ->
  length rl = length cs ->
  (forall i c r, nth_error cs i = Some c -> nth_error rl i = Some r -> mem c r) ->
  solve (with_rhs st rl) q = Some q' -> okq q' -> no_residual zero cs rl q'.
Proof. exact @solved_no_residual. Qed.
Print Assumptions C21_no_residual_after_solve.

Theorem C21_satisfied_without_residual : forall (V : Type) (zero : V) (sqn : list V -> spec_float) (cs : list (imp V)) rl q d thr,
  no_residual zero cs rl q -> (forall k, sqn (repeat zero k) = fzero) ->
  fst (is_satisfied sqn cs rl q d thr) = flt fzero (fmul (eff_thr d thr) (eff_thr d thr)).
Proof. exact @satisfied_no_residual. Qed.
Print Assumptions C21_satisfied_without_residual.

(** NaN is reported satisfied *)
Theorem C21_nan_refuted :
  exists q, fst (is_satisfied fsqn [fl_imp] [[fzero]] q fone fone) = true /\ isnan (q 0) = true.
Proof. exact nan_satisfied. Qed.
Print Assumptions C21_nan_refuted.

(** a positive threshold whose square underflows is never met *)
Theorem C21_tiny_threshold_refuted :
  flt fzero ftiny = true /\
  fst (is_satisfied fsqn [fl_imp] [[fone]] (fun _ => fone) fone ftiny) = false /\
  s_minus fl_imp (s_fun fl_imp (fun _ => fone)) [fone] = [fzero].
Proof. exact tiny_threshold. Qed.
Print Assumptions C21_tiny_threshold_refuted.

Example C21_case :
  let half := binary_normalize 53 1024 1 (-1) false in
  let q := fun i => if i =? 0 then half else fone in
  fst (is_satisfied fsqn [fl_imp] [[fzero]] q fone fone) = true /\
  fst (is_satisfied fsqn [fl_imp] [[fzero]] q fone half) = false /\
  fst (is_satisfied fsqn [fl_imp] [[fzero]] q fone minus_one) = true /\
  snd (is_satisfied fsqn [fl_imp; fl_imp] [[fzero]; [half]] q fone half) = [half; fzero].
Proof. vm_compute. auto. Qed.
