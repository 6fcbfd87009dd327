(** C80: results of all levels stacked in one vector; satisfaction with errors. *)
From Coq Require Import ZArith List Bool Lia Floats.SpecFloat.
From Verif Require Import SegModel SegSpec ViewModel EcsModel EcsSpec EcsRhsModel EcsRhsSpec EcsRhsExamples NanModel ImplModel ImplSpec
  HierModel HierSpec HierErrProofs HierExamples BySubModel BySubSpec BySubExamples AccModel AccSpec AccProofs AccExamples.
Import ListNotations.
Local Open Scope nat_scope.

(** getValue: values of all constraints, level by level; the vector must have exactly
    the size of these values *)
Theorem C80_value : forall (F V : Type) (feq : F -> F -> bool) (zero : V) (mem : imp V -> list V -> Prop) (okq : (Z -> V) -> Prop)
  (s : hs F V) adds q v w, hreach feq zero mem okq s adds ->
  get_value s q v = Some w <->
  length v = sum_nq (in_order adds) /\ w = concat (map (fun c => s_fun (ic_s c) q) (in_order adds)).
Proof. exact @get_value_spec. Qed.
Print Assumptions C80_value.

(** ... which is not dimension() when an output space is not a vector space *)
Theorem C80_value_size_refuted : exists (s : hs nat Z) adds q, hreach Nat.eqb 0%Z turn_mem turn_ok s adds /\
  dimension s = 2 /\ (forall v, length v = dimension s -> get_value s q v = None).
Proof. exact value_size_refuted. Qed.
Print Assumptions C80_value_size_refuted.

Example C80_value_case :
  get_value turn_hs (fun _ => 3%Z) [7; 7; 7; 7]%Z = Some [0; -1; 0; -1]%Z /\
  get_value ex_hs (fun i => i) [0; 0; 0; 0; 0; 0]%Z = Some [2; 2; 2; 2; 4; 4]%Z.
Proof. vm_compute. auto. Qed.

(** residualError(vector): the errors of all constraints, also those of an optional
    level, at the head of the vector; the rest is left as it is *)
Theorem C80_residual_error : forall (F V : Type) (feq : F -> F -> bool) (zero : V) (mem : imp V -> list V -> Prop) (okq : (Z -> V) -> Prop),
  equivalence feq -> forall (add sub : V -> V -> V) (neg : V -> V) (ltb : V -> V -> bool) (s : hs F V) adds thr q v,
  hreach feq zero mem okq s adds ->
  exists es, Forall2 (own_error feq zero add sub neg ltb thr q s) (in_order adds) es /\ length (concat es) = dimension s /\
  (dimension s <= length v -> residual_error zero add sub neg ltb s thr q v = Some (concat es ++ skipn (dimension s) v)) /\
  (length v < dimension s -> residual_error zero add sub neg ltb s thr q v = None).
Proof. exact @residual_error_spec. Qed.
Print Assumptions C80_residual_error.

(** dimension() is the number of rows of all constraints, masked ones included *)
Theorem C80_dimension : forall (F V : Type) (feq : F -> F -> bool) (zero : V) (mem : imp V -> list V -> Prop) (okq : (Z -> V) -> Prop)
  (s : hs F V) adds, hreach feq zero mem okq s adds -> dimension s = sum_nv (in_order adds).
Proof. exact @dimension_spec. Qed.
Print Assumptions C80_dimension.

Example C80_residual_case :
  dimension set_hs = 6 /\ in_order ex_adds = [cic 2 4 2 Equality Equality true false; cic 1 2 0 Equality Superior true true; cic 3 4 0 Inferior Equality true true] /\
  residual_error 0%Z Z.add Z.sub Z.opp Z.ltb set_hs 0%Z (fun i => i) [9; 9; 9; 9; 9; 9; 9; 8]%Z = Some [2; 0; -3; 0; 4; 4; 9; 8]%Z.
Proof. vm_compute. auto. Qed.

(** getReducedJacobian: the reduced Jacobians of all levels, one above the other; J must
    have reducedDimension() rows and the columns of the blocks *)
Theorem C80_reduced_jacobian : forall (K F V : Type) (act : ic F V -> bool) (s : hs F V) (J : mat K) (rs : list (mat K)),
  (0 <= nc J)%Z -> (0 <= nr J)%Z ->
  Forall2 (fun l r => nr r = cardinal (active_rows_of_J act l)) (lvls s) rs -> (forall r, In r rs -> (0 <= nr r)%Z) ->
  ((forall r, In r rs -> nc r = nc J) /\ nr J = reduced_dim act s ->
    exists J', get_reduced_jacobian J rs = Some J' /\ nr J' = nr J /\ nc J' = nc J /\
    forall k r i j, nth_error rs k = Some r -> (0 <= i < nr r)%Z -> (0 <= j < nc J)%Z ->
      at_ J' (zsum (map nr (firstn k rs)) + i)%Z j = at_ r i j) /\
  (~ ((forall r, In r rs -> nc r = nc J) /\ nr J = reduced_dim act s) -> get_reduced_jacobian J rs = None).
Proof. exact @reduced_jacobian_spec. Qed.
Print Assumptions C80_reduced_jacobian.

Example C80_jacobian_case :
  let rs := [mkmat 2 3 (fun i j => 10 * i + j)%Z; mkmat 4 3 (fun i j => 100 + 10 * i + j)%Z] in
  let act := fun _ : ic nat Z => true in
  let s := match build Nat.eqb hs_init [(cic 2 4 2 Equality Equality true true, 0); (cic 1 2 0 Equality Superior true true, 1); (cic 3 4 0 Inferior Equality true true, 1)] with Some s => s | None => hs_init end in
  Forall2 (fun l r => nr r = cardinal (active_rows_of_J act l)) (lvls s) rs /\ reduced_dim act s = 6%Z /\
  (exists J', get_reduced_jacobian (mkmat 6 3 (fun _ _ => 0%Z)) rs = Some J' /\ at_ J' 4%Z 2%Z = 122%Z) /\
  get_reduced_jacobian (mkmat 7 3 (fun _ _ => 0%Z)) rs = None.
Proof. cbv zeta. split; [repeat constructor|]. split; [reflexivity|]. split; [eexists; split; [reflexivity|vm_compute; reflexivity]|vm_compute; reflexivity]. Qed.

(** isSatisfied(arg, error) *)
Theorem C80_satisfied_error : forall (F V : Type) (feq : F -> F -> bool) (zero : V) (iadd : Z -> Z -> Z) (mem : imp V -> list V -> Prop)
  (okq : (Z -> V) -> Prop), equivalence feq -> forall (P : con V (list V) -> Prop) (n m : Z), family n m P ->
  forall (add sub : V -> V -> V) (neg : V -> V) (ltb : V -> V -> bool) (sqn : list V -> spec_float) (s : bs F V) l ineq sqthr d q error,
  breach feq zero iadd mem okq P n m s l -> (last_optional (bs_h s) = true -> numeric_ones l <> []) ->
  (length error = dimension (bs_h s) + error_rows (explicit_ones l) ->
   exists b ies ees, bsat_err zero add sub neg ltb sqn sqthr d ineq s q error = Some (b, concat ies ++ concat ees) /\
     bsat zero add sub neg ltb sqn sqthr d ineq s q = Some b /\ length (concat ies) = dimension (bs_h s) /\
     Forall2 (own_error feq zero add sub neg ltb ineq q (bs_h s)) (in_order (numeric_ones l)) ies /\
     Forall2 (explicit_error q s (explicit_ones l)) (explicit_ones l) ees) /\
  (length error <> dimension (bs_h s) + error_rows (explicit_ones l) ->
   bsat_err zero add sub neg ltb sqn sqthr d ineq s q error = None).
Proof. exact @bsat_err_spec. Qed.
Print Assumptions C80_satisfied_error.

(** isSatisfied(arg) ([both] with the thresholds of the solver) and isSatisfied(arg, thr) *)
Theorem C80_satisfied : forall (F V : Type) (feq : F -> F -> bool) (zero : V) (iadd : Z -> Z -> Z) (mem : imp V -> list V -> Prop)
  (okq : (Z -> V) -> Prop), equivalence feq -> forall (P : con V (list V) -> Prop) (n m : Z), family n m P ->
  forall (add sub : V -> V -> V) (neg : V -> V) (ltb : V -> V -> bool) (sqn : list V -> spec_float) (s : bs F V) l ineq d,
  breach feq zero iadd mem okq P n m s l -> (last_optional (bs_h s) = true -> numeric_ones l <> []) ->
  let verdict (r : option bool) (q : Z -> V) (t te : spec_float) := exists b, r = Some b /\
    (b = true <->
    flt fzero t = true /\ flt fzero te = true /\
    (forall c p r, In (c, p) (numeric_ones l) -> p < counted (bs_h s) (numeric_ones l) ->
       get_rhs_of feq (bs_h s) (ic_f c) (s_nq (ic_s c)) = Some (Some r) -> below (sqn (con_error zero add sub neg ltb ineq c q r)) t) /\
    (forall i c r, nth_error (explicit_ones l) i = Some c -> nth_error (rhsl (bs_e s)) i = Some r ->
       below (sqn (s_minus (ic_s (bc_c c)) (s_fun (ic_s (bc_c c)) q) r)) te)) in
  (forall sqthr q, verdict (bsat zero add sub neg ltb sqn sqthr d ineq s q) q sqthr (fmul d d)) /\
  (forall thr q, SFeqb thr minus_one = false -> verdict (bsat_thr zero add sub neg ltb sqn d ineq s q thr) q (fmul thr thr) (fmul thr thr)) /\
  (forall thr q, SFeqb thr minus_one = true -> verdict (bsat_thr zero add sub neg ltb sqn d ineq s q thr) q (fmul thr thr) (fmul d d)).
Proof. exact @verdicts. Qed.
Print Assumptions C80_satisfied.

(** The threshold -1 is compared with the numerical constraints only: an explicit
    constraint with error 2 passes. *)
Theorem C80_minus_one_refuted : exists (s : bs nat Z) l d q, breach Nat.eqb 0%Z Z.add clk_mem clk_ok clkP 6 6 s l /\
  bsat_thr 0%Z Z.add Z.sub Z.opp Z.ltb zsqn d 0%Z s q (fl (-1)) = Some true /\
  bsat_thr 0%Z Z.add Z.sub Z.opp Z.ltb zsqn d 0%Z s q (fl 1) = Some false.
Proof. exact minus_one_refuted. Qed.
Print Assumptions C80_minus_one_refuted.

(** errorSize() counts the output variables of the explicit constraints, not the rows
    of their implicit formulations *)
Theorem C80_error_size : forall (F V : Type) (feq : F -> F -> bool) (zero : V) (iadd : Z -> Z -> Z) (mem : imp V -> list V -> Prop)
  (okq : (Z -> V) -> Prop) (P : con V (list V) -> Prop) (n m : Z), family n m P ->
  forall (s : bs F V) l, breach feq zero iadd mem okq P n m s l ->
  error_size s = (Z.of_nat (dimension (bs_h s)) + zsum (map (fun c => cardinal (c_outv c)) (excons l)))%Z.
Proof. exact @error_size_spec. Qed.
Print Assumptions C80_error_size.

Theorem C80_error_size_refuted : exists (s : bs nat Z) l, breach Nat.eqb 0%Z Z.add clk_mem clk_ok wideP 6 6 s l /\
  forall sqthr d q error, Z.of_nat (length error) = error_size s ->
  bsat_err 0%Z Z.add Z.sub Z.opp Z.ltb zsqn sqthr d 0%Z s q error = None.
Proof. exact error_size_refuted. Qed.
Print Assumptions C80_error_size_refuted.

Example C80_satisfied_case :
  breach Nat.eqb 0%Z Z.add clk_mem clk_ok clkP 6 6 mixed_set (snd mixed) /\
  dimension (bs_h mixed_set) = 2 /\ error_rows (explicit_ones (snd mixed)) = 2 /\ error_size mixed_set = 4%Z /\
  bsat_err 0%Z Z.add Z.sub Z.opp Z.ltb zsqn (fl 30) (fl 5) 0%Z mixed_set (fun i => i) [9; 9; 9; 9]%Z = Some (false, [4; 0; -5; -1]%Z) /\
  bsat_err 0%Z Z.add Z.sub Z.opp Z.ltb zsqn (fl 30) (fl 6) 0%Z mixed_set (fun i => i) [9; 9; 9; 9]%Z = Some (true, [4; 0; -5; -1]%Z) /\
  bsat_thr 0%Z Z.add Z.sub Z.opp Z.ltb zsqn (fl 1) 0%Z mixed_set (fun i => i) (fl (-6)) = Some true.
Proof. split; [exact mixed_set_breach|]. vm_compute. auto 10. Qed.

(** activeParameters(): the variables some function depends on; undefined as soon as a
    level has no constraint *)
Theorem C80_active_parameters : forall n ls, (forall l f, In l ls -> In f l -> length f = n) ->
  ((forall l, In l ls -> l <> []) -> exists r, active_parameters n ls = Some r /\ length r = n /\
     forall i, nth i r false = true <-> exists l f, In l ls /\ In f l /\ nth i f false = true) /\
  (n <> 0 -> In [] ls -> active_parameters n ls = None).
Proof. exact active_parameters_spec. Qed.
Print Assumptions C80_active_parameters.

Example C80_active_case :
  active_parameters 3 [[[true; false; false]; [false; false; false]]; [[false; false; true]]] = Some [true; false; true] /\
  active_parameters 3 [[]; [[false; false; true]]] = None.
Proof. vm_compute. auto. Qed.
