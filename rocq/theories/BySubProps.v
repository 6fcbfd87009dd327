(** Properties C28-C30 (solver by substitution), C36, C37, C39, C41, C45 and C47.

    [breach s l]: solver s is reached through the interface, [l] being the accepted
    constraints in order, each with the way it is treated; [excons l]: explicit
    formulations of those treated explicitly; [numeric_ones l]: the others with their
    priorities.  [family n m P]: well formed explicit formulations (EcsSpec). *)
From Coq Require Import ZArith List Bool Sorted.
From Verif Require Import SegSpec SegModel ViewModel EcsModel EcsSpec EcsOrderProofs EcsRhsModel EcsRhsSpec EcsRhsExamples ImplModel ImplSpec
  HierModel HierSpec HierExamples BySubModel BySubSpec BySubProofs BySubRowProofs BySubRowFinal BySubRhsProofs BySubMergeProofs
  DirProofs SaveProofs BySubExamples.
Import ListNotations.
Local Open Scope nat_scope.

(** C28 *)
Theorem C28_substitution_numeric : forall (F V : Type) (feq : F -> F -> bool) (zero : V) (iadd : Z -> Z -> Z) (mem : imp V -> list V -> Prop)
  (okq : (Z -> V) -> Prop), equivalence feq -> forall (P : con V (list V) -> Prop) (n m : Z), family n m P ->
  forall (s : bs F V) l k c p c' x, breach feq zero iadd mem okq P n m s l ->
  nth_error (numeric_ones l) k = Some (c, p) -> feq (ic_f c) (bc_f c') = true ->
  s_nq (ic_s (bc_c c')) = s_nq (ic_s c) -> length x = s_nq (ic_s c) ->
  exists s', bset_of feq zero s c' x = Some (s', true) /\ bget_of feq s' c' = Some (Some x) /\
    (forall j d r, j <> k -> nth_error (numeric_ones l) j = Some (d, r) ->
       get_rhs_of feq (bs_h s') (ic_f d) (s_nq (ic_s d)) = get_rhs_of feq (bs_h s) (ic_f d) (s_nq (ic_s d))) /\
    bs_e s' = bs_e s /\ bs_ex s' = bs_ex s /\ bs_cons s' = bs_cons s /\ bs_free s' = bs_free s.
Proof. exact @numeric_set_get. Qed.
Print Assumptions C28_substitution_numeric.

(** [proj zero c x]: x without its components along rows that are not of type Equality *)
Theorem C28_substitution_explicit : forall (F V : Type) (feq : F -> F -> bool) (zero : V) (iadd : Z -> Z -> Z) (mem : imp V -> list V -> Prop)
  (okq : (Z -> V) -> Prop), equivalence feq -> forall (P : con V (list V) -> Prop) (n m : Z), family n m P ->
  forall (s : bs F V) l k c x, breach feq zero iadd mem okq P n m s l ->
  nth_error (explicit_ones l) k = Some c -> ~ function_present feq l c ->
  (forall j d, j < k -> nth_error (explicit_ones l) j = Some d -> feq (bc_f d) (bc_f c) = false) ->
  mem (ic_s (bc_c c)) x ->
  exists s', bset_of feq zero s c x = Some (s', true) /\ bget_of feq s' c = Some (Some (proj zero (ic_s (bc_c c)) x)) /\
    (forall j, j <> k -> nth_error (rhsl (bs_e s')) j = nth_error (rhsl (bs_e s)) j) /\
    nth_error (rhsl (bs_e s')) k = Some (proj zero (ic_s (bc_c c)) x) /\
    bs_h s' = bs_h s /\ bs_ex s' = bs_ex s /\ bs_cons s' = bs_cons s /\ bs_free s' = bs_free s.
Proof. exact @explicit_set_get. Qed.
Print Assumptions C28_substitution_explicit.

Theorem C28_substitution_unknown : forall (F V : Type) (feq : F -> F -> bool) (zero : V) (iadd : Z -> Z -> Z) (mem : imp V -> list V -> Prop)
  (okq : (Z -> V) -> Prop) (P : con V (list V) -> Prop) (n m : Z), family n m P ->
  forall (s : bs F V) l c x, breach feq zero iadd mem okq P n m s l ->
  (forall d h, In (d, h) l -> feq (bc_f d) (bc_f c) = false) ->
  bset_of feq zero s c x = Some (s, false) /\ bget_of feq s c = Some None.
Proof. exact @set_get_unknown. Qed.
Print Assumptions C28_substitution_unknown.

(** Two constraints with the same function, one treated explicitly, the other (with
    another explicit function) numerically: setting the right hand side of the explicit
    one reports success, leaves it as it was and changes the other one. *)
Theorem C28_substitution_refuted : exists (s s' : bs nat Z) l c d p x,
  breach Nat.eqb 0%Z Z.add clk_mem clk_ok clkP 6 6 s l /\ In (c, Explicitly) l /\ In (d, Numerically p) l /\
  bset_of Nat.eqb 0%Z s c x = Some (s', true) /\ ~ In x (rhsl (bs_e s)) /\ rhsl (bs_e s') = rhsl (bs_e s) /\
  get_rhs_of Nat.eqb (bs_h s) (bc_f d) 2 = Some (Some [0; 0]%Z) /\ get_rhs_of Nat.eqb (bs_h s') (bc_f d) 2 = Some (Some x).
Proof.
  exists (fst shadow), (match bset_of Nat.eqb 0%Z (fst shadow) e4 [5; 6]%Z with Some (s, _) => s | None => fst shadow end), (snd shadow), e4, e4', 0, [5; 6]%Z.
  split; [exact shadow_breach|]. split; [vm_compute; tauto|]. split; [vm_compute; tauto|].
  split; [vm_compute; reflexivity|]. split; [vm_compute; intros [H|[]]; discriminate|].
  split; [vm_compute; reflexivity|]. split; vm_compute; reflexivity.
Qed.
Print Assumptions C28_substitution_refuted.

Example C28_substitution_case :
  breach Nat.eqb 0%Z Z.add clk_mem clk_ok clkP 6 6 bst bhow /\
  bhow = [(e4, Explicitly); (n40, Numerically 0); (e2, Explicitly); (n44, Numerically 1)] /\
  nth_error (explicit_ones bhow) 1 = Some e2 /\ ~ function_present Nat.eqb bhow e2 /\ clk_mem (ic_s (bc_c e2)) [8; 4]%Z /\
  option_map (fun r => (rhsl (bs_e (fst r)), snd r)) (bset_of Nat.eqb 0%Z bst e2 [8; 4]%Z) = Some ([[0; 0]; [8; 0]]%Z, true) /\
  option_map (fun r => (rhsl (bs_e (fst r)), get_rhs_whole (bs_h (fst r)), snd r)) (bset_of Nat.eqb 0%Z bst n44 [8; 4]%Z)
    = Some ([[0; 0]; [0; 0]]%Z, [0; 0; 8; 4]%Z, true).
Proof.
  split; [exact bst_breach|]. split; [exact bhow_eq|]. split; [vm_compute; reflexivity|].
  split; [rewrite bhow_eq; intros (d & p & [H|[H|[H|[H|[]]]]] & E); injection H; intros; subst; discriminate|].
  split; [exists 8%Z, 4%Z; split; [reflexivity|split; [discriminate|reflexivity]]|].
  split; vm_compute; reflexivity.
Qed.

(** C29 *)
Theorem C29_substitution : forall (F V : Type) (feq : F -> F -> bool) (zero : V) (iadd : Z -> Z -> Z) (mem : imp V -> list V -> Prop)
  (okq : (Z -> V) -> Prop), equivalence feq -> forall (P : con V (list V) -> Prop) (n m : Z), family n m P ->
  forall (s : bs F V) l, breach feq zero iadd mem okq P n m s l ->
  (nlevels (numeric_ones l) = 0 \/ nlevels (numeric_ones l) = 1 /\
   Forall2 (fun c y => s_exp c (s_log c y) = y) (map ic_s (at_level (numeric_ones l) 0)) (pieces (map ic_s (at_level (numeric_ones l) 0)) (get_rhs_whole (bs_h s)))) ->
  (explicit_ones l = [] \/ sum_nq (at_level (numeric_ones l) 0) = 0) ->
  bset_whole zero s (bget_whole s) = Some s.
Proof. exact @whole_write_back. Qed.
Print Assumptions C29_substitution.

(** With both kinds of constraints and one level, reading the vector and writing it
    back changes the right hand sides of the explicit constraints. *)
Theorem C29_substitution_refuted : exists (s s' : bs nat Z) l,
  breach Nat.eqb 0%Z Z.add clk_mem clk_ok clkP 6 6 s l /\ nlevels (numeric_ones l) = 1 /\
  bget_whole s = [0; 0; 7; 3]%Z /\ bset_whole 0%Z s (bget_whole s) = Some s' /\ bget_whole s' = [0; 0; 0; 0]%Z.
Proof.
  exists mixed_set, (match bset_whole 0%Z mixed_set (bget_whole mixed_set) with Some s => s | None => mixed_set end), (snd mixed).
  split; [exact mixed_set_breach|]. split; [vm_compute; reflexivity|]. split; [vm_compute; reflexivity|]. split; vm_compute; reflexivity.
Qed.
Print Assumptions C29_substitution_refuted.

Example C29_substitution_case :
  let s := fst (built [(e4, 0); (e2, 0)]) in let l := snd (built [(e4, 0); (e2, 0)]) in
  breach Nat.eqb 0%Z Z.add clk_mem clk_ok clkP 6 6 s l /\ nlevels (numeric_ones l) = 0 /\ sum_nq (at_level (numeric_ones l) 0) = 0 /\
  length (explicit_ones l) = 2 /\
  option_map bget_whole (bset_whole 0%Z s [1; 2; 3; 4]%Z) = Some [1; 2; 3; 0]%Z.
Proof.
  cbv zeta. split; [apply built_breach; wfs|]. split; [vm_compute; reflexivity|]. split; [vm_compute; reflexivity|]. split; vm_compute; reflexivity.
Qed.

(** C30: any addition resets the right hand sides of all numerical constraints and
    keeps those of explicit ones. *)
Theorem C30_substitution : forall (F V : Type) (feq : F -> F -> bool) (zero : V) (iadd : Z -> Z -> Z) (mem : imp V -> list V -> Prop)
  (okq : (Z -> V) -> Prop), equivalence feq -> forall (P : con V (list V) -> Prop) (n m : Z), family n m P ->
  forall (s : bs F V) l c p fuel s', breach feq zero iadd mem okq P n m s l -> wf_bc zero mem okq P m c ->
  badd feq iadd fuel s c p = (s', BYes) ->
  exists h, breach feq zero iadd mem okq P n m s' (l ++ [(c, h)]) /\
  (forall d r, In (d, r) (numeric_ones (l ++ [(c, h)])) ->
     get_rhs_of feq (bs_h s') (ic_f d) (s_nq (ic_s d)) = Some (Some (s_neutral (ic_s d)))) /\
  rhsl (bs_e s') = rhsl (bs_e s) ++ match h with Explicitly => [s_neutral (ic_s (bc_c c))] | _ => [] end.
Proof. exact @addition_rhs. Qed.
Print Assumptions C30_substitution.

Example C30_substitution_case :
  breach Nat.eqb 0%Z Z.add clk_mem clk_ok clkP 6 6 mixed_set (snd mixed) /\
  wf_bc 0%Z clk_mem clk_ok clkP 6 n44 /\ snd (badd Nat.eqb Z.add 20 mixed_set n44 1) = BYes /\
  rhsl (bs_e (fst (badd Nat.eqb Z.add 20 mixed_set n44 1))) = [[7; 3]]%Z.
Proof. split; [exact mixed_set_breach|]. split; [apply bn_wf|]. split; vm_compute; reflexivity. Qed.

(** C36: [drun ops]: members dq_ and freeVariables_ after a sequence of updates, changes
    of free variables, expansions of the reduced step and scalings by the line
    searches; [sizes o]: o is an update or a change of free variables. *)
Theorem C36_zero_outside : forall (V : Type) (zero : V) (scale : V -> V) (m : Z), scale zero = zero ->
  forall (ops : list (dop (V := V))) (d : dir (V := V)), drun zero scale m (dir_init zero m) ops = Some d ->
  (forall i, ~ covers (fv d) i -> dq d i = zero) /\
  (existsb sizes ops = true -> dsz d = m) /\ (existsb sizes ops = false -> dsz d = 0%Z).
Proof. exact @direction_zero. Qed.
Print Assumptions C36_zero_outside.

Theorem C36_free_set : forall (V : Type) (zero : V) (scale : V -> V) (m : Z) (d : dir (V := V)) l d', nonneg l ->
  dstep zero scale m d (DFree l) = Some d' ->
  (forall i, covers (fv d') i <-> covers l i) /\ NoDup (indices (fv d')) /\ dsz d' = m /\ forall i, dq d' i = zero.
Proof. exact @free_set. Qed.
Print Assumptions C36_free_set.

Theorem C36_expand : forall (V : Type) (zero : V) (scale : V -> V) (m : Z) (d : dir (V := V)) (small : list V),
  forallb (seg_inb (dsz d)) (fv d) = true -> NoDup (indices (fv d)) ->
  (forall d', dstep zero scale m d (DExpand small) = Some d' ->
     length small = length (indices (fv d)) /\ fv d' = fv d /\ dsz d' = dsz d /\ map (dq d') (indices (fv d)) = small /\
     forall i, ~ covers (fv d) i -> dq d' i = dq d i) /\
  (length small = length (indices (fv d)) -> dstep zero scale m d (DExpand small) <> None).
Proof. exact @expand_spec. Qed.
Print Assumptions C36_expand.

(** Before the first update the direction has size 0. *)
Theorem C36_fresh_refuted : exists m : Z, (0 < m)%Z /\ drun 0%Z (Z.mul 2) m (dir_init 0%Z m) [] = Some (dir_init 0%Z m) /\
  dsz (dir_init 0%Z m) <> m /\ drun 0%Z (Z.mul 2) m (dir_init 0%Z m) [DExpand [7]%Z] = None.
Proof. exists 1%Z. repeat split; try reflexivity. discriminate. Qed.
Print Assumptions C36_fresh_refuted.

Example C36_case :
  option_map (fun d => (dsz d, map (dq d) [0; 1; 2; 3; 4; 5]%Z)) (drun 0%Z (Z.mul 2) 6%Z (dir_init 0%Z 6%Z)
    [DUpdate; DExpand [1; 2; 3; 4; 5; 6]%Z; DFree [(4, 2); (0, 1)]%Z; DExpand [7; 8; 9]%Z; DScale]) = Some (6, [14; 0; 0; 0; 16; 18])%Z.
Proof. vm_compute. reflexivity. Qed.

(** C37: [active_row cs r k c]: row r of the level is a row of constraint number k that
    is active in its mask.  Hierarchical solver with free variables [free]: *)
Theorem C37_hierarchical : forall (F V : Type) (feq : F -> F -> bool) (zero : V) (mem : imp V -> list V -> Prop)
  (okq : (Z -> V) -> Prop), equivalence feq -> forall (s : hs F V) adds free, hreach feq zero mem okq s adds ->
  (forall p l, nth_error (lvls s) p = Some l ->
     let rows := indices (active_rows_of_J (act_free free) l) in
     StronglySorted Z.lt rows /\
     forall r, In r rows <-> exists k c, active_row (at_level adds p) r k c /\ exists i, covers free i /\ uses c i) /\
  reduced_dim (act_free free) s = Z.of_nat (list_sum (map (fun l => length (indices (active_rows_of_J (act_free free) l))) (lvls s))).
Proof. exact @rows_hier. Qed.
Print Assumptions C37_hierarchical.

(** Solver by substitution; [reaches ex c i]: the function of c depends on i or on an
    output of the explicit constraints computed from i. *)
Theorem C37_substitution : forall (F V : Type) (feq : F -> F -> bool) (zero : V) (iadd : Z -> Z -> Z) (mem : imp V -> list V -> Prop)
  (okq : (Z -> V) -> Prop), equivalence feq -> forall (P : con V (list V) -> Prop) (n m : Z), family n m P -> exact_add iadd ->
  forall (s : bs F V) l junk, breach feq zero iadd mem okq P n m s l ->
  (forall p lv, nth_error (lvls (bs_h s)) p = Some lv ->
     let rows := indices (active_rows_of_J (act_bs iadd junk (bs_e s) (bs_free s)) lv) in
     StronglySorted Z.lt rows /\
     forall r, In r rows <-> exists k c, active_row (at_level (numeric_ones l) p) r k c /\
       exists i, free_var m (excons l) i /\ reaches (excons l) c i) /\
  reduced_dim (act_bs iadd junk (bs_e s) (bs_free s)) (bs_h s)
    = Z.of_nat (list_sum (map (fun lv => length (indices (active_rows_of_J (act_bs iadd junk (bs_e s) (bs_free s)) lv))) (lvls (bs_h s)))).
Proof. exact @rows_bysub. Qed.
Print Assumptions C37_substitution.

(** n44 depends only on clock 4, which is computed from clock 2, itself from clock 0 *)
Example C37_case :
  breach Nat.eqb 0%Z Z.add clk_mem clk_ok clkP 6 6 bst bhow /\ exact_add Z.add /\ bs_free bst = [(0, 2)]%Z /\
  map (fun lv => indices (active_rows_of_J (act_bs Z.add (fun _ => []) (bs_e bst) (bs_free bst)) lv)) (lvls (bs_h bst)) = [[0]; [1]]%Z /\
  map (fun lv => indices (active_rows_of_J (act_free [(4, 1)]%Z) lv)) (lvls (bs_h bst)) = [[0]; [1]]%Z /\
  map (fun lv => indices (active_rows_of_J (act_free [(0, 2)]%Z) lv)) (lvls (bs_h bst)) = [[0]; []]%Z.
Proof. split; [exact bst_breach|]. split; [intros x y; reflexivity|]. repeat split; vm_compute; reflexivity. Qed.

(** C39.  The boolean tells whether merge reached its end (otherwise it threw). *)
Theorem C39_merge : forall (F V : Type) (feq : F -> F -> bool) (zero : V) (mem : imp V -> list V -> Prop)
  (okq : (Z -> V) -> Prop), equivalence feq -> forall (s o : hs F V) adds oadds, hreach feq zero mem okq s adds -> hreach feq zero mem okq o oadds ->
  exists new, hreach feq zero mem okq (fst (hmerge feq s o)) (adds ++ new) /\
    (forall c p, In (c, p) new -> In (c, p) oadds /\ contains feq s c = false) /\
    (snd (hmerge feq s o) = true <-> forall c p, In (c, p) oadds ->
        contains feq s c = true \/ forall d r, In (d, r) adds -> feq (ic_f d) (ic_f c) = false) /\
    (snd (hmerge feq s o) = true ->
       map fst new = filter (fun c => negb (contains feq s c)) (map fst oadds) /\
       (forall c p, In (c, p) oadds -> contains feq (fst (hmerge feq s o)) c = true) /\
       hsub feq (fst (hmerge feq s o)) o = true).
Proof. exact @hmerge_spec. Qed.
Print Assumptions C39_merge.

(** [meet (c_in x) (c_out x)]: an input interval of x overlaps its output interval *)
Theorem C39_merge_substitution : forall (F V : Type) (feq : F -> F -> bool) (zero : V) (iadd : Z -> Z -> Z) (mem : imp V -> list V -> Prop)
  (okq : (Z -> V) -> Prop), equivalence feq -> forall (P : con V (list V) -> Prop) (n m : Z), family n m P ->
  forall (s o : bs F V) l lo, breach feq zero iadd mem okq P n m s l -> breach feq zero iadd mem okq P n m o lo ->
  exists fuel0, forall fuel, fuel0 <= fuel -> exists new s' r, bmerge feq iadd fuel s o = (s', r) /\ breach feq zero iadd mem okq P n m s' (l ++ new) /\
    (forall c h, In (c, h) new -> ~ present feq l c /\ exists ho, In (c, ho) lo) /\
    (r = BYes /\ (forall c h, In (c, h) lo -> bcontains feq s' c = true) /\ bsub feq s' o = true \/
     r = BThrow /\ exists c h, In (c, h) lo /\ ~ present feq (l ++ new) c /\
       (function_present feq (l ++ new) c \/ exists x, bc_con c = Some x /\ meet (c_in x) (c_out x))).
Proof. exact @bmerge_spec. Qed.
Print Assumptions C39_merge_substitution.

Theorem C39_submanifold : forall (F V : Type) (feq : F -> F -> bool), equivalence feq ->
  (forall s : hs F V, hsub feq s s = true) /\
  (forall s t u : hs F V, hsub feq s t = true -> hsub feq t u = true -> hsub feq s u = true) /\
  (forall s : bs F V, bsub feq s s = true) /\
  (forall s t u : bs F V, bsub feq s t = true -> bsub feq t u = true -> bsub feq s u = true).
Proof.
  exact (fun F V feq EQ => conj (fun s => submanifold_refl feq EQ _) (conj (fun s t u => submanifold_trans feq EQ _ _ _)
         (conj (fun s => submanifold_refl feq EQ _) (fun s t u => submanifold_trans feq EQ _ _ _)))).
Qed.
Print Assumptions C39_submanifold.

Example C39_case :
  let o := fst (built [(n40, 2); (e2, 0)]) in
  breach Nat.eqb 0%Z Z.add clk_mem clk_ok clkP 6 6 (fst mixed) (snd mixed) /\
  snd (bmerge Nat.eqb Z.add 20 (fst mixed) o) = BYes /\ length (bs_cons (fst (bmerge Nat.eqb Z.add 20 (fst mixed) o))) = 3 /\
  bsub Nat.eqb (fst mixed) o = false /\ snd (bmerge Nat.eqb Z.add 20 (fst mixed) (fst (built [(bn 3 4 0 Equality Superior true true, 0)]))) = BThrow /\
  snd (hmerge Nat.eqb ex_hs ex_hs) = true /\ snd (hmerge Nat.eqb ex_hs (bs_h (fst mixed))) = false.
Proof. cbv zeta. split; [exact mixed_breach|]. repeat split; vm_compute; reflexivity. Qed.

(** C41 *)
Theorem C41_add : forall (F V : Type) (feq : F -> F -> bool) (zero : V) (iadd : Z -> Z -> Z) (mem : imp V -> list V -> Prop)
  (okq : (Z -> V) -> Prop) (P : con V (list V) -> Prop) (n m : Z), family n m P ->
  forall (s : bs F V) l c p, breach feq zero iadd mem okq P n m s l -> wf_bc zero mem okq P m c ->
  let numeric r := (function_present feq l c -> r = (s, BThrow)) /\
    (~ function_present feq l c -> exists s', r = (s', BYes) /\ breach feq zero iadd mem okq P n m s' (l ++ [(c, Numerically p)]) /\ bs_e s' = bs_e s) in
  exists fuel0, forall fuel, fuel0 <= fuel ->
  (present feq l c -> badd feq iadd fuel s c p = (s, BNo)) /\
  (~ present feq l c ->
    (forall x, bc_con c = Some x -> acceptable (excons l) x ->
      exists s', badd feq iadd fuel s c p = (s', BYes) /\ breach feq zero iadd mem okq P n m s' (l ++ [(c, Explicitly)]) /\
        bs_h s' = update (bs_h s) /\ rhsl (bs_e s') = rhsl (bs_e s) ++ [s_neutral (ic_s (bc_c c))]) /\
    (forall x, bc_con c = Some x -> ~ acceptable (excons l) x ->
      (badd feq iadd fuel s c p = (s, BThrow) /\ meet (c_in x) (c_out x)) \/ numeric (badd feq iadd fuel s c p)) /\
    (bc_con c = None -> numeric (badd feq iadd fuel s c p))).
Proof. exact @badd_spec. Qed.
Print Assumptions C41_add.

Theorem C41_state : forall (F V : Type) (feq : F -> F -> bool) (zero : V) (iadd : Z -> Z -> Z) (mem : imp V -> list V -> Prop)
  (okq : (Z -> V) -> Prop) (P : con V (list V) -> Prop) (n m : Z), family n m P ->
  forall (s : bs F V) l, breach feq zero iadd mem okq P n m s l ->
  bs_cons s = map fst l /\ bs_ex s = explicit_ones l /\ data (bs_e s) = excons l /\
  map bc_con (explicit_ones l) = map Some (excons l) /\ hreach feq zero mem okq (bs_h s) (numeric_ones l) /\
  (forall i, covers (bs_free s) i <-> free_var m (excons l) i) /\ sorted_separated (bs_free s) /\
  (forall c, In c (map fst l) -> (forall f, feq f f = true) -> bcontains feq s c = true).
Proof. exact @breach_state. Qed.
Print Assumptions C41_state.

Example C41_case :
  breach Nat.eqb 0%Z Z.add clk_mem clk_ok clkP 6 6 bst bhow /\
  badd Nat.eqb Z.add 20 bst n44 3 = (bst, BNo) /\ snd (badd Nat.eqb Z.add 20 bst (bx 9 9 0 0 Equality Equality) 0) = BThrow /\
  snd (badd Nat.eqb Z.add 20 bst (bn 3 4 0 Superior Equality true true) 0) = BThrow /\
  (let r := badd Nat.eqb Z.add 20 bst (bx 9 9 0 4 Equality Equality) 1 in snd r = BYes /\ bs_ex (fst r) = bs_ex bst /\ length (hcons (bs_h (fst r))) = 3).
Proof. split; [exact bst_breach|]. repeat split; vm_compute; reflexivity. Qed.

(** C45 *)
Theorem C45_implicit_dof : forall (F V : Type) (feq : F -> F -> bool) (zero : V) (iadd : Z -> Z -> Z) (mem : imp V -> list V -> Prop)
  (okq : (Z -> V) -> Prop), equivalence feq -> forall (P : con V (list V) -> Prop) (n m : Z), family n m P -> exact_add iadd ->
  forall (s : bs F V) l, breach feq zero iadd mem okq P n m s l ->
  (forall p, p < nlevels (numeric_ones l) -> at_level (numeric_ones l) p <> []) ->
  exists rows, implicit_dof iadd s = Some rows /\ sorted_separated rows /\
  forall i, covers rows i <-> free_var m (excons l) i /\ exists c p, In (c, p) (numeric_ones l) /\ reaches (excons l) c i.
Proof. exact @implicit_dof_spec. Qed.
Print Assumptions C45_implicit_dof.

(** A priority level without constraint makes the call undefined (arrays of different
    sizes are combined). *)
Theorem C45_empty_level : forall (F V : Type) (feq : F -> F -> bool) (zero : V) (iadd : Z -> Z -> Z) (mem : imp V -> list V -> Prop)
  (okq : (Z -> V) -> Prop), equivalence feq -> forall (P : con V (list V) -> Prop) (n m : Z), family n m P ->
  forall (s : bs F V) l, breach feq zero iadd mem okq P n m s l -> (0 < m)%Z ->
  (exists p, p < nlevels (numeric_ones l) /\ at_level (numeric_ones l) p = []) -> implicit_dof iadd s = None.
Proof. exact @implicit_dof_gap. Qed.
Print Assumptions C45_empty_level.

Theorem C45_refuted : exists (s : bs nat Z) l, breach Nat.eqb 0%Z Z.add clk_mem clk_ok clkP 6 6 s l /\ implicit_dof Z.add s = None.
Proof. exists (fst gap), (snd gap). split; [exact gap_breach|]. vm_compute. reflexivity. Qed.
Print Assumptions C45_refuted.

Example C45_case :
  breach Nat.eqb 0%Z Z.add clk_mem clk_ok clkP 6 6 bst bhow /\ implicit_dof Z.add bst = Some [(0, 2)]%Z /\
  implicit_dof Z.add (fst mixed) = Some [(0, 4)]%Z /\
  implicit_dof Z.add (fst (built [(e4, 0); (n44, 0)])) = Some [(2, 2)]%Z.
Proof. split; [exact bst_breach|]. repeat split; vm_compute; reflexivity. Qed.

(** C47: [canon_bs o s] is s with the neutral element as right hand side of every
    constraint and last-level-optional flag o. *)
Theorem C47_save_load : forall (F V T : Type) (feq : F -> F -> bool) (zero : V) (iadd : Z -> Z -> Z) (mem : imp V -> list V -> Prop)
  (okq : (Z -> V) -> Prop), equivalence feq -> forall (P : con V (list V) -> Prop) (n m : Z), family n m P ->
  forall (eps : T) (x : full F V T) l, breach feq zero iadd mem okq P n m (f_s x) l ->
  exists fuel0, forall fuel, fuel0 <= fuel ->
  bload feq iadd eps fuel (bsave feq x) =
    Some (mkfull (canon_bs (last_optional (bs_h (f_s x))) (f_s x)) (f_sq x) (f_ineq x) (f_maxit x) None eps 0).
Proof. exact @save_load. Qed.
Print Assumptions C47_save_load.

(** what canon_bs keeps *)
Theorem C47_kept : forall (F V : Type) o (s : bs F V),
  let s' := canon_bs o s in
  bs_cons s' = bs_cons s /\ bs_ex s' = bs_ex s /\ bs_free s' = bs_free s /\ data (bs_e s') = data (bs_e s) /\ order (bs_e s') = order (bs_e s) /\
  hcons (bs_h s') = hcons (bs_h s) /\ prio (bs_h s') = prio (bs_h s) /\ iqm (bs_h s') = iqm (bs_h s) /\ ivm (bs_h s') = ivm (bs_h s) /\
  map l_cons (lvls (bs_h s')) = map l_cons (lvls (bs_h s)) /\ last_optional (bs_h s') = o /\
  rhsl (bs_e s') = map (fun c => s_neutral (ic_s (bc_c c))) (bs_ex s) /\
  (forall lv, In lv (lvls (bs_h s')) -> l_rhs lv = concat (map (fun c => s_neutral (ic_s c)) (l_cons lv))).
Proof. exact @canon_keeps. Qed.
Print Assumptions C47_kept.

(** A loaded solver can update its Jacobian iff the explicit constraints only read
    variables that explicit constraints compute. *)
Theorem C47_jacobian_kept : forall (F V T : Type) (feq : F -> F -> bool) (zero : V) (iadd : Z -> Z -> Z) (mem : imp V -> list V -> Prop)
  (okq : (Z -> V) -> Prop), equivalence feq -> forall (P : con V (list V) -> Prop) (n m : Z), family n m P ->
  forall (eps : T) (x : full F V T) l, breach feq zero iadd mem okq P n m (f_s x) l ->
  exists fuel0, forall fuel, fuel0 <= fuel -> exists y, bload feq iadd eps fuel (bsave feq x) = Some y /\
  (je_fits y = true <-> forall i, inputv (excons l) i -> outputv (excons l) i).
Proof. exact @load_fits. Qed.
Print Assumptions C47_jacobian_kept.

(** After loading, a solver whose explicit constraints read a free variable cannot
    update its Jacobian: JeExpanded_ has no row. *)
Theorem C47_jacobian_refuted : exists (x y : full nat Z Z) l fuel,
  breach Nat.eqb 0%Z Z.add clk_mem clk_ok clkP 6 6 (f_s x) l /\ f_je x = 6%Z /\ je_fits x = true /\
  bload Nat.eqb Z.add 0%Z fuel (bsave Nat.eqb x) = Some y /\ je_fits y = false /\ f_level y = None /\ f_ex x <> f_ex y.
Proof.
  set (x := mkfull bst 4%Z 1%Z 40%Z (Some true) 2%Z 6%Z).
  exists x, (match bload Nat.eqb Z.add 0%Z 20 (bsave Nat.eqb x) with Some y => y | None => x end), bhow, 20.
  split; [exact bst_breach|]. split; [reflexivity|]. split; [vm_compute; reflexivity|]. split; [vm_compute; reflexivity|].
  split; [vm_compute; reflexivity|]. split; [vm_compute; reflexivity|]. vm_compute. discriminate.
Qed.
Print Assumptions C47_jacobian_refuted.

Example C47_case :
  let x := mkfull mixed_set 4%Z 1%Z 40%Z (Some true) 2%Z 6%Z in
  breach Nat.eqb 0%Z Z.add clk_mem clk_ok clkP 6 6 (f_s x) (snd mixed) /\ rhsl (bs_e (f_s x)) = [[7; 3]]%Z /\
  option_map (fun y => (rhsl (bs_e (f_s y)), f_sq y, f_ineq y, f_maxit y)) (bload Nat.eqb Z.add 0%Z 20 (bsave Nat.eqb x)) = Some ([[0; 0]], 4, 1, 40)%Z.
Proof. cbv zeta. split; [exact mixed_set_breach|]. split; vm_compute; reflexivity. Qed.
